(** Sums and dot products of doubles in any order of addition. *)
From Coq Require Import Reals Lra Lia List Arith Bool ZArith Psatz Permutation FunctionalExtensionality.
From Flocq Require Import Core IEEE754.BinarySingleNaN.
From Verif Require Import Num Numpy MFloat RefInteger RefFloat FloatError.
Import ListNotations.
Local Open Scope R_scope.

(** ** Equal up to the sign of a zero *)

Definition eqz (a b : b64) : Prop := a = b \/ exists s t, a = B754_zero s /\ b = B754_zero t.
Lemma eqz_refl a : eqz a a. Proof. left. reflexivity. Qed.
Lemma eqz_sym a b : eqz a b -> eqz b a.
Proof. intros [->|(s & t & -> & ->)]; [left; auto|right; eauto]. Qed.
Lemma eqz_trans a b c : eqz a b -> eqz b c -> eqz a c.
Proof.
  intros [->|(s & t & -> & ->)] H; [auto|]. destruct H as [<-|(s' & t' & _ & ->)]; right; eauto.
Qed.
Lemma eqz_finite a b : eqz a b -> is_finite a = is_finite b.
Proof. intros [->|(s & t & -> & ->)]; auto. Qed.
Lemma eqz_B2R a b : eqz a b -> B2R a = B2R b.
Proof. intros [->|(s & t & -> & ->)]; auto. Qed.
Lemma eqz_nan a b : eqz a b -> is_nan a = is_nan b.
Proof. intros [->|(s & t & -> & ->)]; auto. Qed.
Lemma eqz_of_real a b : is_finite a = true -> is_finite b = true -> B2R a = B2R b -> eqz a b.
Proof.
  intros Fa Fb H. destruct (Req_dec (B2R a) 0) as [H0|H0].
  - right. assert (Z : forall v : b64, is_finite v = true -> B2R v = 0 -> exists s, v = B754_zero s).
    { clear. intros [s|s| |s m e He] F H; try discriminate; [eauto|]. cbn in H. exfalso. apply eq_0_F2R in H. destruct s; discriminate. }
    destruct (Z a Fa H0) as [s ->]. destruct (Z b Fb) as [t ->]; [congruence|]. eauto.
  - left. apply B2R_Bsign_inj; auto.
    assert (S : forall v : b64, is_finite v = true -> B2R v = B2R a -> Bsign v = Rlt_bool (B2R a) 0).
    { clear - H0. intros v Fv Rv. destruct v as [s|s| |s m e He]; try discriminate; cbn [B2R Bsign] in *.
      - congruence.
      - rewrite <- Rv. destruct s; symmetry; [apply Rlt_bool_true, F2R_lt_0 | apply Rlt_bool_false, F2R_ge_0]; cbn; lia. }
    rewrite (S a), (S b); auto.
Qed.
Definition eqzs : list b64 -> list b64 -> Prop := Forall2 eqz.

Lemma zero_add s a : eqz (b64_add (B754_zero s) a) a.
Proof. destruct a as [t|t| |t m e He]; try (left; reflexivity). right. destruct s, t; cbn; eauto. Qed.
Lemma add_zero s a : eqz (b64_add a (B754_zero s)) a.
Proof. destruct a as [t|t| |t m e He]; try (left; reflexivity). right. destruct s, t; cbn; eauto. Qed.
Lemma zero_sub s a a' : eqz a a' -> eqz (b64_sub (B754_zero s) a) (b64_sub (B754_zero s) a').
Proof. intros [->|(t & u & -> & ->)]; [left; auto|]. right. destruct s, t, u; cbn; eauto. Qed.
Lemma eqz_add a a' b b' : eqz a a' -> eqz b b' -> eqz (b64_add a b) (b64_add a' b').
Proof.
  intros [->|(s & t & -> & ->)] [->|(u & v & -> & ->)].
  - left; auto.
  - eapply eqz_trans; [apply add_zero|]. apply eqz_sym, add_zero.
  - eapply eqz_trans; [apply zero_add|]. apply eqz_sym, zero_add.
  - right. destruct s, t, u, v; cbn; eauto.
Qed.
Lemma sub_zero s a : eqz (b64_sub a (B754_zero s)) a.
Proof. destruct a as [t|t| |t m e He]; try (left; reflexivity). right. destruct s, t; cbn; eauto. Qed.
Lemma eqz_sub a a' b b' : eqz a a' -> eqz b b' -> eqz (b64_sub a b) (b64_sub a' b').
Proof.
  intros [->|(s & t & -> & ->)] [->|(u & v & -> & ->)].
  - left; auto.
  - eapply eqz_trans; [apply sub_zero|]. apply eqz_sym, sub_zero.
  - destruct b' as [w|w| |w m e He]; try (left; reflexivity). right. destruct s, t, w; cbn; eauto.
  - right. destruct s, t, u, v; cbn; eauto.
Qed.
Lemma eqz_mul a a' b b' : eqz a a' -> eqz b b' -> eqz (b64_mul a b) (b64_mul a' b').
Proof.
  intros [->|(s & t & -> & ->)] [->|(u & v & -> & ->)].
  - left; auto.
  - destruct a' as [w|w| |w m e He]; cbn; try (left; reflexivity); right; eauto.
  - destruct b' as [w|w| |w m e He]; cbn; try (left; reflexivity); right; eauto.
  - right; cbn; eauto.
Qed.
Lemma eqz_div a a' b : eqz a a' -> eqz (b64_div a b) (b64_div a' b).
Proof.
  intros [->|(s & t & -> & ->)]; [left; auto|]. destruct b as [w|w| |w m e He]; cbn; try (left; reflexivity); right; eauto.
Qed.
Lemma eqz_sqrt a a' : eqz a a' -> eqz (b64_sqrt a) (b64_sqrt a').
Proof. intros [->|(s & t & -> & ->)]; [left; auto|]. right. cbn. eauto. Qed.
Lemma eqz_fma a a' b b' c c' : eqz a a' -> eqz b b' -> eqz c c' -> eqz (b64_fma a b c) (b64_fma a' b' c').
Proof.
  intros [->|(s & t & -> & ->)] [->|(u & v & -> & ->)] [->|(p & q & -> & ->)].
  - left; auto.
  - destruct a' as [w|w| |w m e He], b' as [z|z| |z m' e' He']; try (left; reflexivity); try (right; cbn; eauto; fail).
    left. destruct w, z; reflexivity.
  - destruct a' as [w|w| |w m e He], c' as [z|z| |z m' e' He']; try (left; reflexivity); right; cbn; eauto.
  - destruct a' as [w|w| |w m e He]; try (left; reflexivity); right; cbn; eauto.
  - destruct b' as [w|w| |w m e He], c' as [z|z| |z m' e' He']; try (left; reflexivity); right; cbn; eauto.
  - destruct b' as [w|w| |w m e He]; try (left; reflexivity); right; cbn; eauto.
  - destruct c' as [w|w| |w m e He]; try (left; reflexivity); right; cbn; eauto.
  - right; cbn; eauto.
Qed.

Lemma eqzs_nth l l' i : eqzs l l' -> eqz (nth i l (B754_zero false)) (nth i l' (B754_zero false)).
Proof. intros H. revert i. induction H; intros [|i]; cbn [nth]; auto using eqz_refl. Qed.
Lemma eqzs_length l l' : eqzs l l' -> length l = length l'.
Proof. induction 1; cbn; congruence. Qed.
Lemma eqz_seval t l l' : eqzs l l' -> eqz (seval t l) (seval t l').
Proof. intros H. induction t; cbn [seval]; auto using eqz_refl, eqzs_nth, eqz_add. Qed.
Lemma eqz_deval t a a' b b' : eqzs a a' -> eqzs b b' -> eqz (deval t a b) (deval t a' b').
Proof. intros H H'. induction t; cbn [deval]; auto using eqz_refl, eqzs_nth, eqz_add, eqz_mul, eqz_fma. Qed.

Lemma eqz_ndot lib a a' b b' : eqzs a a' -> eqzs b b' -> eqz (ndot (B64Num lib) a b) (ndot (B64Num lib) a' b').
Proof.
  intros H H'. assert (L := eqzs_length _ _ H).
  assert (G : forall i j, i = j -> eqz (deval (f_dot lib i) a b) (deval (f_dot lib j) a' b')) by (intros i j ->; apply eqz_deval; auto).
  exact (G _ _ L).
Qed.
Lemma eqz_npsum lib l l' : eqzs l l' -> eqz (np_sum (B64Num lib) l) (np_sum (B64Num lib) l').
Proof.
  intros H. assert (L := eqzs_length _ _ H).
  assert (G : forall i j, i = j -> eqz (seval (f_sum lib i) l) (seval (f_sum lib j) l')) by (intros i j ->; apply eqz_seval; auto).
  exact (G _ _ L).
Qed.

(** ** Orders of addition *)

(** [sum_of l v]: [v] is a sum of the numbers [l] in some order; [dot_of]: of the products of the pairs. *)
Inductive sum_of : list b64 -> b64 -> Prop :=
| sum_none s : sum_of [] (B754_zero s)
| sum_one a : sum_of [a] a
| sum_add l l' a b : sum_of l a -> sum_of l' b -> sum_of (l ++ l') (b64_add a b)
| sum_perm l l' a : Permutation l l' -> sum_of l a -> sum_of l' a.
Inductive dot_of : list (b64 * b64) -> b64 -> Prop :=
| dot_none s : dot_of [] (B754_zero s)
| dot_one a b : dot_of [(a, b)] (b64_mul a b)
| dot_fma a b l c : dot_of l c -> dot_of ((a, b) :: l) (b64_fma a b c)
| dot_add l l' a b : dot_of l a -> dot_of l' b -> dot_of (l ++ l') (b64_add a b)
| dot_perm l l' a : Permutation l l' -> dot_of l a -> dot_of l' a.

(** Every position is added exactly once. *)
Record good_lib (lib : flib) : Prop := {
  gl_sum : forall n, Permutation (sleaves (f_sum lib n)) (seq 0 n);
  gl_dot : forall n, Permutation (dleaves (f_dot lib n)) (seq 0 n) }.

Notation fz := (B754_zero false : b64).
Lemma map_nth_seq {A} (d : A) l : map (fun i => nth i l d) (seq 0 (length l)) = l.
Proof.
  induction l as [|a l IH]; auto. cbn [length seq map nth]. f_equal. rewrite <- seq_shift, map_map. exact IH.
Qed.
Lemma seval_sum t l : sum_of (map (fun i => nth i l fz) (sleaves t)) (seval t l).
Proof. induction t; cbn [sleaves seval map]; [constructor|constructor|]. rewrite map_app. constructor; auto. Qed.
Lemma deval_dot t a b : dot_of (map (fun i => (nth i a fz, nth i b fz)) (dleaves t)) (deval t a b).
Proof. induction t; cbn [dleaves deval map]; try (constructor; auto; fail). rewrite map_app. constructor; auto. Qed.
Lemma combine_seq {A} (d : A) a : forall b, length a = length b -> map (fun i => (nth i a d, nth i b d)) (seq 0 (length a)) = combine a b.
Proof.
  induction a as [|u a IH]; intros [|v b] H; try discriminate; auto. cbn [length seq map nth combine]. f_equal.
  rewrite <- seq_shift, map_map. apply IH. auto.
Qed.
Lemma np_sum_of lib l : good_lib lib -> sum_of l (np_sum (B64Num lib) l).
Proof.
  intros H. unfold np_sum. cbn [nsum B64Num]. eapply sum_perm; [|apply seval_sum].
  rewrite <- (map_nth_seq fz l) at 2. apply Permutation_map, gl_sum; auto.
Qed.
Lemma ndot_of lib a b : good_lib lib -> length a = length b -> dot_of (combine a b) (ndot (B64Num lib) a b).
Proof.
  intros H Hl. cbn [ndot B64Num]. eapply dot_perm; [|apply deval_dot].
  rewrite <- (combine_seq fz a b Hl). apply Permutation_map, gl_dot; auto.
Qed.

Lemma zero_eqz s : eqz (B754_zero s) fz. Proof. right. eauto. Qed.
Lemma sum_nil l a : sum_of l a -> l = [] -> eqz a fz.
Proof.
  induction 1; intros Hl; try discriminate; auto using zero_eqz.
  - apply app_eq_nil in Hl. destruct Hl. apply (eqz_add a fz b fz); auto.
  - apply IHsum_of. subst. apply Permutation_nil, Permutation_sym; auto.
Qed.
Lemma dot_nil l a : dot_of l a -> l = [] -> eqz a fz.
Proof.
  induction 1; intros Hl; try discriminate; auto using zero_eqz.
  - apply app_eq_nil in Hl. destruct Hl. apply (eqz_add a fz b fz); auto.
  - apply IHdot_of. subst. apply Permutation_nil, Permutation_sym; auto.
Qed.

(** Additions of a zero do not count. *)
Lemma sum_induct (P : list b64 -> b64 -> Prop) :
  P [] fz -> (forall a, P [a] a) ->
  (forall l l' a b, l <> [] -> l' <> [] -> P l a -> P l' b -> P (l ++ l') (b64_add a b)) ->
  (forall l l' a, Permutation l l' -> P l a -> P l' a) -> (forall l a b, eqz a b -> P l a -> P l b) ->
  forall l a, sum_of l a -> P l a.
Proof.
  intros H0 H1 HA HP HE l a H. induction H as [s|a|l l' a b Ha IHa Hb IHb|l l' a Hp Ha IH]; eauto.
  - eapply HE; [apply eqz_sym, zero_eqz|auto].
  - destruct l as [|u l].
    + cbn [app]. eapply HE; [|exact IHb]. eapply eqz_trans; [|eapply eqz_add; [apply eqz_sym, (sum_nil _ _ Ha); auto|apply eqz_refl]].
      apply eqz_sym, zero_add.
    + destruct l' as [|v l'].
      * rewrite app_nil_r. eapply HE; [|exact IHa]. eapply eqz_trans; [|eapply eqz_add; [apply eqz_refl|apply eqz_sym, (sum_nil _ _ Hb); auto]].
        apply eqz_sym, add_zero.
      * apply HA; auto; discriminate.
Qed.
Lemma dot_induct (P : list (b64 * b64) -> b64 -> Prop) :
  P [] fz -> (forall a b, P [(a, b)] (b64_mul a b)) -> (forall a b l c, P l c -> P ((a, b) :: l) (b64_fma a b c)) ->
  (forall l l' a b, l <> [] -> l' <> [] -> P l a -> P l' b -> P (l ++ l') (b64_add a b)) ->
  (forall l l' a, Permutation l l' -> P l a -> P l' a) -> (forall l a b, eqz a b -> P l a -> P l b) ->
  forall l a, dot_of l a -> P l a.
Proof.
  intros H0 H1 HF HA HP HE l a H. induction H as [s|a b|a b l c Hc IH|l l' a b Ha IHa Hb IHb|l l' a Hp Ha IH]; eauto.
  - eapply HE; [apply eqz_sym, zero_eqz|auto].
  - destruct l as [|u l].
    + cbn [app]. eapply HE; [|exact IHb]. eapply eqz_trans; [|eapply eqz_add; [apply eqz_sym, (dot_nil _ _ Ha); auto|apply eqz_refl]].
      apply eqz_sym, zero_add.
    + destruct l' as [|v l'].
      * rewrite app_nil_r. eapply HE; [|exact IHa]. eapply eqz_trans; [|eapply eqz_add; [apply eqz_refl|apply eqz_sym, (dot_nil _ _ Hb); auto]].
        apply eqz_sym, add_zero.
      * apply HA; auto; discriminate.
Qed.

(** Exact sums in any order. *)
Lemma sum_R_app l l' : np_sum RNum (l ++ l') = np_sum RNum l + np_sum RNum l'.
Proof.
  change (np_sum RNum) with (fun l => fold_left Rplus l 0). cbn beta. rewrite fold_left_app. generalize (fold_left Rplus l 0). clear l.
  induction l' as [|a l' IH]; intros s; cbn [fold_left]; [ring|]. rewrite IH, (IH (0 + a)). ring.
Qed.
Lemma sum_R_one a : np_sum RNum [a] = a.
Proof. change (0 + a = a). ring. Qed.
Lemma sum_R_cons a l : np_sum RNum (a :: l) = a + np_sum RNum l.
Proof. change (a :: l) with ([a] ++ l). rewrite sum_R_app, sum_R_one. reflexivity. Qed.
Lemma sum_R_perm l l' : Permutation l l' -> np_sum RNum l = np_sum RNum l'.
Proof.
  induction 1; auto; try congruence.
  - rewrite (sum_R_cons x l), (sum_R_cons x l'). congruence.
  - rewrite !sum_R_cons. ring.
Qed.
Lemma sum_Z_app l l' : (np_sum ZNum (l ++ l') = np_sum ZNum l + np_sum ZNum l')%Z.
Proof.
  change (np_sum ZNum) with (fun l => fold_left Z.add l 0%Z). cbn beta. rewrite fold_left_app. generalize (fold_left Z.add l 0%Z). clear l.
  induction l' as [|a l' IH]; intros s; cbn [fold_left]; [ring|]. rewrite IH, (IH (0 + a)%Z). ring.
Qed.
Lemma sum_Z_one a : np_sum ZNum [a] = a.
Proof. change (0 + a = a)%Z. ring. Qed.
Lemma sum_Z_cons a l : np_sum ZNum (a :: l) = (a + np_sum ZNum l)%Z.
Proof. change (a :: l) with ([a] ++ l). rewrite sum_Z_app, sum_Z_one. reflexivity. Qed.
Lemma sum_Z_perm l l' : Permutation l l' -> np_sum ZNum l = np_sum ZNum l'.
Proof.
  induction 1; auto; try congruence.
  - rewrite (sum_Z_cons x l), (sum_Z_cons x l'). congruence.
  - rewrite !sum_Z_cons. ring.
Qed.

Lemma Permutation_Forall2' {A B} (Q : A -> B -> Prop) l l' : Permutation l l' -> forall m, Forall2 Q l' m -> exists m', Permutation m' m /\ Forall2 Q l m'.
Proof.
  intros Hp m H. destruct (Permutation_Forall2 (P := Q) (Permutation_sym Hp) H) as (m' & H1 & H2). exists m'. split; auto. apply Permutation_sym; auto.
Qed.

(** *** Integers *)
Lemma rep_eqz K a b z : eqz a b -> rep K a z -> rep K b z.
Proof. intros H (F & Rr & B). rewrite (eqz_finite _ _ H) in F. rewrite (eqz_B2R _ _ H) in Rr. repeat split; auto. Qed.
Lemma rep_fma K L M a b c x y z : rep K a x -> rep L b y -> rep M c z -> (K * L + M <= 2 ^ 53)%Z -> rep (K * L + M) (b64_fma a b c) (x * y + z).
Proof.
  intros (Fa & Ra & Ka) (Fb & Rb & Kb) (Fc & Rc & Kc) HK.
  pose proof (Bfma_correct 53 1024 b64_prec b64_emax mode_NE a b c Fa Fb Fc) as H. cbv zeta in H.
  assert (Hk : (Z.abs (x * y) <= K * L)%Z) by (rewrite Z.abs_mul; apply Z.mul_le_mono_nonneg; lia).
  assert (Hz : (Z.abs (x * y + z) <= 2 ^ 53)%Z) by lia.
  rewrite Ra, Rb, Rc, <- mult_IZR, <- plus_IZR, b64_small in H by auto. destruct H as (H1 & H2 & _).
  rewrite b64_round_Z in H1 by auto. repeat split; auto. lia.
Qed.
Lemma rep_sum_of K l a : sum_of l a -> forall zs, Forall2 (rep K) l zs -> (Z.of_nat (length l) * K <= 2 ^ 53)%Z ->
  rep (Z.of_nat (length l) * K) a (np_sum ZNum zs).
Proof.
  revert l a. apply (sum_induct (fun l a => forall zs, Forall2 (rep K) l zs -> (Z.of_nat (length l) * K <= 2 ^ 53)%Z -> rep (Z.of_nat (length l) * K) a (np_sum ZNum zs))).
  - intros zs H _. inversion H; subst. apply rep_zero.
  - intros a zs H _. inversion H as [|? z ? ? Ha Hn]; subst. inversion Hn; subst. rewrite sum_Z_one. eapply rep_weaken; [exact Ha|]. cbn [length]. lia.
  - intros l l' a b _ _ IHa IHb zs H HK. apply Forall2_app_inv_l in H. destruct H as (z1 & z2 & H1 & H2 & ->). rewrite app_length, Nat2Z.inj_add, Z.mul_add_distr_r in *.
    assert (K0 : (0 <= Z.of_nat (length l) * K)%Z /\ (0 <= Z.of_nat (length l') * K)%Z).
    { split; [destruct H1 as [|? ? ? ? (_ & _ & H)]; cbn [length]; [lia|apply Z.mul_nonneg_nonneg; lia]|destruct H2 as [|? ? ? ? (_ & _ & H)]; cbn [length]; [lia|apply Z.mul_nonneg_nonneg; lia]]. }
    rewrite sum_Z_app. apply rep_add; [apply IHa; auto; lia|apply IHb; auto; lia|auto].
  - intros l l' a Hp IH zs H HK. destruct (Permutation_Forall2' _ _ _ Hp _ H) as (zs' & P & H'). rewrite <- (sum_Z_perm _ _ P), <- (Permutation_length Hp).
    apply IH; auto. rewrite (Permutation_length Hp). auto.
  - intros l a b He IH zs H HK. eapply rep_eqz; eauto.
Qed.
Lemma rep_dot_of K L l v : dot_of l v -> forall zs, Forall2 (fun p q => rep K (fst p) (fst q) /\ rep L (snd p) (snd q)) l zs ->
  (Z.of_nat (length l) * (K * L) <= 2 ^ 53)%Z -> rep (Z.of_nat (length l) * (K * L)) v (np_sum ZNum (map (fun q => fst q * snd q)%Z zs)).
Proof.
  revert l v. apply (dot_induct (fun l v => forall zs, Forall2 (fun p q => rep K (fst p) (fst q) /\ rep L (snd p) (snd q)) l zs ->
  (Z.of_nat (length l) * (K * L) <= 2 ^ 53)%Z -> rep (Z.of_nat (length l) * (K * L)) v (np_sum ZNum (map (fun q => fst q * snd q)%Z zs)))).
  - intros zs H _. inversion H; subst. apply rep_zero.
  - intros a b zs H HK. inversion H as [|? z ? ? [Ha Hb] Hn]; subst. inversion Hn; subst. cbn [map]. rewrite sum_Z_one. cbn [length fst snd] in *. rewrite Z.mul_1_l in *.
    apply rep_mul; auto.
  - intros a b l c IH zs H HK. inversion H as [|? z ? zs' [Ha Hb] Hn]; subst. cbn [map length fst snd] in *.
    assert (K0 : (0 <= K /\ 0 <= L)%Z) by (split; [destruct Ha as (_ & _ & Ha)|destruct Hb as (_ & _ & Hb)]; lia).
    assert (0 <= K * L)%Z by (apply Z.mul_nonneg_nonneg; lia).
    replace (Z.of_nat (S (length l)) * (K * L))%Z with (K * L + Z.of_nat (length l) * (K * L))%Z in * by lia.
    rewrite sum_Z_cons. apply rep_fma; auto. apply IH; auto. lia.
  - intros l l' a b _ _ IHa IHb zs H HK. apply Forall2_app_inv_l in H. destruct H as (z1 & z2 & H1 & H2 & ->). rewrite app_length, Nat2Z.inj_add, Z.mul_add_distr_r in *.
    assert (K0 : (0 <= Z.of_nat (length l) * (K * L))%Z /\ (0 <= Z.of_nat (length l') * (K * L))%Z).
    { split; [destruct H1 as [|? ? ? ? ((_ & _ & H) & (_ & _ & H'))]|destruct H2 as [|? ? ? ? ((_ & _ & H) & (_ & _ & H'))]]; cbn [length]; try lia;
        (apply Z.mul_nonneg_nonneg; [lia|apply Z.mul_nonneg_nonneg; lia]). }
    rewrite map_app, sum_Z_app. apply rep_add; [apply IHa; auto; lia|apply IHb; auto; lia|auto].
  - intros l l' a Hp IH zs H HK. destruct (Permutation_Forall2' _ _ _ Hp _ H) as (zs' & P & H'). rewrite <- (sum_Z_perm _ _ (Permutation_map _ P)), <- (Permutation_length Hp).
    apply IH; auto. rewrite (Permutation_length Hp). auto.
  - intros l a b He IH zs H HK. eapply rep_eqz; eauto.
Qed.

(** *** Relative errors *)
Lemma near_eqz k M a b r : eqz a b -> near k M a r -> near k M b r.
Proof. intros H (F & E & N). rewrite (eqz_finite _ _ H) in F. rewrite (eqz_B2R _ _ H) in E. repeat split; auto; apply N. Qed.
Lemma near_more k M M' a r : near k M a r -> M <= M' -> near k M' a r.
Proof.
  intros (F & H & H1 & H2 & H3) HM. repeat split; auto; try lra. destruct H1 as [H1|[H1 H1']]; [left; auto|right]. split; auto.
  eapply Rle_trans; [|exact H1']. apply Rinv_le; lra.
Qed.
Lemma near_zero k M s : 1 <= M -> near k M (B754_zero s) 0.
Proof. intros H. repeat split; cbn; auto; try lra. rewrite Rminus_0_r, Rabs_R0. lra. Qed.
Lemma near_fma k l j M M' C a b c r s t : near k M a r -> near l M' b s -> near j C c t -> (k + l <= j)%nat -> few (S j) ->
  M * M' <= C -> r * s + t <= C -> C <= 2 ^ 900 -> near (S j) C (b64_fma a b c) (r * s + t).
Proof.
  intros Ha Hb Hc Hj Hf HC HS HB.
  assert (fk : few k) by (apply (few_le _ _ Hf); lia). assert (fl : few l) by (apply (few_le _ _ Hf); lia). assert (fj : few j) by (apply (few_le _ _ Hf); lia).
  destruct Ha as (Fa & Ea & La & Ra & Ma), Hb as (Fb & Eb & Lb & Rb & Mb), Hc as (Fc & Ec & Lc & Rc & Mc).
  set (x := B2R a) in *. set (y := B2R b) in *. set (z := B2R c) in *.
  assert (Hrs : 0 <= r * s) by (apply Rmult_le_pos; lra).
  assert (HMM : 1 <= M * M') by nra.
  assert (Err : Rabs (x * y - r * s) <= gam (k + l) * (r * s)).
  { replace (x * y - r * s) with ((x - r) * (y - s) + (x - r) * s + r * (y - s)) by ring.
    pose proof (gam_add k l) as G. pose proof (gam_nonneg k) as Gk. pose proof (gam_nonneg l) as Gl.
    assert (E1 : Rabs ((x - r) * (y - s)) <= gam k * r * (gam l * s)) by (rewrite Rabs_mult; apply Rmult_le_compat; auto using Rabs_pos).
    assert (E2 : Rabs ((x - r) * s) <= gam k * r * s) by (rewrite Rabs_mult, (Rabs_pos_eq s) by lra; apply Rmult_le_compat_r; lra).
    assert (E3 : Rabs (r * (y - s)) <= r * (gam l * s)) by (rewrite Rabs_mult, (Rabs_pos_eq r) by lra; apply Rmult_le_compat_l; lra).
    eapply Rle_trans; [apply Rabs_triang|]. eapply Rle_trans; [apply Rplus_le_compat_r, Rabs_triang|].
    replace (gam (k + l)) with (gam k + gam l + gam k * gam l) by lra. lra. }
  assert (Err2 : Rabs (x * y + z - (r * s + t)) <= gam j * (r * s + t)).
  { replace (x * y + z - (r * s + t)) with ((x * y - r * s) + (z - t)) by ring. eapply Rle_trans; [apply Rabs_triang|].
    pose proof (gam_mono _ _ Hj). assert (gam (k + l) * (r * s) <= gam j * (r * s)) by (apply Rmult_le_compat_r; lra). lra. }
  assert (Low : r * s + t = 0 \/ 0 < r * s + t /\ / C <= r * s + t).
  { assert (IC : / C <= / (M * M')) by (apply Rinv_le; lra).
    destruct Lc as [->|[Lc1 Lc2]]; [|right; lra]. rewrite Rplus_0_r.
    destruct La as [->|[La1 La2]]; [left; ring|]. destruct Lb as [->|[Lb1 Lb2]]; [left; ring|]. right. split; [nra|].
    eapply Rle_trans; [exact IC|]. rewrite Rinv_mult. apply Rmult_le_compat; auto; left; apply Rinv_0_lt_compat; lra. }
  pose proof (few_gam j fj) as Gj. pose proof (gam_nonneg j) as Gj0.
  assert (Hg : gam j * (r * s + t) <= / 4 * (r * s + t)) by (apply Rmult_le_compat_r; lra).
  assert (Bz : 3 / 4 * (r * s + t) <= x * y + z <= 5 / 4 * (r * s + t)) by (apply Rabs_le_inv in Err2; lra).
  assert (Nz : normal (x * y + z)).
  { destruct Low as [H0|[H0 H1]]; [left; lra|]. apply (normal_pos _ C); lra. }
  pose proof (Bfma_correct 53 1024 b64_prec b64_emax mode_NE a b c Fa Fb Fc) as HF. cbv zeta in HF. fold x y z in HF.
  destruct (normal_round _ Nz) as [_ Hov]. rewrite Rlt_bool_true in HF by exact Hov. destruct HF as (H1 & H2 & _).
  fold (b64_fma a b c) in H1, H2.
  split; [exact H2|]. rewrite H1. split; [apply round_step; auto; lra|]. split; [exact Low|]. split; [|exact Mc]. lra.
Qed.

Lemma near_sum_of k M l a : sum_of l a -> forall rs, Forall2 (near k M) l rs -> few (k + length l) -> np_sum RNum rs <= M -> 1 <= M -> M <= 2 ^ 900 ->
  near (k + length l) M a (np_sum RNum rs).
Proof.
  revert l a. apply (sum_induct (fun l a => forall rs, Forall2 (near k M) l rs -> few (k + length l) -> np_sum RNum rs <= M -> 1 <= M -> M <= 2 ^ 900 ->
    near (k + length l) M a (np_sum RNum rs))).
  - intros rs H _ _ HM _. inversion H; subst. apply near_zero; auto.
  - intros a rs H _ _ _ _. inversion H as [|? z ? ? Ha Hn]; subst. inversion Hn; subst. rewrite sum_R_one. eapply near_weaken; [exact Ha|lia].
  - intros l l' a b Nl Nl' IHa IHb rs H Hf HS HM HB. apply Forall2_app_inv_l in H. destruct H as (r1 & r2 & H1 & H2 & ->). rewrite app_length, sum_R_app in *.
    assert (pos : forall l rs, Forall2 (near k M) l rs -> 0 <= np_sum RNum rs).
    { clear. intros l rs H. induction H as [|a r l rs Ha _ IH]; [change (0 <= 0); lra|]. rewrite sum_R_cons.
      destruct Ha as (_ & _ & _ & Ha & _). lra. }
    pose proof (pos _ _ H1). pose proof (pos _ _ H2).
    destruct l as [|u l]; [congruence|]. destruct l' as [|v l']; [congruence|]. cbn [length] in *.
    set (p := S (length l)) in *. set (q := S (length l')) in *. assert (1 <= p /\ 1 <= q)%nat by (unfold p, q; lia). clearbody p q.
    replace (k + (p + q))%nat with (S (k + p + q - 1)) by lia.
    apply near_add; auto; try lra; [| |apply (few_le _ _ Hf); lia].
    + eapply near_weaken; [apply IHa; auto; [apply (few_le _ _ Hf); lia|lra]|lia].
    + eapply near_weaken; [apply IHb; auto; [apply (few_le _ _ Hf); lia|lra]|lia].
  - intros l l' a Hp IH rs H. destruct (Permutation_Forall2' _ _ _ Hp _ H) as (rs' & P & H'). rewrite <- (sum_R_perm _ _ P), <- (Permutation_length Hp). auto.
  - intros l a b He IH rs H Hf HS HM HB. eapply near_eqz; eauto.
Qed.

Definition near2 (k l : nat) (M M' : R) (p : b64 * b64) (q : R * R) : Prop := near k M (fst p) (fst q) /\ near l M' (snd p) (snd q).
Lemma near_dot_of k l M M' C ps v : dot_of ps v -> forall qs, Forall2 (near2 k l M M') ps qs -> few (k + l + length ps) ->
  np_sum RNum (map (fun q => fst q * snd q) qs) <= C -> M * M' <= C -> 1 <= C -> C <= 2 ^ 900 ->
  near (k + l + length ps) C v (np_sum RNum (map (fun q => fst q * snd q) qs)).
Proof.
  revert ps v. apply (dot_induct (fun ps v => forall qs, Forall2 (near2 k l M M') ps qs -> few (k + l + length ps) ->
    np_sum RNum (map (fun q => fst q * snd q) qs) <= C -> M * M' <= C -> 1 <= C -> C <= 2 ^ 900 ->
    near (k + l + length ps) C v (np_sum RNum (map (fun q => fst q * snd q) qs)))).
  - intros qs H _ _ _ HC _. inversion H; subst. apply near_zero; auto.
  - intros a b qs H Hf _ HM HC HB. inversion H as [|? z ? ? [Ha Hb] Hn]; subst. inversion Hn; subst. cbn [map fst snd length] in *. rewrite sum_R_one.
    eapply near_more; [|exact HM]. eapply near_weaken; [apply near_mul; [exact Ha|exact Hb|apply (few_le _ _ Hf); lia|lra]|lia].
  - intros a b ps c IH qs H Hf HS HM HC HB. inversion H as [|? z ? qs' [Ha Hb] Hn]; subst. cbn [map fst snd length] in *.
    rewrite sum_R_cons in *.
    assert (0 <= fst z * snd z) by (destruct Ha as (_ & _ & _ & Ha & _), Hb as (_ & _ & _ & Hb & _); apply Rmult_le_pos; lra).
    replace (k + l + S (length ps))%nat with (S (k + l + length ps)) by lia.
    apply (near_fma k l (k + l + length ps) M M'); auto; try lia; [|apply (few_le _ _ Hf); lia].
    apply IH; auto; [apply (few_le _ _ Hf); lia|lra].
  - intros ps ps' a b Nl Nl' IHa IHb qs H Hf HS HM HC HB. apply Forall2_app_inv_l in H. destruct H as (r1 & r2 & H1 & H2 & ->). rewrite app_length, map_app, sum_R_app in *.
    assert (pos : forall ps qs, Forall2 (near2 k l M M') ps qs -> 0 <= np_sum RNum (map (fun q => fst q * snd q) qs)).
    { clear. intros ps qs H. induction H as [|a r ps qs Ha _ IH]; [change (0 <= 0); lra|]. cbn [map]. rewrite sum_R_cons.
      destruct Ha as ((_ & _ & _ & Ha & _) & (_ & _ & _ & Hb & _)). assert (0 <= fst r * snd r) by (apply Rmult_le_pos; lra). lra. }
    pose proof (pos _ _ H1). pose proof (pos _ _ H2).
    destruct ps as [|u ps]; [congruence|]. destruct ps' as [|w ps']; [congruence|]. cbn [length] in *.
    set (p := S (length ps)) in *. set (q := S (length ps')) in *. assert (1 <= p /\ 1 <= q)%nat by (unfold p, q; lia). clearbody p q.
    replace (k + l + (p + q))%nat with (S (k + l + p + q - 1)) by lia.
    apply near_add; auto; try lra; [| |apply (few_le _ _ Hf); lia].
    + eapply near_weaken; [apply IHa; auto; [apply (few_le _ _ Hf); lia|lra]|lia].
    + eapply near_weaken; [apply IHb; auto; [apply (few_le _ _ Hf); lia|lra]|lia].
  - intros ps ps' a Hp IH qs H. destruct (Permutation_Forall2' _ _ _ Hp _ H) as (rs' & P & H'). rewrite <- (sum_R_perm _ _ (Permutation_map _ P)), <- (Permutation_length Hp). auto.
  - intros ps a b He IH qs H Hf HS HM HC HB. eapply near_eqz; eauto.
Qed.

Lemma near2_bound k l M M' ps qs : Forall2 (near2 k l M M') ps qs -> np_sum RNum (map (fun q => fst q * snd q) qs) <= INR (length ps) * (M * M').
Proof.
  induction 1 as [|p q ps qs Hp _ IH]; [change (0 <= 0 * (M * M')); lra|]. cbn [map length]. rewrite sum_R_cons, S_INR.
  destruct Hp as ((_ & _ & _ & Ha & _) & (_ & _ & _ & Hb & _)). assert (fst q * snd q <= M * M') by (apply Rmult_le_compat; lra). lra.
Qed.
Lemma near2_combine k l M M' a p : Forall2 (near k M) a p -> forall b q, Forall2 (near l M') b q -> Forall2 (near2 k l M M') (combine a b) (combine p q).
Proof. induction 1; intros b q Hb; [constructor|]. destruct Hb; cbn [combine]; constructor; auto. split; auto. Qed.
Lemma near_bound k M l rs : Forall2 (near k M) l rs -> np_sum RNum rs <= INR (length l) * M.
Proof.
  induction 1 as [|a r l rs (_ & _ & _ & Ha & _) _ IH]; [change (0 <= 0 * M); lra|]. cbn [length]. rewrite sum_R_cons, S_INR. lra.
Qed.

(** ** Left to right *)
Fixpoint seq_stree (n : nat) : stree := match n with O => SZero false | S n => Node (seq_stree n) (Leaf n) end.
Fixpoint seq_dtree (n : nat) : dtree := match n with O => DZero false | S n => DNode (seq_dtree n) (DMul n) end.
Definition seq_lib (lib : flib) : flib := mkLib (f_pow lib) seq_stree (f_dot lib).
Lemma seq_stree_leaves n : sleaves (seq_stree n) = seq 0 n.
Proof. induction n as [|n IH]; auto. cbn [sleaves seq_stree]. rewrite seq_S, IH. reflexivity. Qed.
Lemma seq_dtree_leaves n : dleaves (seq_dtree n) = seq 0 n.
Proof. induction n as [|n IH]; auto. cbn [dleaves seq_dtree]. rewrite seq_S, IH. reflexivity. Qed.
Lemma good_seq_lib lib : good_lib lib -> good_lib (seq_lib lib).
Proof. intros H. split; cbn; intros n; [rewrite seq_stree_leaves; auto|apply H]. Qed.
Lemma seval_app n : forall l l', (n <= length l)%nat -> seval (seq_stree n) (l ++ l') = seval (seq_stree n) l.
Proof.
  induction n as [|n IH]; intros l l' H; auto. cbn [seq_stree seval]. rewrite IH by lia. rewrite app_nth1 by lia. reflexivity.
Qed.
Lemma seval_seq l : seval (seq_stree (length l)) l = fold_left b64_add l fz.
Proof.
  induction l as [|a l IH] using rev_ind; auto. rewrite app_length, Nat.add_comm. cbn [length Nat.add seq_stree seval].
  rewrite seval_app, IH, fold_left_app, app_nth2, Nat.sub_diag by lia. reflexivity.
Qed.
Lemma seq_num_lib lib : seq_num (B64Num lib) = B64Num (seq_lib lib).
Proof.
  unfold seq_num, B64Num, seq_lib. cbn [nzero nunit nadd nsub nmul ndiv nleb nltb neqb nsqrt npow nabs nofZ nisnan ndot f_pow f_sum f_dot].
  f_equal. apply functional_extensionality. intros l. symmetry. apply seval_seq.
Qed.
