(** C87, continued: the fast AVL algorithm, which the default method uses on numpy samples of one column.

    [rescaled k x x']: [x'] holds exactly 2^k times the numbers of [x] (PFloatScale.v). *)
From Coq Require Import Reals Lra Lia List Arith Bool ZArith Psatz.
From Flocq Require Import Core IEEE754.BinarySingleNaN.
From Verif Require Import Num Numpy MUtils MDistances MInternals MMergesort MAvl MDcor MInteger MFloat Sums Spec Tab Samples RefDist RefDcor Api Witness
  Calls AvlGeneric RefInteger RefFloat FloatApi FloatSum FloatEnv FloatError PInteger PFloat FloatNaive PFloatCorr FloatScale FloatScaleAvl PFloatScale.
Import ListNotations.
Local Open Scope R_scope.
Local Notation p2 := (bpow radix2).
Local Notation fz := (B754_zero false : b64).

(** numpy's argsort only compares: lists of finite numbers in the same order are sorted by the same permutation. *)
Definition compares (E : Env b64) : Prop := forall l l' : list b64, length l = length l' ->
  Forall (fun v => is_finite v = true) l -> Forall (fun v => is_finite v = true) l' ->
  (forall i j, (i < length l)%nat -> (j < length l)%nat -> B2R (nth i l fz) <= B2R (nth j l fz) <-> B2R (nth i l' fz) <= B2R (nth j l' fz)) ->
  e_argsort E l = e_argsort E l'.

(** A numpy float64 sample of [n] observations with one column, each number 0 or between 2^-40 and 2^40 in absolute value. *)
Definition measured (n : nat) (x : array b64) : Prop :=
  wf x /\ ans x = Numpy /\ adt x = F64 /\ univariate x /\ shape0 x = n /\ (4 <= n)%nat /\ (Z.of_nat n <= 2 ^ 18)%Z /\
  forall i, (i < n)%nat -> is_finite (fobs x i 0) = true /\
    (obs (freals x) i 0 = 0 \/ / 2 ^ 40 <= Rabs (obs (freals x) i 0) <= 2 ^ 40).

Lemma concat_ones {A} n (f : nat -> A) : concat (tab n (fun i => [f i])) = tab n f.
Proof. unfold tab. induction (seq 0 n); cbn; congruence. Qed.
Lemma column (x : array b64) : wf x -> ncols x = 1%nat -> transform_to_1d (adata x) = Ok (tab (shape0 x) (fun i => fobs x i 0)).
Proof.
  destruct x as [s d [v|c rows]]; unfold wf, shape0, ncols, fobs; simpl; intros H Hc.
  - f_equal. apply tab_of_list.
  - subst c. simpl. f_equal. rewrite Forall_forall in H.
    rewrite (tab_of_list [] rows) at 1.
    rewrite <- (concat_ones (length rows) (fun i => nth 0 (nth i rows []) fz)). f_equal. apply tab_ext. intros i Hi.
    assert (length (nth i rows []) = 1%nat) as Hl by (apply H, nth_In; auto).
    destruct (nth i rows []) as [|a [|]]; simpl in Hl; try lia. reflexivity.
Qed.

Lemma sc_pos k (a b c d : b64) : sc k 92 40 a b -> sc k 92 40 c d -> B2R a <= B2R c <-> B2R b <= B2R d.
Proof.
  intros (_ & _ & -> & _) (_ & _ & -> & _). pose proof (bpow_gt_0 radix2 k). split; intros H'; [apply Rmult_le_compat_l; lra|eapply Rmult_le_reg_l; eauto].
Qed.

Section Avl.
  Context (lib : flib) (E : Env b64) (HE : valid_fenv lib E) (HC : compares E).

  Lemma same_order k l l' : scs k 92 40 l l' -> e_argsort E l = e_argsort E l'.
  Proof.
    intros H. apply HC.
    - apply (Forall2_len _ _ _ H).
    - clear - H. induction H as [|a b l l' (F & _)]; constructor; auto.
    - clear - H. induction H as [|a b l l' (_ & F & _)]; constructor; auto.
    - intros i j Hi Hj. apply (sc_pos k); apply scs_nth; auto.
  Qed.

  Section Two.
    Context (n : nat) (k l : Z) (x x' y y' : array b64) (K : (-40 <= k <= 40)%Z) (L : (-40 <= l <= 40)%Z).
    Context (Mx : measured n x) (My : measured n y) (Rx : rescaled k x x') (Ry : rescaled l y y').

    Lemma column_scaled j (u u' : array b64) : (-40 <= j <= 40)%Z -> measured n u -> rescaled j u u' ->
      exists v v', transform_to_1d (adata u) = Ok v /\ transform_to_1d (adata u') = Ok v' /\ scs j 92 40 v v' /\ length v = n.
    Proof.
      intros J (W & _ & _ & U & S & _ & _ & M) (_ & _ & W' & S' & C' & R). unfold univariate in U.
      exists (tab n (fun i => fobs u i 0)), (tab n (fun i => fobs u' i 0)).
      split; [rewrite <- S; apply column; auto|]. split; [rewrite <- S, <- S'; apply column; auto; congruence|]. split; [|apply tab_length].
      apply Forall2_tab. intros i Hi. destruct (M i Hi) as (F & B). destruct (R i 0%nat) as (F' & Q); [lia|lia|]. rewrite !obs_freals in *.
      split; [exact F|]. split; [exact F'|]. split; [rewrite Q, bpow_powerRZ; reflexivity|]. split.
      - apply (low_fixed 40); [apply generic_format_B2R|]. destruct B as [B|[B _]]; [left; auto|right]. eapply Rle_trans; [|exact B]. apply Req_le. exact (p2_inv 40).
      - destruct B as [-> | [_ B]]; [rewrite Rabs_R0; apply bpow_ge_0|]. eapply Rle_trans; [exact B|]. apply Req_le. symmetry. exact (p2_pow 40).
    Qed.

    Lemma impl_scaled lib' E' v v' w w' oob kk kv : valid_fenv lib' E' -> e_argsort E' = e_argsort E ->
      scs k 92 40 v v' -> scs l 92 40 w w' -> length v = n -> length w = n -> (4 <= n)%nat -> (Z.of_nat n <= 2 ^ 18)%Z ->
      exists t t', terms_avl_impl E' false oob kk kv v w false = Ok t /\ terms_avl_impl E' false oob kk kv v' w' false = Ok t' /\ terms_sc k l n t t'.
    Proof.
      intros HE' HA Hv Hw Lv Lw N1 N2.
      pose proof (avl_scaled lib' (vf_lib _ _ HE') E' (vf_num _ _ HE') (vf_empty _ _ HE') (fun l0 => is_perm_length _ _ (vf_perm _ _ HE' l0)) k l K L
        ltac:(intros; rewrite HA; eapply same_order; eauto) n N1 N2 v v' w w' Hv Hw Lv Lw oob kk kv) as R.
      destruct (terms_avl_agree E' (fshape lib' E' HE') v w false ltac:(congruence) ltac:(lia)) as (t0 & t & _ & H). destruct (H oob kk kv) as [_ T].
      rewrite T in R |- *. destruct (terms_avl_impl E' false oob kk kv v' w' false) as [t'|]; [|contradiction]. eexists _, t'. split; [reflexivity|]. split; [reflexivity|exact R].
    Qed.

    Lemma outcome_scaled cm : not_forced cm \/ cm = CCompileCpu ->
      exists t t', outcome (terms_avl E x y (b64_ofZ 1) cm false) = Ok t /\ outcome (terms_avl E x' y' (b64_ofZ 1) cm false) = Ok t' /\ terms_sc k l n t t'.
    Proof.
      intros Hcm. destruct (column_scaled k x x' K Mx Rx) as (v & v' & V & V' & Sv & Lv). destruct (column_scaled l y y' L My Ry) as (w & w' & W & W' & Sw & Lw).
      pose proof Mx as (_ & Ax & Dx & _ & _ & N1 & N2 & _). pose proof My as (_ & Ay & Dy & _). pose proof Rx as (Ax' & Dx' & _). pose proof Ry as (Ay' & Dy' & _).
      assert (He : neqb (e_num E) (b64_ofZ 1) (nunit (e_num E)) = true) by (rewrite (vf_num _ _ HE); apply one_one).
      assert (R : forall u z : array b64, adt u = F64 -> adt z = F64 -> runs cm u z) by (intros u z Hu Hz; destruct Hcm as [Hcm | ->]; [left; auto|right; unfold forced_f64, is_float64; auto]).
      rewrite (avl_outcome E (fshape lib E HE) x y (b64_ofZ 1) false v w cm He V W) by (auto using together_l).
      rewrite (avl_outcome E (fshape lib E HE) x' y' (b64_ofZ 1) false v' w' cm He V' W') by (auto; apply together_l; congruence).
      assert (Cm : compiles cm x' y' = compiles cm x y) by (unfold compiles; rewrite Dx, Dy, Dx', Dy'; reflexivity). rewrite Cm. destruct (compiles cm x y).
      - rewrite !(avl_compiled E (fshape lib E HE)) by apply (f00 lib E HE). apply (impl_scaled (seq_lib lib) (seq_env E)); auto using valid_seq.
      - apply (impl_scaled lib E); auto.
    Qed.
  End Two.

  Lemma auto_avl n u z m cm rv : measured n u \/ (exists j u0, measured n u0 /\ rescaled j u0 u) -> measured n z \/ (exists j z0, measured n z0 /\ rescaled j z0 z) ->
    avl_or_auto m -> method_terms E m u z (b64_ofZ 1) cm rv = terms_avl E u z (b64_ofZ 1) cm rv.
  Proof.
    intros Hu Hz Hm.
    assert (G : forall a, measured n a \/ (exists j a0, measured n a0 /\ rescaled j a0 a) -> ans a = Numpy /\ is_random_variable (adata a) = true /\ (3 <? shape0 a)%nat = true).
    { intros a Ha. assert (P : ans a = Numpy /\ ncols a = 1%nat /\ (4 <= shape0 a)%nat).
      { destruct Ha as [(_ & A & _ & U & S & H4 & _)|(j & a0 & (_ & A & _ & U & S & H4 & _) & (A' & _ & _ & S' & C' & _))]; unfold univariate in U.
        - repeat split; auto. lia.
        - repeat split; [congruence|congruence|lia]. }
      destruct P as (A & C & H4). split; [exact A|]. split; [|apply Nat.ltb_lt; lia].
      destruct a as [s d [v|c rows]]; unfold ncols in C; cbn in *; auto. subst c. reflexivity. }
    destruct (G u Hu) as (A1 & A2 & A3). destruct (G z Hz) as (B1 & B2 & B3).
    destruct Hm as [-> | ->]; cbn [method_terms]; auto. unfold terms_auto, can_use_fast_algorithm.
    rewrite (together_l u z A1), A2, A3, B2, B3, (vf_num _ _ HE). cbn [is_numpy andb neqb nunit B64Num]. rewrite one_one. reflexivity.
  Qed.
End Avl.

(** The squared distance covariance, biased or not, by the AVL algorithm, compiled or not, and by the default method. *)
Theorem C87_avl f lib E n k l x x' y y' m cm : valid_fenv lib E -> compares E -> squared f -> avl_or_auto m -> not_forced cm \/ cm = CCompileCpu ->
  (-40 <= k <= 40)%Z -> (-40 <= l <= 40)%Z -> measured n x -> measured n y -> rescaled k x x' -> rescaled l y y' ->
  exists v v', call f E x y (b64_ofZ 1) m cm = Ok v /\ call f E x' y' (b64_ofZ 1) m cm = Ok v' /\
    is_finite v = true /\ is_finite v' = true /\ B2R v' = powerRZ 2 (k + l) * B2R v.
Proof.
  intros HE HC Hf Hm Hcm K L Mx My Rx Ry.
  destruct (outcome_scaled lib E HE HC n k l x x' y y' K L Mx My Rx Ry cm Hcm) as (t & t' & T & T' & (S1 & S2 & S3 & S4 & S5 & La & Lb)).
  assert (Hw : wants_var f = false) by (destruct Hf as [-> | ->]; reflexivity).
  pose proof Mx as (_ & _ & _ & _ & Lx & N1 & N2 & _). assert (Lx' : shape0 x' = n) by (rewrite <- Lx; apply Rx).
  assert (W : forall j u u' , scs j 92 61 u u' -> scaleds j 118 (p2 73) u u').
  { intros j u u' H. induction H as [|a b u u' H]; constructor; auto. eapply scaled_weaken; [exact H|lia|apply p2_le; lia]. }
  destruct (from_terms_scaled lib E HE n k l (t_mean_prod t) (t_mean_prod t') (t_a_total t) (t_a_total t') (t_b_total t) (t_b_total t')
    (t_a_axis t) (t_a_axis t') (t_b_axis t) (t_b_axis t') (corrected f) K L ltac:(destruct (corrected f); lia) N2) as (v & v' & V & V' & F & F' & S & _); auto.
  - eapply scaled_weaken; [exact S1|lia|apply p2_le; lia].
  - eapply scaled_weaken; [exact S3|lia|apply p2_le; lia].
  - eapply scaled_weaken; [exact S5|lia|apply p2_le; lia].
  - assert (M0 : (if corrected f then 4 <= n else 1 <= n)%nat) by (destruct (corrected f); lia).
    exists v, v'. rewrite !call_terms, Hw, Lx, Lx'.
    rewrite (auto_avl lib E HE n x y m cm false) by (auto; left; auto). rewrite T.
    rewrite (auto_avl lib E HE n x' y' m cm false) by (auto; right; eauto). rewrite T'. cbn [rbind]. unfold finish. rewrite Hw.
    rewrite (from_terms_kind E (t_kind t) AllNumpy), (from_terms_kind E (t_kind t') AllNumpy), V, V' by exact M0. cbn [rbind].
    split; [destruct Hf as [-> | ->]; reflexivity|]. split; [destruct Hf as [-> | ->]; reflexivity|]. split; [exact F|]. split; [exact F'|].
    rewrite S, bpow_powerRZ. reflexivity.
Qed.

(** Sorting by insertion only compares. *)
Section Insertion.
  Context (l l' : list b64) (Hlen : length l = length l').
  Context (F : Forall (fun v => is_finite v = true) l) (F' : Forall (fun v => is_finite v = true) l').
  Context (O : forall i j, (i < length l)%nat -> (j < length l)%nat -> B2R (nth i l fz) <= B2R (nth j l fz) <-> B2R (nth i l' fz) <= B2R (nth j l' fz)).
  Definition same (p q : b64 * nat) : Prop := snd p = snd q /\ (snd p < length l)%nat /\ fst p = nth (snd p) l fz /\ fst q = nth (snd p) l' fz.
  Lemma same_leb p q r s : same p q -> same r s -> Bleb (fst p) (fst r) = Bleb (fst q) (fst s).
  Proof.
    intros (_ & Hi & -> & ->) (_ & Hj & -> & ->). rewrite Forall_forall in F, F'.
    rewrite !Bleb_correct by (first [apply F; apply nth_In; lia|apply F'; apply nth_In; lia]).
    pose proof (O _ _ Hi Hj) as Q. destruct (Rle_bool_spec (B2R (nth (snd p) l fz)) (B2R (nth (snd r) l fz))) as [H|H]; symmetry.
    - apply Rle_bool_true. apply Q. exact H.
    - apply Rle_bool_false. apply Rnot_le_lt. intros G. apply Q in G. lra.
  Qed.
  Lemma finsert_same p q m m' : same p q -> Forall2 same m m' -> Forall2 same (finsert p m) (finsert q m').
  Proof.
    intros Hp H. induction H as [|a b m m' Hab H IH]; cbn [finsert]; [repeat constructor; apply Hp|].
    rewrite (same_leb a b p q Hab Hp). destruct (Bleb _ _); repeat (constructor; auto).
  Qed.
  Lemma fsort_same m m' : Forall2 same m m' -> forall acc acc', Forall2 same acc acc' ->
    Forall2 same (fold_left (fun acc v => finsert v acc) m acc) (fold_left (fun acc v => finsert v acc) m' acc').
  Proof. induction 1 as [|a b m m' Hab H IH]; intros acc acc' Ha; cbn [fold_left]; auto. apply IH, finsert_same; auto. Qed.
  Lemma pairs_same (u u' : list b64) : length u = length u' -> forall k, (forall i, (i < length u)%nat -> (k + i < length l)%nat /\ nth i u fz = nth (k + i) l fz /\ nth i u' fz = nth (k + i) l' fz) ->
    Forall2 same (combine u (seq k (length u))) (combine u' (seq k (length u'))).
  Proof.
    revert u'. induction u as [|a u IH]; intros [|b u'] Hu k H; try discriminate Hu; cbn [length seq combine]; constructor.
    - destruct (H 0%nat) as (H1 & H2 & H3); [cbn; lia|]. rewrite Nat.add_0_r in *. cbn [nth] in *. repeat split; auto.
    - apply IH; [cbn in Hu; lia|]. intros i Hi. destruct (H (S i)) as (H1 & H2 & H3); [cbn; lia|]. rewrite <- plus_n_Sm in *. auto.
  Qed.
  Lemma fargsort_same : fargsort l = fargsort l'.
  Proof.
    unfold fargsort, fsort. pose proof (fsort_same _ _ (pairs_same l l' Hlen 0%nat (fun i Hi => conj Hi (conj eq_refl eq_refl))) [] [] (Forall2_nil _)) as H.
    revert H. generalize (fold_left (fun acc v => finsert v acc) (combine l (seq 0 (length l))) []). generalize (fold_left (fun acc v => finsert v acc) (combine l' (seq 0 (length l'))) []).
    intros m' m H. induction H as [|p q m m' (H & _) _ IH]; cbn [map]; congruence.
  Qed.
End Insertion.

Lemma env_F_compares : compares env_F.
Proof. intros l l' Hl F F' O. apply fargsort_same; auto. Qed.

Lemma small_measured (l : list Z) : (4 <= length l <= 100)%nat -> Forall (fun z => (Z.abs z <= 100)%Z) l -> measured (length l) (ints l).
Proof.
  intros Hl F. split; [exact I|]. split; [reflexivity|]. split; [reflexivity|]. split; [reflexivity|]. split; [apply map_length|]. split; [lia|]. split; [lia|].
  intros i Hi. rewrite obs_freals. assert (Hf : fobs (ints l) i 0 = b64_ofZ (nth i l 0%Z)) by (unfold fobs, ints; cbn [adata]; change fz with (b64_ofZ 0); apply map_nth).
  rewrite Hf. rewrite Forall_forall in F. pose proof (F _ (nth_In l 0%Z Hi)) as B. destruct (rep_ofZ (nth i l 0%Z)) as (Fz & -> & _); [lia|]. split; [exact Fz|].
  set (z := nth i l 0%Z) in *. destruct (Z.eq_dec z 0) as [-> | H]; [left; reflexivity|right]. rewrite <- abs_IZR.
  assert (2 ^ 40 = 1099511627776) by (cbn; lra). assert (/ 2 ^ 40 <= 1) by (rewrite <- Rinv_1; apply Rinv_le_contravar; lra).
  assert (1 <= IZR (Z.abs z)) by (apply IZR_le; lia). assert (IZR (Z.abs z) <= 100) by (apply IZR_le; lia). split; lra.
Qed.

Example C87_avl_meets : valid_fenv plain env_F /\ compares env_F /\ measured 5 xi /\ measured 5 yi /\
  exists v v', call UDcovSqr env_F xi yi (b64_ofZ 1) MAuto CAuto = Ok v /\
    call UDcovSqr env_F (times eight xi) (times quarter yi) (b64_ofZ 1) MAuto CAuto = Ok v' /\ B2R v' = 2 * B2R v.
Proof.
  assert (Bx : Forall (fun z => (Z.abs z <= 100)%Z) [3; 1; 2; 1; 5]%Z) by (repeat constructor; cbn; lia).
  assert (By : Forall (fun z => (Z.abs z <= 100)%Z) [0; 2; 2; 7; 1]%Z) by (repeat constructor; cbn; lia).
  assert (Mx : measured 5 xi) by (apply (small_measured [3; 1; 2; 1; 5]%Z); [cbn; lia|exact Bx]).
  assert (My : measured 5 yi) by (apply (small_measured [0; 2; 2; 7; 1]%Z); [cbn; lia|exact By]).
  split; [exact env_F_valid|]. split; [exact env_F_compares|]. split; [exact Mx|]. split; [exact My|].
  destruct C87_meets as (_ & _ & Rx & Ry & _).
  destruct (C87_avl UDcovSqr plain env_F 5 3 (-2) xi (times eight xi) yi (times quarter yi) MAuto CAuto) as (v & v' & V & V' & _ & _ & S);
    auto using env_F_valid, env_F_compares; try lia.
  - right. reflexivity.
  - right. reflexivity.
  - left. left. reflexivity.
  - exists v, v'. split; [exact V|]. split; [exact V'|]. rewrite S. change (3 + -2)%Z with 1%Z. rewrite powerRZ_1. reflexivity.
Qed.
