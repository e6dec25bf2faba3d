(** The AVL algorithm on doubles that are integers: as long as nothing exceeds 2^53 it computes the exact integers. *)
From Coq Require Import Reals Lia List Arith Bool ZArith Psatz.
From Flocq Require Import Core IEEE754.BinarySingleNaN.
From Verif Require Import Num Numpy MUtils MInternals MMergesort MAvl MFloat RefFloat AvlGeneric RefInteger FloatError FloatSum.
Import ListNotations.
Local Open Scope Z_scope.

Notation B := (2 ^ 53).
Definition reps (K : Z) : list b64 -> list Z -> Prop := Forall2 (rep K).
Definition len {A} (l : list A) : Z := Z.of_nat (length l).

Lemma reps_length K l zs : reps K l zs -> length l = length zs.
Proof. induction 1; cbn; congruence. Qed.
Lemma reps_weaken K L l zs : reps K l zs -> K <= L -> reps L l zs.
Proof. intros H HK. induction H; constructor; eauto using rep_weaken. Qed.
Lemma rep_nonneg K a z : rep K a z -> 0 <= K.
Proof. intros (_ & _ & H). lia. Qed.
Lemma reps_nth K l zs i : reps K l zs -> 0 <= K -> rep K (nth i l (B754_zero false)) (nth i zs 0).
Proof.
  intros H HK. revert i. induction H; intros [|i]; cbn [nth]; auto; eapply rep_weaken; eauto using rep_zero.
Qed.
Lemma reps_take K l zs idx : reps K l zs -> 0 <= K -> reps K (take (B754_zero false) l idx) (take 0 zs idx).
Proof. intros H HK. unfold take. induction idx; cbn [map]; constructor; auto. apply reps_nth; auto. Qed.
Lemma reps_map K M f g l zs : (forall a x, rep K a x -> rep M (f a) (g x)) -> reps K l zs -> reps M (map f l) (map g zs).
Proof. intros Hf H. induction H; cbn [map]; constructor; auto. Qed.
Lemma reps_map2 K L M f g l zs l' zs' : (forall a b x y, rep K a x -> rep L b y -> rep M (f a b) (g x y)) ->
  reps K l zs -> reps L l' zs' -> reps M (map2 f l l') (map2 g zs zs').
Proof.
  intros Hf H. revert l' zs'. unfold map2. induction H as [|a b u v Hab Huv IH]; intros p q H'; cbn [combine map]; [constructor|].
  destruct H'; cbn [combine map fst snd]; constructor; auto. apply IH. auto.
Qed.
Lemma reps_map2_l {A} K M f g (ks : list A) l zs : (forall k a x, In k ks -> rep K a x -> rep M (f k a) (g k x)) ->
  reps K l zs -> reps M (map2 f ks l) (map2 g ks zs).
Proof.
  intros Hf H. revert ks Hf. unfold map2. induction H; intros [|k ks] Hf; cbn [combine map fst snd]; try constructor.
  - apply Hf; auto. left; auto.
  - apply IHForall2. intros. apply Hf; auto. right; auto.
Qed.
Lemma reps_map_const {A A'} K b z (l : list A) (l' : list A') : length l = length l' -> rep K b z -> reps K (map (fun _ => b) l) (map (fun _ => z) l').
Proof. revert l'. induction l; intros [|]; cbn; intros H Hr; try discriminate; constructor; auto. apply IHl; auto. Qed.

Lemma map2_len {A B' C} (f : A -> B' -> C) (a : list A) b : len (map2 f a b) = Z.min (len a) (len b).
Proof. unfold len, map2. rewrite map_length, combine_length. lia. Qed.

Section Sim.
  Context (lib : flib) (GL : good_lib lib).
  Notation NF := (B64Num lib).
  Notation NZ := ZNum.
  Notation fz := (B754_zero false : b64).

  Lemma reps_sum K l zs : reps K l zs -> len l * K <= B -> rep (len l * K) (np_sum NF l) (np_sum NZ zs).
  Proof. intros H HK. apply rep_sum_of; auto. apply np_sum_of; auto. Qed.

  Lemma reps_cumsum_from K l zs : reps K l zs -> forall A a z, rep A a z -> A + len l * K <= B ->
    reps (A + len l * K) (cumsum_from NF a l) (cumsum_from NZ z zs).
  Proof.
    induction 1 as [|b y l zs Hb Hl IH]; intros A a z Ha HA; unfold len in *; cbn [cumsum_from length] in *; constructor.
    - pose proof (rep_nonneg _ _ _ Hb) as K0. assert (A + K <= B) by nia.
      eapply rep_weaken; [apply rep_add; eauto|]. nia.
    - pose proof (rep_nonneg _ _ _ Hb) as K0. assert (A + K <= B) by nia.
      eapply reps_weaken; [apply (IH (A + K))|]; [apply rep_add; auto|nia|nia].
  Qed.
  Lemma reps_cumsum K l zs : reps K l zs -> len l * K <= B -> reps (len l * K) (np_cumsum NF l) (np_cumsum NZ zs).
  Proof.
    intros H HK. eapply reps_weaken; [apply (reps_cumsum_from K l zs H 0 fz 0 rep_zero)|]; lia.
  Qed.

  (** Results of the two runs: the same exception, or related values. *)
  Definition rel {A A'} (P : A -> A' -> Prop) (r : res A) (r' : res A') : Prop :=
    match r, r' with Ok a, Ok a' => P a a' | Err e, Err e' => e = e' | _, _ => False end.
  Lemma rel_bind {A A' C C'} (P : A -> A' -> Prop) (Q : C -> C' -> Prop) r r' k k' :
    rel P r r' -> (forall a a', P a a' -> rel Q (k a) (k' a')) -> rel Q (rbind r k) (rbind r' k').
  Proof. destruct r, r'; cbn; try contradiction; auto. Qed.
  Lemma rel_weaken {A A'} (P Q : A -> A' -> Prop) r r' : rel P r r' -> (forall a a', P a a' -> Q a a') -> rel Q r r'.
  Proof. destruct r, r'; cbn; auto. Qed.

  Lemma rel_zget K oob s zs p : reps K s zs -> rel (rep K) (zget oob s p) (zget oob zs p).
  Proof.
    intros H. unfold zget. rewrite (reps_length _ _ _ H). destruct (pyidx (length zs) p) as [i|]; cbn; auto.
    clear p. revert i. induction H; intros [|i]; cbn; auto.
  Qed.
  Lemma reps_upd K s zs i v z : reps K s zs -> rep K v z -> reps K (upd s i v) (upd zs i z).
  Proof. intros H Hv. revert i. induction H; intros [|i]; cbn; constructor; auto. apply IHForall2. Qed.
  Lemma rel_zset K oob s zs p v z : reps K s zs -> rep K v z -> rel (reps K) (zset oob s p v) (zset oob zs p z).
  Proof.
    intros H Hv. unfold zset. rewrite (reps_length _ _ _ H). destruct (pyidx (length zs) p) as [i|]; cbn; auto.
    apply reps_upd; auto.
  Qed.
  Lemma rel_zgets K oob s zs ps : reps K s zs -> rel (fun l l' => reps K l l' /\ length l = length ps) (zgets oob s ps) (zgets oob zs ps).
  Proof.
    intros H. induction ps as [|p ps IH]; cbn [zgets]; [split; [constructor|auto]|].
    apply (rel_bind (rep K)); [apply rel_zget; auto|]. intros v z Hv.
    apply (rel_bind _ _ _ _ _ _ IH). intros l l' [Hl Hn]. cbn. split; [constructor; auto|auto].
  Qed.
  Lemma rel_zsets K oob ps : forall s zs vs zvs, reps K s zs -> reps K vs zvs ->
    rel (reps K) (zsets oob s ps vs) (zsets oob zs ps zvs).
  Proof.
    induction ps as [|p ps IH]; intros s zs vs zvs Hs Hv; cbn [zsets]; auto.
    destruct Hv as [|v z vs zvs Hv Hvs]; [exact Hs|].
    apply (rel_bind (reps K)); [apply rel_zset; auto|]. intros s' zs' Hs'. apply IH; auto.
  Qed.

  Lemma filter_len {A} (f : A -> bool) l : (length (filter f l) <= length l)%nat.
  Proof. induction l as [|a l IH]; cbn; auto. destruct (f a); cbn; lia. Qed.

  Lemma rel_dyad_loop K oob L ps y : 0 <= K -> forall c zc, reps K c zc -> forall S s zs, reps S s zs -> 0 <= S ->
    S + len c * K <= B -> Z.of_nat L * (S + len c * K) <= B ->
    rel (fun p q => reps (Z.of_nat L * (S + len c * K)) (fst p) (fst q) /\ reps (S + len c * K) (snd p) (snd q))
      (dyad_loop NF oob L ps y c s) (dyad_loop NZ oob L ps y zc zs).
  Proof.
    intros K0. induction y as [|yi y IH]; intros c zc Hc S s zs Hs S0 H1 H2; cbn [dyad_loop].
    - assert (0 <= len c) by (unfold len; lia). destruct Hc; split; try constructor; (eapply reps_weaken; [exact Hs|]; nia).
    - assert (0 <= len c) as Hc0 by (unfold len; lia).
      destruct Hc as [|ci zi c zc Hci Hc]; [split; [constructor|]; eapply reps_weaken; [exact Hs|]; nia|].
      assert (Hlen : len (ci :: c) = 1 + len c) by (unfold len; cbn [length]; lia).
      assert (Hl0 : 0 <= len c) by (unfold len; lia).
      rewrite Hlen in *.
      apply (rel_bind _ _ _ _ _ _ (rel_zgets S oob s zs _ Hs)). intros sb zsb [Hsb Nsb].
      apply (rel_bind _ _ _ _ _ _ (rel_zgets S oob s zs _ Hs)). intros sa zsa [Hsa _].
      apply (rel_bind (reps (S + K))).
      { apply rel_zsets; [eapply reps_weaken; eauto; lia|].
        apply (reps_map S); auto. intros a x Ha. apply rep_add; auto. nia. }
      intros s' zs' Hs'.
      apply (rel_bind _ _ _ _ _ _ (IH c zc Hc (S + K) s' zs' Hs' ltac:(lia) ltac:(nia) ltac:(nia))).
      intros [g s2] [zg zs2] [Hg Hs2]. cbn [fst snd rel] in *. split.
      + constructor.
        * assert (len sb <= Z.of_nat L).
          { unfold len. rewrite Nsb, map_length. pose proof (filter_len (valid_3b yi) (seq 0 L)). rewrite seq_length in H. lia. }
          assert (0 <= len sb) by (unfold len; lia).
          eapply rep_weaken; [apply (reps_sum S); auto|]; nia.
        * eapply reps_weaken; [exact Hg|]. nia.
      + eapply reps_weaken; [exact Hs2|]. nia.
  Qed.

  Lemma rel_dyad_update K oob L ps y c zc s (zs : list Z) : 0 <= K -> reps K c zc -> length s = length zs ->
    len c * K <= B -> Z.of_nat L * (len c * K) <= B ->
    rel (fun p q => reps (Z.of_nat L * (len c * K)) (fst p) (fst q) /\ length (snd p) = length (snd q))
      (dyad_update NF oob y c L s ps) (dyad_update NZ oob y zc L zs ps).
  Proof.
    intros K0 Hc Hs H1 H2. unfold dyad_update.
    assert (reps 0 (map (fun _ => nzero NF) s) (map (fun _ => nzero NZ) zs)) as H0 by (apply reps_map_const; auto; apply rep_zero).
    eapply rel_weaken; [apply (rel_dyad_loop K oob L ps y K0 c zc Hc 0 _ _ H0); lia|].
    intros [g s'] [zg zs'] [Hg Hs']. cbn [fst snd] in *. rewrite Z.add_0_l in *. split; auto. eapply reps_length; eauto.
  Qed.

  (** _partial_sum_2d: bound 8 L n K *)
  Lemma rel_partial_sum K oob L ps y c zc ix iy sx zsx sy zsy cs zcs s (zs : list Z) g g' n :
    0 <= K -> reps K c zc -> len c = n -> 4 <= n -> 2 <= Z.of_nat L ->
    reps ((n + 1) * K) sx zsx -> reps ((n + 1) * K) sy zsy -> rep (n * K) cs zcs -> length s = length zs ->
    8 * Z.of_nat L * n * K <= B ->
    rel (fun p q => reps (8 * Z.of_nat L * n * K) (fst p) (fst q) /\ length (snd p) = length (snd q))
      (partial_sum_2d NF oob false y c ix iy sx sy cs L s ps g) (partial_sum_2d NZ oob false y zc ix iy zsx zsy zcs L zs ps g').
  Proof.
    intros K0 Hc Hn Hn4 HL Hsx Hsy Hcs Hs HB. unfold partial_sum_2d.
    set (l := Z.of_nat L) in *.
    assert (P1 : 0 <= n * K) by nia. assert (P2 : 4 * K <= n * K) by nia. assert (P3 : 2 * (n * K) <= l * (n * K)) by nia.
    replace (8 * l * n * K) with (8 * (l * (n * K))) in * by ring.
    assert (R : 2 * ((n + 1) * K) = 2 * (n * K) + 2 * K) by ring.
    assert (R4 : rep 4 (nofZ NF 4) 4) by (apply (rep_ofZ 4); lia).
    assert (R2 : rep 2 (nofZ NF 2) 2) by (apply (rep_ofZ 2); lia).
    eapply rel_bind; [apply (rel_dyad_update K oob L ps y c zc s zs); auto; rewrite ?Hn; fold l; lia|].
    intros [gam s'] [zgam zs'] [Hg Hs']. cbn [fst snd] in *. rewrite Hn in Hg. fold l in Hg. split; [|exact Hs']. cbn [fst].
    apply reps_take; [|lia].
    assert (T1 : reps (n * K + K) (map (fun v => nsub NF cs v) c) (map (fun v => nsub NZ zcs v) zc)).
    { apply (reps_map K); auto. intros a x Ha. apply rep_sub; auto. lia. }
    assert (T2 : reps (n * K + K + 2 * ((n + 1) * K))
      (map2 (fun a b => nsub NF a (nmul NF (nofZ NF 2) b)) (map (fun v => nsub NF cs v) c) (take (nzero NF) sy iy))
      (map2 (fun a b => nsub NZ a (nmul NZ (nofZ NZ 2) b)) (map (fun v => nsub NZ zcs v) zc) (take (nzero NZ) zsy iy))).
    { eapply (reps_map2 (n * K + K) ((n + 1) * K)); [|exact T1|apply reps_take; auto; nia].
      intros a b x z Ha Hb. apply rep_sub; auto; [|lia]. apply rep_mul; auto. lia. }
    assert (T3 : forall f zf, reps (n * K + K + 2 * ((n + 1) * K)) f zf ->
      reps (n * K + K + 2 * ((n + 1) * K) + 2 * ((n + 1) * K))
        (map2 (fun a b => nsub NF a (nmul NF (nofZ NF 2) b)) f sx) (map2 (fun a b => nsub NZ a (nmul NZ (nofZ NZ 2) b)) zf zsx)).
    { intros f zf Hf. eapply (reps_map2 (n * K + K + 2 * ((n + 1) * K)) ((n + 1) * K)); eauto.
      intros a b x z Ha Hb. apply rep_sub; auto; [|lia]. apply rep_mul; auto. lia. }
    eapply reps_weaken.
    - eapply (reps_map2 _ (l * (n * K)) (n * K + K + 2 * ((n + 1) * K) + 2 * ((n + 1) * K) + 4 * (l * (n * K)))); [|apply T3, T2|exact Hg].
      intros a b x z Ha Hb. apply rep_add; auto; [|lia]. apply rep_mul; auto. lia.
    - lia.
  Qed.

  Lemma reps_ofZ K zs : K <= B -> Forall (fun z => Z.abs z <= K) zs -> reps K (map b64_ofZ zs) zs.
  Proof.
    intros HK. induction 1 as [|z zs Hz _ IH]; cbn [map]; constructor; auto.
    eapply rep_weaken; [apply rep_ofZ; lia|auto].
  Qed.
  Lemma nth_ofZ i zs : nth i (map b64_ofZ zs) fz = b64_ofZ (nth i zs 0).
  Proof. change fz with (b64_ofZ 0). apply map_nth. Qed.
  Lemma take_ofZ zs idx : take fz (map b64_ofZ zs) idx = map b64_ofZ (take 0 zs idx).
  Proof. unfold take. rewrite map_map. apply map_ext. intros. apply nth_ofZ. Qed.

  (** Environments that sort alike. *)
  Context (EF : Env b64) (EZ : Env Z).
  Context (HNF : e_num EF = NF) (HNZ : e_num EZ = NZ).
  Context (Hsort : forall l, Forall (fun z => Z.abs z <= B) l -> e_argsort EF (map b64_ofZ l) = e_argsort EZ l).
  Context (Hemp : forall n, length (e_empty EF n) = n) (HempZ : forall n, length (e_empty EZ n) = n).
  Context (HargZ : forall l, length (e_argsort EZ l) = length l).

  Definition reps4 (K1 K2 K3 K4 : Z) (c : list (list b64)) (zc : list (list Z)) : Prop :=
    reps K1 (nth 0 c []) (nth 0 zc []) /\ reps K2 (nth 1 c []) (nth 1 zc []) /\
    reps K3 (nth 2 c []) (nth 2 zc []) /\ reps K4 (nth 3 c []) (nth 3 zc []).

  Lemma reps_excl K l zs : reps K l zs -> 0 <= K -> (len l + 1) * K <= B ->
    reps ((len l + 1) * K) (map2 (nsub NF) (np_cumsum NF l) l) (map2 (nsub NZ) (np_cumsum NZ zs) zs).
  Proof.
    intros H K0 HK. assert (0 <= len l) by (unfold len; lia).
    eapply reps_map2; [|apply (reps_cumsum K); auto; nia|exact H].
    intros a b x y Ha Hb. replace ((len l + 1) * K) with (len l * K + K) by ring. apply rep_sub; auto. lia.
  Qed.

  Lemma take_len {A} (d : A) l idx : len (take d l idx) = len idx.
  Proof. unfold len, take. rewrite map_length. auto. Qed.

  Context (X Y : Z) (x y : list Z) (HX : Forall (fun z => Z.abs z <= X) x) (HY : Forall (fun z => Z.abs z <= Y) y).
  Context (X1 : 1 <= X) (Y1 : 1 <= Y) (n : nat) (Lx : length x = n) (Ly : length y = n) (Hn : (4 <= n)%nat).
  Notation m := (Z.of_nat n).
  Notation lm := (Z.of_nat (Nat.log2_up n)).
  Context (HB : 32 * lm * m ^ 2 * (X * Y) <= B).

  Lemma lm2 : 2 <= lm.
  Proof. apply (inj_le 2). apply (Nat.log2_up_le_mono 4 n). auto. Qed.
  Lemma bnd_xy : 32 * (lm * (m * (m * (X * Y)))) <= B.
  Proof. replace (32 * (lm * (m * (m * (X * Y))))) with (32 * lm * m ^ 2 * (X * Y)) by ring. auto. Qed.
  Lemma bnd K : 0 <= K <= X * Y -> 32 * (lm * (m * (m * K))) <= B.
  Proof.
    intros HK. eapply Z.le_trans; [|apply bnd_xy]. pose proof lm2.
    apply Z.mul_le_mono_nonneg_l; [lia|]. apply Z.mul_le_mono_nonneg_l; [lia|].
    apply Z.mul_le_mono_nonneg_l; [lia|]. apply Z.mul_le_mono_nonneg_l; lia.
  Qed.
  (** consequences used below: everything linear in these products *)
  Lemma bnds K : 0 <= K <= X * Y ->
    0 <= m * K /\ 4 * K <= m * K /\ 4 * (m * K) <= m * (m * K) /\ 2 * (m * (m * K)) <= lm * (m * (m * K)) /\
    4 * (lm * (m * K)) <= lm * (m * (m * K)) /\ 0 <= lm * (m * K) /\ 32 * (lm * (m * (m * K))) <= B.
  Proof.
    intros HK. pose proof lm2. pose proof (bnd K HK).
    assert (0 <= m * K) by nia. assert (4 * K <= m * K) by nia.
    assert (0 <= m * (m * K)) by nia. assert (4 * (m * K) <= m * (m * K)) by nia.
    assert (2 * (m * (m * K)) <= lm * (m * (m * K))) by nia.
    assert (4 * (lm * (m * K)) <= lm * (m * (m * K))).
    { replace (4 * (lm * (m * K))) with (lm * (4 * (m * K))) by ring. apply Z.mul_le_mono_nonneg_l; lia. }
    assert (0 <= lm * (m * K)) by nia. auto 10.
  Qed.
  Lemma X_XY : 0 <= X <= X * Y. Proof. nia. Qed.
  Lemma Y_XY : 0 <= Y <= X * Y. Proof. nia. Qed.
  Lemma one_XY : 0 <= 1 <= X * Y. Proof. nia. Qed.
  Lemma XY_XY : 0 <= X * Y <= X * Y. Proof. nia. Qed.

  Notation fx := (map b64_ofZ x).
  Notation fy := (map b64_ofZ y).
  Lemma rx : reps X fx x. Proof. apply reps_ofZ; auto. pose proof (bnds X X_XY). lia. Qed.
  Lemma ry : reps Y fy y. Proof. apply reps_ofZ; auto. pose proof (bnds Y Y_XY). lia. Qed.

  Definition pos_ok (l : list nat) : Prop := Forall (fun a => (a < n)%nat) l /\ length l = n.
  Lemma scatter_ok idx : pos_ok (scatter (repeat 0%nat n) idx (seq 0 n)).
  Proof.
    split.
    - apply Forall_scatter; [apply Forall_forall; intros a Ha; apply repeat_spec in Ha; lia|].
      apply Forall_forall. intros a Ha. apply in_seq in Ha. lia.
    - rewrite Tab.scatter_length. apply repeat_length.
  Qed.

  Section OneVar.
    Context (K : Z) (HK : 0 <= K <= X * Y) (l : list b64) (zs : list Z) (Hl : reps K l zs) (Hlen : length zs = n).
    Let lenl : len l = m. Proof. unfold len. rewrite (reps_length _ _ _ Hl), Hlen. auto. Qed.
    Lemma reps_beta idx : reps ((m + 1) * K) (avl_beta EF l idx) (avl_beta EZ zs idx).
    Proof.
      pose proof (bnds K HK) as (B1 & B2 & B3 & B4 & B5 & B6 & B7).
      unfold avl_beta. rewrite HNF, HNZ.
      replace ((m + 1) * K) with (m * K + K) by ring.
      eapply (reps_map2 (m * K) K).
      - intros a b u v Ha Hb. apply rep_sub; auto. lia.
      - apply reps_take; [|lia]. eapply reps_weaken; [apply (reps_cumsum K); auto; rewrite lenl; lia|rewrite lenl; lia].
      - apply reps_take; [auto|lia].
    Qed.
    Lemma reps_row alpha beta zb : pos_ok alpha -> reps ((m + 1) * K) beta zb ->
      reps (5 * (m * K)) (avl_row_sums EF l alpha beta) (avl_row_sums EZ zs alpha zb).
    Proof.
      intros [Ha La] Hb. pose proof (bnds K HK) as (B1 & B2 & B3 & B4 & B5 & B6 & B7).
      unfold avl_row_sums. rewrite HNF, HNZ, (reps_length _ _ _ Hl), Hlen.
      assert (E1 : (m + 1) * K = m * K + K) by ring. rewrite E1 in *.
      eapply (reps_map2 (m * K + m * K) (m * K + K)); [| |exact Hb].
      - intros a b u v Hu Hv. eapply rep_weaken; [apply (rep_sub (m * K + m * K) (2 * (m * K + K)))|]; auto; try lia.
        apply rep_mul; auto; [|lia]. apply (rep_ofZ 2). lia.
      - apply (reps_map2_l K); auto. intros k a u Hk Hu. apply rep_add; [|apply rep_mul; [|auto|lia]|lia].
        + eapply rep_weaken; [apply (reps_sum K); auto|]; rewrite lenl; lia.
        + rewrite Forall_forall in Ha. pose proof (Ha k Hk). pose proof (bnds 1 one_XY). eapply rep_weaken; [apply rep_ofZ|]; cbn [nofZ ZNum WNum]; lia.
    Qed.
    Lemma reps_total alpha beta zb : pos_ok alpha -> reps ((m + 1) * K) beta zb -> length beta = n ->
      rep (5 * (m * (m * K))) (avl_total EF l alpha beta) (avl_total EZ zs alpha zb).
    Proof.
      intros [Ha La] Hb Lb. pose proof (bnds K HK) as (B1 & B2 & B3 & B4 & B5 & B6 & B7).
      unfold avl_total. rewrite HNF, HNZ.
      assert (E1 : (m + 1) * K = m * K + K) by ring. rewrite E1 in *.
      assert (R2 : rep 2 (nofZ NF 2) 2) by (apply (rep_ofZ 2); lia).
      assert (E2 : m * (m * K + K) = m * (m * K) + m * K) by ring.
      assert (lb : len beta = m) by (unfold len; congruence).
      assert (lal : len alpha = m) by (unfold len; congruence).
      eapply rep_weaken; [apply (rep_sub (2 * (m * (m * K))) (2 * (m * (m * K + K))))|]; [| |lia|lia].
      - apply rep_mul; auto; [|lia].
        assert (T : reps (m * K) (map2 (fun a v => nmul NF (nofZ NF (Z.of_nat a)) v) alpha l)
          (map2 (fun a v => nmul NZ (nofZ NZ (Z.of_nat a)) v) alpha zs)).
        { apply (reps_map2_l K); auto. intros k a u Hk Hu. apply rep_mul; auto; [|lia].
          rewrite Forall_forall in Ha. pose proof (Ha k Hk). pose proof (bnds 1 one_XY). eapply rep_weaken; [apply rep_ofZ|]; cbn [nofZ ZNum WNum]; lia. }
        eapply rep_weaken; [apply (reps_sum _ _ _ T)|]; rewrite map2_len, lal, lenl, Z.min_id; lia.
      - apply rep_mul; auto; [|lia]. rewrite <- lb at 1. eapply rep_weaken; [apply (reps_sum _ _ _ Hb)|]; rewrite lb; lia.
    Qed.
  End OneVar.

  (** the doubles [t] are the exact integers [tz] *)
  Definition terms_rep (t : terms (T:=b64)) (tz : terms (T:=Z)) : Prop :=
    rep B (t_mean_prod t) (t_mean_prod tz) /\
    reps B (t_a_axis t) (t_a_axis tz) /\ rep B (t_a_total t) (t_a_total tz) /\
    reps B (t_b_axis t) (t_b_axis tz) /\ rep B (t_b_total t) (t_b_total tz).

  Definition args_rep (g : impl_args (T:=b64)) (gz : impl_args (T:=Z)) : Prop :=
    reps X (g_vx g) (g_vx gz) /\ reps Y (g_vy g) (g_vy gz) /\ length (g_vx gz) = n /\ length (g_vy gz) = n /\
    pos_ok (g_ix g) /\ pos_ok (g_iy g) /\ g_ix g = g_ix gz /\ g_iy g = g_iy gz /\ g_iy_reord g = g_iy_reord gz /\
    g_l_max g = Nat.log2_up n /\ g_l_max gz = Nat.log2_up n /\ length (g_s g) = length (g_s gz) /\
    g_pos_sums g = g_pos_sums gz /\
    forall i K, nth i [1; X; Y; X * Y] 0 = K -> (i < 4)%nat ->
      reps K (nth i (g_c g) []) (nth i (g_c gz) []) /\ length (nth i (g_c gz) []) = n /\
      reps ((m + 1) * K) (nth i (g_sx_c g) []) (nth i (g_sx_c gz) []) /\
      reps ((m + 1) * K) (nth i (g_sy_c g) []) (nth i (g_sy_c gz) []) /\
      rep (m * K) (nth i (g_c_sum g) fz) (nth i (g_c_sum gz) 0).

  Lemma bnd1 K : 0 <= K <= X * Y -> (m + 1) * K <= B.
  Proof. intros HK. pose proof (bnds K HK). lia. Qed.

  Lemma args_sim : rel args_rep (get_impl_args EF fx fy) (get_impl_args EZ x y).
  Proof.
    unfold get_impl_args. cbv zeta. rewrite !map_length, Lx, Ly, HNF, HNZ, Nat.eqb_refl.
    destruct (3 <? n)%nat; cbn [negb]; [|reflexivity].
    change (nzero NF) with fz. change (nzero NZ) with 0.
    assert (BX : Forall (fun z => Z.abs z <= B) x) by (eapply Forall_impl; [|exact HX]; cbn; intros; pose proof (bnds X X_XY); lia).
    assert (BY : Forall (fun z => Z.abs z <= B) y) by (eapply Forall_impl; [|exact HY]; cbn; intros; pose proof (bnds Y Y_XY); lia).
    assert (BT : forall idx, Forall (fun z => Z.abs z <= B) (take 0 y idx)).
    { intros idx. unfold take. apply Forall_forall. intros z Hz. apply in_map_iff in Hz. destruct Hz as (i & <- & _).
      destruct (nth_in_or_default i y 0) as [Hi| ->]; [|lia]. rewrite Forall_forall in BY. auto. }
    rewrite (Hsort x BX), (Hsort y BY), (take_ofZ y (e_argsort EZ x)), (Hsort _ (BT _)). set (ax := e_argsort EZ x). set (ay := e_argsort EZ y).
    assert (Lax : length ax = n) by (unfold ax; rewrite HargZ; auto).
    assert (Lay : length ay = n) by (unfold ay; rewrite HargZ; auto).
    set (ar := e_argsort EZ (take 0 y ax)).
    assert (Ltake : forall (l : list Z) i, length (take 0 l i) = length i) by (intros; unfold take; apply map_length).
    assert (Lar : length ar = n) by (unfold ar; rewrite HargZ, Ltake; auto).
    cbn [rel map]. red. cbn [g_vx g_vy g_ix g_iy g_iy_reord g_l_max g_s g_pos_sums g_c g_sx_c g_sy_c g_c_sum].
    split; [apply reps_take; [apply rx|lia]|]. split; [apply reps_take; [apply ry|lia]|].
    split; [rewrite Ltake; auto|]. split; [rewrite Ltake; auto|].
    split; [apply scatter_ok|]. split; [apply scatter_ok|]. split; [auto|]. split; [auto|]. split; [auto|].
    split; [auto|]. split; [auto|]. split; [rewrite Hemp, HempZ; auto|]. split; [auto|].
    assert (Hcase : forall (c : list b64) (zc : list Z) K, 0 <= K <= X * Y -> reps K c zc -> length zc = n ->
      reps K c zc /\ length zc = n /\
      reps ((m + 1) * K) (map2 (nsub NF) (np_cumsum NF c) c) (map2 (nsub NZ) (np_cumsum NZ zc) zc) /\
      reps ((m + 1) * K) (map2 (nsub NF) (np_cumsum NF (take fz c ar)) (take fz c ar)) (map2 (nsub NZ) (np_cumsum NZ (take 0 zc ar)) (take 0 zc ar)) /\
      rep (m * K) (np_sum NF c) (np_sum NZ zc)).
    { intros c zc K HK Hc Lc. pose proof (bnd1 K HK) as B1. assert (len c = m) as lc by (unfold len; rewrite (reps_length _ _ _ Hc), Lc; auto).
      split; [auto|]. split; [auto|]. rewrite <- lc in *. split; [apply reps_excl; auto; lia|].
      assert (len (take fz c ar) = len c) as lt by (rewrite take_len, lc; unfold len; rewrite Lar; auto).
      split; [rewrite <- lt; apply reps_excl; [apply reps_take; auto; lia|lia|rewrite lt; auto]|].
      apply reps_sum; auto. lia. }
    pose proof one_XY; pose proof X_XY; pose proof Y_XY; pose proof XY_XY.
    intros [|[|[|[|i]]]] K HK Hi; cbn [nth] in HK |- *; subst K; try lia; apply Hcase; auto.
    - apply reps_map_const; [rewrite map_length; auto|]. apply (rep_ofZ 1). lia.
    - rewrite map_length; auto.
    - apply reps_take; [apply rx|lia].
    - rewrite Ltake; auto.
    - rewrite <- take_ofZ. apply reps_take; [apply ry|lia].
    - rewrite Ltake; auto.
    - apply reps_take; [|lia]. apply (reps_map2 X Y); [|apply rx|apply ry].
      intros a b u v Ha Hb. apply rep_mul; auto. pose proof (bnds (X * Y) XY_XY). lia.
    - rewrite Ltake; auto.
  Qed.

  Fixpoint gammas_rep (is_ : list nat) (l : list (list b64)) (zl : list (list Z)) : Prop :=
    match is_, l, zl with
    | [], [], [] => True
    | i :: is_, a :: l, za :: zl => reps (8 * lm * m * nth i [1; X; Y; X * Y] 0) a za /\ gammas_rep is_ l zl
    | _, _, _ => False
    end.

  Lemma partial_sums_sim g gz new_y : args_rep g gz -> forall is_ s (zs : list Z), Forall (fun i => (i < 4)%nat) is_ -> length s = length zs ->
    forall oob, rel (gammas_rep is_) (partial_sums EF false oob new_y g s is_) (partial_sums EZ false oob new_y gz zs is_).
  Proof.
    intros (_ & _ & _ & _ & _ & _ & H1 & _ & H2 & H3 & H4 & _ & H5 & Hc).
    assert (forall i, (i < 4)%nat -> 0 <= nth i [1; X; Y; X * Y] 0 <= X * Y) as HK.
    { pose proof one_XY; pose proof X_XY; pose proof Y_XY; pose proof XY_XY. intros [|[|[|[|i]]]] Hi; cbn [nth]; lia. }
    induction is_ as [|i is_ IH]; intros s zs Hi Hs oob; cbn [partial_sums]; [cbn; constructor|].
    pose proof (Forall_inv Hi) as Hi4. pose proof (Forall_inv_tail Hi) as His. rewrite HNF, HNZ.
    destruct (Hc i _ eq_refl Hi4) as (C1 & C2 & C3 & C4 & C5).
    pose proof (HK i Hi4) as HKi. set (K := nth i [1; X; Y; X * Y] 0) in *. pose proof (bnds K HKi) as (B1 & B2 & B3 & B4 & B5 & B6 & B7).
    assert (lc : len (nth i (g_c g) []) = m) by (unfold len; rewrite (reps_length _ _ _ C1), C2; auto).
    pose proof lm2.
    pose proof (rel_partial_sum K oob (g_l_max g) (g_pos_sums g) new_y _ _ (g_ix g) (g_iy_reord g) _ _ _ _ _ _ s zs
      (nth i (g_gamma g) []) (nth i (g_gamma gz) []) m ltac:(lia) C1 lc ltac:(lia) ltac:(rewrite H3; auto) C3 C4 C5 Hs ltac:(rewrite H3; lia)) as P.
    rewrite H3 in P. rewrite H4, H3, <- H1, <- H2, <- H5. change (nzero NF) with fz. change (nzero NZ) with 0.
    destruct (partial_sum_2d NF oob _ _ _ _ _ _ _ _ _ _ _ _) as [[gam s']|e];
    destruct (partial_sum_2d NZ oob _ _ _ _ _ _ _ _ _ _ _ _) as [[zgam zs']|ez]; cbn [rel] in P; try contradiction; [|cbn; exact P].
    destruct P as [P1 P2]. cbn [fst snd] in P1, P2. cbn [rbind].
    specialize (IH s' zs' His P2 oob).
    destruct (partial_sums EF _ _ _ _ _ _) as [r|e]; destruct (partial_sums EZ _ _ _ _ _ _) as [zr|ez]; cbn [rel rbind gammas_rep] in *; try contradiction; auto.
  Qed.

  Theorem avl_sim oob k kv :
    rel terms_rep (terms_avl_impl EF false oob k kv fx fy false) (terms_avl_impl EZ false oob k kv x y false).
  Proof.
    unfold terms_avl_impl. pose proof args_sim as HA.
    destruct (get_impl_args EF fx fy) as [g|e]; destruct (get_impl_args EZ x y) as [gz|ez]; cbn [rel] in HA; try contradiction; [|exact HA].
    cbn [rbind]. destruct HA as (V1 & V2 & L1 & L2 & P1 & P2 & E1 & E2 & E3 & M1 & M2 & Ls & E4 & HC) eqn:HA'.
    rewrite <- E1, <- E2, <- E3.
    pose proof (partial_sums_sim g gz (map (fun i => Z.of_nat i + 1) (g_iy_reord g)) HA [0;1;2;3]%nat (g_s g) (g_s gz)
      ltac:(repeat constructor; lia) Ls oob) as PS.
    destruct (partial_sums EF _ _ _ _ _ _) as [r|e]; destruct (partial_sums EZ _ _ _ _ _ _) as [zr|ez]; cbn [rel] in PS; try contradiction; [|exact PS].
    cbn [rbind rel].
    destruct r as [|g1 [|g2 [|g3 [|g4 [|g5 r]]]]], zr as [|z1 [|z2 [|z3 [|z4 [|z5 zr]]]]]; cbn [gammas_rep] in PS; try tauto.
    destruct PS as (G1 & G2 & G3 & G4 & _). cbn [nth] in G1, G2, G3, G4 |- *. rewrite HNF, HNZ.
    pose proof (reps_beta X X_XY _ _ V1 L1 (g_ix g)) as BX. pose proof (reps_beta Y Y_XY _ _ V2 L2 (g_iy g)) as BY.
    pose proof (bnds X X_XY). pose proof (bnds Y Y_XY). pose proof (bnds (X * Y) XY_XY) as BXY. pose proof (bnds 1 one_XY).
    assert (lb : forall v idx, length idx = n -> length (avl_beta EF v idx) = n).
    { intros v idx Hi. unfold avl_beta, map2, take. rewrite map_length, combine_length, !map_length, Hi. lia. }
    assert (T : reps (32 * (lm * (m * (X * Y))))
      (map2 (nsub NF) (map2 (nsub NF) (map2 (nadd NF) (map2 (nmul NF) (map2 (nmul NF) fx fy) g1) g4) (map2 (nmul NF) fx g3)) (map2 (nmul NF) fy g2))
      (map2 (nsub NZ) (map2 (nsub NZ) (map2 (nadd NZ) (map2 (nmul NZ) (map2 (nmul NZ) x y) z1) z4) (map2 (nmul NZ) x z3)) (map2 (nmul NZ) y z2))).
    { set (q := lm * (m * (X * Y))) in *.
      assert (Q1 : X * Y * (8 * lm * m * 1) = 8 * q) by (unfold q; ring).
      assert (Q4 : 8 * lm * m * (X * Y) = 8 * q) by (unfold q; ring).
      assert (Q3 : X * (8 * lm * m * Y) = 8 * q) by (unfold q; ring).
      assert (Q2 : Y * (8 * lm * m * X) = 8 * q) by (unfold q; ring).
      assert (32 * q <= B) by lia.
      assert (A1 : reps (X * Y) (map2 (nmul NF) fx fy) (map2 (nmul NZ) x y)).
      { apply (reps_map2 X Y); [|apply rx|apply ry]. intros a b u v Ha Hb. apply rep_mul; auto. lia. }
      assert (A2 : reps (8 * q) (map2 (nmul NF) (map2 (nmul NF) fx fy) g1) (map2 (nmul NZ) (map2 (nmul NZ) x y) z1)).
      { eapply reps_map2; [|exact A1|exact G1]. intros a b u v Ha Hb. rewrite <- Q1. apply rep_mul; auto. lia. }
      assert (A3 : reps (8 * q) (map2 (nmul NF) fx g3) (map2 (nmul NZ) x z3)).
      { eapply reps_map2; [|exact rx|exact G3]. intros a b u v Ha Hb. rewrite <- Q3. apply rep_mul; auto. lia. }
      assert (A4 : reps (8 * q) (map2 (nmul NF) fy g2) (map2 (nmul NZ) y z2)).
      { eapply reps_map2; [|exact ry|exact G2]. intros a b u v Ha Hb. rewrite <- Q2. apply rep_mul; auto. lia. }
      rewrite Q4 in G4.
      replace (32 * q) with (8 * q + 8 * q + 8 * q + 8 * q) by ring.
      eapply reps_map2; [|eapply reps_map2; [|eapply reps_map2; [|exact A2|exact G4]|exact A3]|exact A4].
      - intros a b u v Ha Hb. apply rep_sub; [exact Ha|exact Hb|lia].
      - intros a b u v Ha Hb. apply rep_sub; [exact Ha|exact Hb|lia].
      - intros a b u v Ha Hb. apply rep_add; [exact Ha|exact Hb|lia]. }
    match type of T with reps _ ?L _ => assert (TL : len L <= m) by (rewrite !map2_len; assert (len fx = m) by (unfold len; rewrite map_length, Lx; auto); lia); set (tl := L) in * end.
    match type of T with reps _ _ ?L => set (tzl := L) in * end.
    assert (TB : len tl * (32 * (lm * (m * (X * Y)))) <= B).
    { eapply Z.le_trans; [apply Z.mul_le_mono_nonneg_r; [lia|exact TL]|]. lia. }
    red. cbn [t_mean_prod t_a_axis t_a_total t_b_axis t_b_total].
    split; [eapply rep_weaken; [apply (reps_sum _ _ _ T TB)|exact TB]|].
    split; [eapply reps_weaken; [apply (reps_row X X_XY); auto; apply rx|lia]|].
    split; [eapply rep_weaken; [apply (reps_total X X_XY); auto; [apply rx|apply lb, P1]|lia]|].
    split; [eapply reps_weaken; [apply (reps_row Y Y_XY); auto; apply ry|lia]|].
    eapply rep_weaken; [apply (reps_total Y Y_XY); auto; [apply ry|apply lb, P2]|lia].
  Qed.
End Sim.
