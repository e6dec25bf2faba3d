(** The AVL terms, for every number type: no index is ever out of range, and the compiled and the
    pure Python implementation return the same terms. *)
From Coq Require Import Lia List Arith Bool ZArith.
From Verif Require Import Num Numpy MUtils MInternals MMergesort MAvl Sums Tab DyadGeneric MergeGeneric.
Import ListNotations.

(** The external routines as far as memory safety goes: argsort returns a permutation of the
    positions, np.empty an array of the requested size. *)
Record shape_env {T} (E : Env T) : Prop := {
  se_argsort : forall l, is_perm (length l) (e_argsort E l);
  se_empty : forall n, length (e_empty E n) = n }.

(** The terms do not depend on the kind of the numbers, which is only recorded. *)
Definition set_kind {T} (k kv : pykind) (t : terms (T:=T)) : terms (T:=T) :=
  mkTerms (t_mean_prod t) (t_a_axis t) (t_a_total t) (t_b_axis t) (t_b_total t) (t_mp_a t) (t_mp_b t) k kv.

Section Avl.
  Context {T : Type} (E : Env T).
  Let N := e_num E.
  Hypothesis HE : shape_env E.
  Definition adds_in_order : Prop := sequential N /\ nadd N (nzero N) (nzero N) = nzero N.

  Lemma partial_sum_agree L y c ix iy sx sy cs : Forall (rank_ok L) y -> length c = length y ->
    exists r r' t t', (adds_in_order -> r = r') /\ length t = 2 ^ (L + 1) /\ length t' = 2 ^ (L + 1) /\
      forall oob s, length s = 2 ^ (L + 1) ->
      partial_sum_2d N oob true y c ix iy sx sy cs L s (mk_pos_sums L) (map (fun _ => nzero N) c) = Ok (r, t) /\
      partial_sum_2d N oob false y c ix iy sx sy cs L s (mk_pos_sums L) (map (fun _ => nzero N) c) = Ok (r', t').
  Proof.
    intros Hy Hc.
    destruct (dyads_agree N L y c Hy Hc) as (g & g' & s1 & s2 & Hg & _ & _ & H1 & H2 & H).
    unfold partial_sum_2d. eexists _, _, s2, s1. split; [|split; [auto|]; split; [auto|];
    intros oob s Hs; destruct (H oob s Hs) as [-> ->]; cbn [rbind]; split; reflexivity].
    intros [HS H00]. rewrite (Hg HS H00). reflexivity.
  Qed.

  Lemma partial_sums_agree new_y g is_ : Forall (rank_ok (g_l_max g)) new_y ->
    g_pos_sums g = mk_pos_sums (g_l_max g) ->
    (forall i, In i is_ -> length (nth i (g_c g) []) = length new_y /\
       nth i (g_gamma g) [] = map (fun _ => nzero N) (nth i (g_c g) [])) ->
    exists r r', (adds_in_order -> r = r') /\ forall oob s, length s = 2 ^ (g_l_max g + 1) ->
      partial_sums E true oob new_y g s is_ = Ok r /\ partial_sums E false oob new_y g s is_ = Ok r'.
  Proof.
    intros Hy Hps H. induction is_ as [|i is_ IH]; [exists [], []; auto|].
    destruct IH as (r & r' & Hrr & Hr); [intros; apply H; right; auto|].
    destruct (H i (or_introl eq_refl)) as [Hc Hg].
    destruct (partial_sum_agree (g_l_max g) new_y (nth i (g_c g) []) (g_ix g) (g_iy_reord g)
      (nth i (g_sx_c g) []) (nth i (g_sy_c g) []) (nth i (g_c_sum g) (nzero N)) Hy Hc)
      as (a & a' & t & t' & Haa & Ht & Ht' & Ha).
    exists (a :: r), (a' :: r'). split; [intros HO; rewrite (Haa HO), (Hrr HO); reflexivity|].
    intros oob s Hs. cbn [partial_sums]. rewrite Hps, Hg.
    destruct (Ha oob s Hs) as [A1 A2]. fold N.
    rewrite A1, A2. cbn [rbind]. destruct (Hr oob t Ht) as [-> _]. destruct (Hr oob t' Ht') as [_ ->]. split; reflexivity.
  Qed.

  Lemma Forall_scatter {A} (P : A -> Prop) l idx vals : Forall P l -> Forall P vals -> Forall P (scatter l idx vals).
  Proof.
    revert l vals. induction idx as [|i idx IH]; intros l vals Hl Hv; destruct vals; cbn; auto.
    inversion Hv; subst. apply IH; auto. apply Forall_upd; auto.
  Qed.

  Theorem terms_avl_agree x y rv : length x = length y -> 4 <= length x ->
    exists t t', (adds_in_order -> t = t') /\ forall oob k kv,
      terms_avl_impl E true oob k kv x y rv = Ok (set_kind k kv t) /\
      terms_avl_impl E false oob k kv x y rv = Ok (set_kind k kv t').
  Proof.
    intros Hxy Hn. unfold terms_avl_impl.
    assert (exists g, get_impl_args E x y = Ok g /\
      length (g_iy_reord g) = length x /\ Forall (fun i => i < length x) (g_iy_reord g) /\
      g_l_max g = Nat.log2_up (length x) /\ g_pos_sums g = mk_pos_sums (g_l_max g) /\
      length (g_s g) = 2 ^ (g_l_max g + 1) /\
      forall i, i < 4 -> length (nth i (g_c g) []) = length x /\
         nth i (g_gamma g) [] = map (fun _ => nzero N) (nth i (g_c g) []))
      as (g & -> & G1 & G2 & G3 & G4 & G5 & G6).
    { unfold get_impl_args.
      destruct (Nat.ltb_spec 3 (length x)); [|lia]. cbn [negb].
      rewrite <- Hxy, Nat.eqb_refl. cbn [negb].
      eexists. split; [reflexivity|]. cbn [g_iy_reord g_l_max g_pos_sums g_s g_c g_gamma].
      assert (length (e_argsort E x) = length x) as Hlx by (apply is_perm_length, se_argsort; auto).
      repeat split.
      - rewrite scatter_length, repeat_length. auto.
      - apply Forall_scatter.
        + apply Forall_forall. intros i Hi. apply repeat_spec in Hi. lia.
        + apply Forall_forall. intros i Hi. apply in_seq in Hi. lia.
      - apply se_empty; auto.
      - do 4 (destruct i as [|i]; [cbn [nth]; unfold take; rewrite ?map_length; auto|]). lia.
      - do 4 (destruct i as [|i]; [reflexivity|]). lia. }
    destruct (partial_sums_agree (map (fun i => (Z.of_nat i + 1)%Z) (g_iy_reord g)) g [0; 1; 2; 3]) as (r & r' & Hrr & Hr); auto.
    - apply Forall_map. eapply Forall_impl; [|exact G2]. cbn. intros i Hi. unfold rank_ok.
      assert (length x <= 2 ^ g_l_max g) as Hp by (rewrite G3; apply Nat.log2_up_spec; lia).
      assert (Z.of_nat (length x) <= 2 ^ Z.of_nat (g_l_max g))%Z
        by (rewrite <- (Nat2Z.inj_pow 2); lia). lia.
    - intros i Hi. rewrite map_length, G1. apply G6. cbn in Hi. lia.
    - cbn [rbind].
      eexists (mkTerms _ _ _ _ _ _ _ AllNumpy AllNumpy), (mkTerms _ _ _ _ _ _ _ AllNumpy AllNumpy). split; cycle 1.
      + intros oob k kv. destruct (Hr oob (g_s g) G5) as [-> ->]. cbn [rbind]. unfold set_kind.
        cbn [t_mean_prod t_a_axis t_a_total t_b_axis t_b_total t_mp_a t_mp_b]. split; reflexivity.
      + intros HO. rewrite (Hrr HO). reflexivity.
  Qed.
End Avl.

Lemma mergesort_set_kind {T} (E : Env T) o c k kv k' kv' x y rv :
  terms_mergesort_impl E o c k kv x y rv
  = rbind (terms_mergesort_impl E o c k' kv' x y rv) (fun t => Ok (set_kind k kv t)).
Proof.
  unfold terms_mergesort_impl. cbv zeta.
  repeat (match goal with |- context [rbind ?m _] => destruct m; cbn [rbind]; auto end).
Qed.

(** The same for MERGESORT; the flag is false when the weights cannot be cast. *)
Theorem terms_mergesort_agree {T} (E : Env T) x y rv : shape_env E -> 1 <= length x -> length x <= length y ->
  exists t, forall o c k kv,
    terms_mergesort_impl E o c k kv x y rv = Ok (set_kind k kv t)
    \/ (c = false /\ terms_mergesort_impl E o c k kv x y rv = Err TypeError).
Proof.
  intros [HE _] H1 H2.
  destruct (terms_mergesort_good E HE AllNumpy AllNumpy x y rv H1 H2) as (t & _ & H).
  exists t. intros o c k kv. rewrite (mergesort_set_kind E o c k kv AllNumpy AllNumpy).
  destruct (H o c) as [->|[-> ->]]; cbn [rbind]; auto.
Qed.
