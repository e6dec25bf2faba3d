(** Refinement: the MERGESORT method computes the terms of the distance matrices, of the
    sample listed by increasing first coordinate. *)
From Coq Require Import Reals Lra Lia List Arith Bool ZArith Permutation.
From Verif Require Import Num Numpy MUtils MDistances MInternals MMergesort Sums Spec Tab
  Samples Centering RefDist RefDyad RefAvl RefMerge.
Import ListNotations.
Local Open Scope R_scope.

Section Terms.
  Variable E : Env R.
  Hypothesis HE : valid_env E.
  Variable oob : exn.
  Let HN : e_num E = RNum := ve_num E HE.

  Definition sorted_fn (n : nat) (S : nat -> R) : Prop :=
    forall i j, (i < j)%nat -> (j < n)%nat -> S i <= S j.

  Lemma row_sums_ok n S : (1 <= n)%nat -> sorted_fn n S ->
    compute_row_sums E oob (tab n S) = Ok (tab n (fun i => rsum n (fun j => Rabs (S i - S j)))).
  Proof.
    intros Hn Hs. unfold compute_row_sums. rewrite HN, tab_length, np_cumsum_tab, tab_length.
    rewrite tab_nth_error by lia. cbn [of_option rbind].
    rewrite seq_tab_s, tab_map2, tab_map, tab_map2. f_equal. apply tab_ext. intros i Hi.
    cbn [nadd nsub nmul nofZ RNum].
    assert (perm_on n (fun i => i)) as Hid by (split; auto).
    rewrite (row_sum_rank n (fun i => i) S i Hid Hi).
    - rewrite rsum_lt by lia. rewrite minus_IZR, mult_IZR, <- !INR_IZR_INZ.
      replace (1 + i)%nat with (Datatypes.S i) by lia. rewrite S_INR. 
      replace (Datatypes.S (n - 1)) with n by lia. cbn [rsum]. ring.
    - intros j k Hj Hk Hlt. apply Hs; auto.
  Qed.

  Lemma rsum_zsel_scal m (P : nat -> bool) f c :
    rsum m (fun j => zsel (P j) (f j * c)) = rsum m (fun j => zsel (P j) (f j)) * c.
  Proof.
    rewrite <- rsum_scal_r. apply rsum_ext. intros. destruct (P i); simpl; ring.
  Qed.

  (** A symmetric double sum with a null diagonal is twice its lower triangle. *)
  Lemma rsum2_lower n (f : nat -> nat -> R) :
    (forall i j, (i < n)%nat -> (j < n)%nat -> f i j = f j i) ->
    (forall i, (i < n)%nat -> f i i = 0) ->
    rsum2 n n f = 2 * rsum n (fun i => rsum i (f i)).
  Proof.
    induction n as [|n IH]; intros Hs Hd; [unfold rsum2; simpl; ring|].
    unfold rsum2. cbn [rsum]. rewrite Hd by lia.
    rewrite (rsum_ext n (fun i => rsum n (fun j => f i j) + f i n)
               (fun i => rsum n (f i) + f n i)) by (intros; f_equal; apply Hs; lia).
    rewrite rsum_plus.
    assert (rsum n (fun i => rsum n (f i)) = 2 * rsum n (fun i => rsum i (f i))) as ->.
    { apply IH; intros; (apply Hs || apply Hd); lia. }
    eta. ring.
  Qed.

  Lemma aijbij_ok n S Y : sorted_fn n S ->
    compute_aijbij_term E oob true (tab n S) (tab n Y)
    = Ok (rsum2 n n (fun i j => Rabs (S i - S j) * Rabs (Y i - Y j))).
  Proof.
    intros Hs. unfold compute_aijbij_term.
    rewrite (map_const_tab _ (tab n Y)), !tab_length.
    rewrite HN. rewrite tab_map2.
    change [tab n (fun _ => nunit RNum); tab n Y; tab n S; tab n (fun i => nmul RNum (S i) (Y i))]
      with (map (tab n) [(fun _ : nat => 1); Y; S; (fun i => S i * Y i)]).
    rewrite (compute_weight_sums_ok E oob HN). cbn [rbind].
    unfold wsrows. cbn [map nth]. rewrite !np_dot_tab. cbn [rbind].
    rewrite !tab_map. rewrite !np_dot_tab. cbn [rbind]. rewrite !tab_map2, !np_sum_tab.
    f_equal. cbn [nadd nsub nmul nofZ RNum]. rewrite <- INR_IZR_INZ.
    set (L := rsum n (fun i => rsum i (fun j => zsel (Rltb (Y j) (Y i)) ((S i - S j) * (Y i - Y j))))).
    match goal with |- 4 * ?a - 2 * ?b = _ => assert (a = L) as Ha; [|assert (2 * b = rsum2 n n (fun i j => (S i - S j) * (Y i - Y j))) as Hb] end.
    - rewrite <- !rsum_minus, <- rsum_plus. unfold L. apply rsum_ext. intros i Hi.
      rewrite <- !rsum_scal_l, <- !rsum_minus, <- rsum_plus. apply rsum_ext. intros j Hj.
      destruct (Rltb (Y j) (Y i)); simpl; ring.
    - rewrite rsum_plus, !rsum_scal_l.
      rewrite (rsum2_ext n n _ (fun i j => S i * Y i + - (S i * Y j) + - (S j * Y i) + S j * Y j))
        by (intros; ring).
      rewrite !rsum2_plus, !rsum2_opp.
      rewrite (rsum2_swap n n (fun i j => S j * Y j)), (rsum2_swap n n (fun i j => S j * Y i)).
      rewrite <- (rsum_mult n n S Y).
      unfold rsum2. rewrite (rsum_ext n (fun i => rsum n (fun _ => S i * Y i)) (fun i => INR n * (S i * Y i)))
        by (intros; apply rsum_const).
      rewrite rsum_scal_l.
      rewrite (rsum_ext n (fun i => INR n * S i * Y i) (fun i => INR n * (S i * Y i))) by (intros; ring).
      rewrite rsum_scal_l. eta. ring.
    - rewrite Ha, Hb. rewrite !rsum2_lower.
      + unfold L. rewrite <- !rsum_scal_l, <- rsum_minus. apply rsum_ext. intros i Hi.
        rewrite <- !rsum_scal_l, <- rsum_minus. apply rsum_ext. intros j Hj.
        pose proof (Hs j i Hj Hi). rewrite (Rabs_pos_eq (S i - S j)) by lra.
        destruct (Rltb_spec (Y j) (Y i)); simpl.
        * rewrite Rabs_pos_eq by lra. ring.
        * rewrite Rabs_minus_sym, Rabs_pos_eq by lra. ring.
      + intros. rewrite (Rabs_minus_sym (S i)), (Rabs_minus_sym (Y i)). reflexivity.
      + intros. rewrite !Rminus_eq_0, Rabs_R0. ring.
      + intros. ring.
      + intros. ring.
  Qed.

  Variables (n : nat) (X Y : nat -> R).
  Hypothesis Hn : (1 <= n)%nat.
  Let px := e_argsort E (tab n X).
  Let p := fun i => nth i px 0%nat.

  Lemma argsort_sorted Z : let q := e_argsort E (tab n Z) in
    is_perm n q /\ length q = n /\ perm_on n (fun i => nth i q 0%nat) /\
    sorted_fn n (fun i => Z (nth i q 0%nat)).
  Proof.
    intros q. destruct (ve_argsort E HE (tab n Z)) as [H1 H2]. fold q in H1, H2.
    rewrite tab_length in H1, H2.
    split; [exact H1|]. split; [apply is_perm_length; auto|]. split; [apply is_perm_on; auto|].
    intros i j Hij Hj. specialize (H2 i j Hij Hj).
    rewrite !tab_nth in H2 by (apply is_perm_lt; auto; lia). exact H2.
  Qed.

  Lemma take_tab_fn {A} (d : A) (Z : nat -> A) q : is_perm n q ->
    take_chk oob (tab n Z) q = Ok (tab n (fun i => Z (nth i q 0%nat))).
  Proof.
    intros Hq. rewrite (take_chk_ok oob d).
    - f_equal. rewrite (take_tab d n) by (apply is_perm_length; auto).
      apply tab_ext. intros i Hi. apply tab_nth, is_perm_lt; auto.
    - intros i Hi. rewrite tab_length. eapply is_perm_In; eauto.
  Qed.

  Theorem terms_mergesort_impl_ok k kv rv : exists q tm, perm_on n q /\
    terms_mergesort_impl E oob true k kv (tab n X) (tab n Y) rv = Ok tm /\
    t_kind tm = k /\ t_vkind tm = kv /\
    terms_ok n (fun i j => Rabs (X (q i) - X (q j))) (fun i j => Rabs (Y (q i) - Y (q j))) rv tm.
  Proof.
    destruct (argsort_sorted X) as (P1 & P2 & P3 & P4). fold px in P1, P2, P3, P4.
    exists p. unfold terms_mergesort_impl. fold px.
    rewrite !(take_tab_fn 0) by auto. cbn [rbind].
    rewrite aijbij_ok by auto. cbn [rbind].
    rewrite row_sums_ok by auto. cbn [rbind].
    set (Yp := fun i => Y (nth i px 0%nat)).
    destruct (argsort_sorted Yp) as (Q1 & Q2 & Q3 & Q4).
    set (qy := e_argsort E (tab n Yp)) in *.
    rewrite (take_tab_fn 0) by auto. cbn [rbind].
    rewrite row_sums_ok by auto. cbn [rbind]. rewrite tab_length.
    set (Yq := fun i => Yp (nth i qy 0%nat)).
    assert (scatter (e_empty E n) qy (tab n (fun i => rsum n (fun j => Rabs (Yq i - Yq j))))
            = tab n (fun i => rsum n (fun j => Rabs (Yp i - Yp j)))) as Hsc.
    { apply (list_tab_eq 0).
      - rewrite scatter_length. apply (ve_empty E HE).
      - intros i Hi. destruct (perm_on_surj n _ i Q3 Hi) as (m & Hm & <-).
        rewrite scatter_nth.
        + rewrite tab_nth by auto. unfold Yq.
          apply (rsum_perm n (fun j => nth j qy 0%nat) (fun j => Rabs (Yp (nth m qy 0%nat) - Yp j))); auto.
        + eapply is_perm_NoDup; eauto.
        + intros j Hj. rewrite (ve_empty E HE). eapply is_perm_In; eauto.
        + rewrite tab_length; auto.
        + rewrite Q2; auto. }
    unfold Yq, Yp in Hsc |- *. rewrite Hsc. rewrite HN, !np_sum_tab.
    eexists. split; [exact P3|]. split; [reflexivity|].
    cbn [t_kind t_vkind]. split; [reflexivity|]. split; [reflexivity|].
    unfold terms_ok. cbn [t_mean_prod t_a_axis t_a_total t_b_axis t_b_total t_mp_a t_mp_b].
    repeat (split; [reflexivity|]).
    intros ->. rewrite tab_length.
    change (nmul RNum) with Rmult. change (nofZ RNum) with IZR. rewrite !var_term by auto.
    split; reflexivity.
  Qed.
End Terms.
