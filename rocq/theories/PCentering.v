(** Centring functions, products and projections: C17-C21.

    A matrix is a list of rows ([mat n m]: [n] rows of length [n]; [entry m i j]); an array object is
    a location [a] of a store [h] ([nth_error h a = Some (is_float, m)]). *)
From Coq Require Import Reals Lra Lia List Arith Bool ZArith.
From Verif Require Import Num Numpy MUtils MDistances MInternals MDcor Sums Spec Centering Tab Samples Api RefDist
  RefCenter RefApi Witness.
Import ListNotations.
Local Open Scope R_scope.

Inductive centring := Double | UCentred.
Definition centre_fn {T} (c : centring) : Env T -> store -> loc -> option loc -> res (loc * store) :=
  match c with Double => double_centered | UCentred => u_centered end.
(** The documented formulas (Spec.v) and the sizes they make sense for. *)
Definition centred (c : centring) (n : nat) (a : nat -> nat -> R) : nat -> nat -> R :=
  match c with Double => dcenter n a | UCentred => ucenter n a end.
Definition centre_size (c : centring) : nat := match c with Double => 1 | UCentred => 3 end.

Section C17_C18.
  Variable E : Env R.
  Hypothesis EN : e_num E = RNum.
  Variables (c : centring) (h : list (bool * list (list R))) (a : nat) (fl : bool) (n : nat) (m : list (list R)).
  Hypothesis Ha : nth_error h a = Some (fl, m).
  Hypothesis Hm : mat n m.
  Hypothesis Hn : (centre_size c <= n)%nat.

  Lemma centre_runs : exists r,
    (exists o h', centre_fn c E h a None = Ok (o, h') /\ nth_error h' o = Some (true, r)) /\ mat n r /\
    (symmetric n (entry m) -> r = tab2 n n (centred c n (entry m))).
  Proof.
    assert (copied E m = m) as Hc by (apply copied_id, R_div_1, EN).
    assert (nth_error (h ++ [(true, m)]) a = Some (fl, m)) as Ha'
      by (rewrite nth_error_app1; auto; eapply nth_error_lt; eauto).
    assert (nth_error (h ++ [(true, m)]) (length h) = Some (true, m)) as Ho
      by (rewrite nth_error_app2, Nat.sub_diag; auto).
    pose proof (copy_none E h a fl m Ha) as Hcopy. rewrite Hc in Hcopy.
    pose proof (mat_tab2 n m Hm) as Ht.
    destruct c; cbn [centre_size centred] in *.
    - exists (dc_pure E m m). split; [|split].
      + do 2 eexists. split.
        * cbn [centre_fn]. eapply dc_run; eauto. eapply square_mat; eauto.
        * apply upd_same. rewrite app_length. cbn. lia.
      + rewrite Ht, dc_pure_tab by (auto; lia). apply tab2_mat.
      + intros Hs. rewrite Ht at 1 2. apply dc_pure_sym; auto.
    - exists (uc_pure E m m). split; [|split].
      + do 2 eexists. split.
        * cbn [centre_fn]. eapply uc_run; eauto. eapply square_mat; eauto.
        * apply upd_same. rewrite app_length. cbn. lia.
      + rewrite Ht, uc_pure_tab by (auto; lia). apply tab2_mat.
      + intros Hs. rewrite Ht at 1 2. apply uc_pure_sym; auto.
  Qed.
End C17_C18.

(** ** C17: double_centered *)

Theorem C17_double_centered E h a fl n m : e_num E = RNum -> nth_error h a = Some (fl, m) -> mat n m ->
  (1 <= n)%nat -> symmetric n (entry m) ->
  exists o h' r, double_centered E h a None = Ok (o, h') /\ nth_error h' o = Some (true, r) /\ mat n r /\
  (forall i j, (i < n)%nat -> (j < n)%nat ->
     entry r i j = entry m i j - rsum n (fun l => entry m i l) / INR n - rsum n (fun k => entry m k j) / INR n
                   + rsum2 n n (entry m) / INR n ^ 2) /\
  (forall i, (i < n)%nat -> rsum n (fun j => entry r i j) = 0) /\
  (forall j, (j < n)%nat -> rsum n (fun i => entry r i j) = 0).
Proof.
  intros EN Ha Hm Hn Hs. destruct (centre_runs E EN Double h a fl n m Ha Hm Hn) as (r & (o & h' & H1 & H2) & Hr & Hv).
  exists o, h', r. specialize (Hv Hs). cbn [centred] in Hv.
  assert (forall i j, (i < n)%nat -> (j < n)%nat -> entry r i j = dcenter n (entry m) i j) as Hv'
    by (intros; rewrite Hv; apply entry_tab2; auto).
  split; [exact H1|]. split; [exact H2|]. split; [exact Hr|]. split; [|split].
  - intros i j Hi Hj. rewrite Hv' by auto. unfold dcenter, mean. rewrite rsum_div. unfold rsum2.
    change (fun k => rsum n (fun l => entry m k l)) with (fun k => rsum n (entry m k)).
    pose proof (INR_pos n Hn). field. lra.
  - intros i Hi. rewrite (rsum_ext n _ (fun j => dcenter n (entry m) i j)) by (intros; apply Hv'; auto).
    apply dcenter_row_sum; auto.
  - intros j Hj. rewrite (rsum_ext n _ (fun i => dcenter n (entry m) i j)) by (intros; apply Hv'; auto).
    apply dcenter_col_sum; auto.
Qed.

(** Applying it to the result changes nothing. *)
Theorem C17_idempotent E h a fl n m o h' r : e_num E = RNum -> nth_error h a = Some (fl, m) -> mat n m ->
  (1 <= n)%nat -> symmetric n (entry m) ->
  double_centered E h a None = Ok (o, h') -> nth_error h' o = Some (true, r) ->
  exists o2 h2, double_centered E h' o None = Ok (o2, h2) /\ nth_error h2 o2 = Some (true, r).
Proof.
  intros EN Ha Hm Hn Hs H1 H2.
  destruct (centre_runs E EN Double h a fl n m Ha Hm Hn) as (r' & (o' & h'' & H1' & H2') & Hr & Hv).
  cbn [centre_fn] in H1'. rewrite H1 in H1'. injection H1' as <- <-. rewrite H2 in H2'. injection H2' as <-.
  specialize (Hv Hs). cbn [centred] in Hv.
  destruct (centre_runs E EN Double h' o true n r H2 Hr Hn) as (r2 & (o2 & h2 & H3 & H4) & Hr2 & Hv2).
  exists o2, h2. split; [exact H3|]. rewrite H4. do 2 f_equal. cbn [centred] in Hv2.
  assert (symmetric n (entry r)) as Hsr.
  { intros i j Hi Hj. rewrite Hv, !entry_tab2 by auto. apply dcenter_sym; auto. }
  rewrite (Hv2 Hsr). rewrite Hv at 2. apply tab2_ext. intros i j Hi Hj.
  rewrite (dcenter_ext n _ (dcenter n (entry m))); auto.
  - apply dcenter_idem; auto.
  - intros i' j' Hi' Hj'. rewrite Hv. apply entry_tab2; auto.
Qed.

(** For any square matrix, the value computed: the row means are subtracted along both axes. *)
Theorem C17_any_matrix E h a fl n m : e_num E = RNum -> nth_error h a = Some (fl, m) -> mat n m -> (1 <= n)%nat ->
  exists o h' r, double_centered E h a None = Ok (o, h') /\ nth_error h' o = Some (true, r) /\ mat n r /\
  (forall i j, (i < n)%nat -> (j < n)%nat ->
     entry r i j = entry m i j - rsum n (fun l => entry m i l) / INR n - rsum n (fun l => entry m j l) / INR n
                   + rsum2 n n (entry m) / INR n ^ 2).
Proof.
  intros EN Ha Hm Hn.
  assert (copied E m = m) as Hc by (apply copied_id, R_div_1, EN).
  pose proof (copy_none E h a fl m Ha) as Hcopy. rewrite Hc in Hcopy.
  do 2 eexists. exists (dc_pure E m m). split; [|split; [|split]].
  - eapply dc_run; [eauto| |rewrite nth_error_app2, Nat.sub_diag by auto; reflexivity|eapply square_mat; eauto].
    rewrite nth_error_app1; eauto. eapply nth_error_lt; eauto.
  - apply upd_same. rewrite app_length. cbn. lia.
  - rewrite (mat_tab2 n m Hm), dc_pure_tab by auto. apply tab2_mat.
  - intros i j Hi Hj. rewrite (mat_tab2 n m Hm) at 1 2. rewrite dc_pure_tab by auto. rewrite entry_tab2 by auto.
    change (fun l => entry m i l) with (entry m i). change (fun l => entry m j l) with (entry m j). ring.
Qed.

(** So the documented formula fails without symmetry: a matrix whose image has a non-zero column sum. *)
Theorem C17_asymmetric_refuted : exists r o h', double_centered (env_R true) [(true, [[0; 2]; [0; 0]])] 0%nat None = Ok (o, h') /\
  nth_error h' o = Some (true, r) /\ rsum 2 (fun i => entry r i 0%nat) <> 0.
Proof.
  destruct (C17_any_matrix (env_R true) [(true, [[0; 2]; [0; 0]])] 0%nat true 2 [[0; 2]; [0; 0]])
    as (o & h' & r & H1 & H2 & _ & H3); auto.
  - split; auto.
  - exists r, o, h'. split; [exact H1|]. split; [exact H2|]. cbn [rsum]. rewrite !H3 by lia. unfold rsum2. cbn. lra.
Qed.

Example C17_meets : mat 3 [[1; 2; 3]; [2; 4; 5]; [3; 5; 6]] /\ symmetric 3 (entry [[1; 2; 3]; [2; 4; 5]; [3; 5; 6]]).
Proof.
  split; [split; auto|]. intros i j Hi Hj.
  destruct i as [|[|[|i]]]; try lia; destruct j as [|[|[|j]]]; try lia; reflexivity.
Qed.

(** ** C18: u_centered *)

Theorem C18_u_centered E h a fl n m : e_num E = RNum -> nth_error h a = Some (fl, m) -> mat n m ->
  (3 <= n)%nat -> symmetric n (entry m) ->
  exists o h' r, u_centered E h a None = Ok (o, h') /\ nth_error h' o = Some (true, r) /\ mat n r /\
  (forall i, (i < n)%nat -> entry r i i = 0) /\
  (forall i j, (i < n)%nat -> (j < n)%nat -> i <> j ->
     entry r i j = entry m i j - / (INR n - 2) * rsum n (fun l => entry m i l)
                   - / (INR n - 2) * rsum n (fun k => entry m k j)
                   + / ((INR n - 1) * (INR n - 2)) * rsum2 n n (entry m)) /\
  (hollow n (entry m) -> forall i, (i < n)%nat -> rsum n (fun j => entry r i j) = 0) /\
  (hollow n (entry m) -> forall j, (j < n)%nat -> rsum n (fun i => entry r i j) = 0).
Proof.
  intros EN Ha Hm Hn Hs. destruct (centre_runs E EN UCentred h a fl n m Ha Hm Hn) as (r & (o & h' & H1 & H2) & Hr & Hv).
  exists o, h', r. specialize (Hv Hs). cbn [centred] in Hv.
  assert (forall i j, (i < n)%nat -> (j < n)%nat -> entry r i j = ucenter n (entry m) i j) as Hv'
    by (intros; rewrite Hv; apply entry_tab2; auto).
  split; [exact H1|]. split; [exact H2|]. split; [exact Hr|]. split; [|split; [|split]].
  - intros i Hi. rewrite Hv' by auto. apply ucenter_diag.
  - intros i j Hi Hj Hij. rewrite Hv' by auto. unfold ucenter. destruct (Nat.eqb_spec i j); [contradiction|reflexivity].
  - intros Hh i Hi. rewrite (rsum_ext n _ (fun j => ucenter n (entry m) i j)) by (intros; apply Hv'; auto).
    apply ucenter_row_sum; auto.
  - intros Hh j Hj. rewrite (rsum_ext n _ (fun i => ucenter n (entry m) i j)) by (intros; apply Hv'; auto).
    apply ucenter_col_sum; auto.
Qed.

Theorem C18_idempotent E h a fl n m o h' r : e_num E = RNum -> nth_error h a = Some (fl, m) -> mat n m ->
  (3 <= n)%nat -> symmetric n (entry m) -> hollow n (entry m) ->
  u_centered E h a None = Ok (o, h') -> nth_error h' o = Some (true, r) ->
  exists o2 h2, u_centered E h' o None = Ok (o2, h2) /\ nth_error h2 o2 = Some (true, r).
Proof.
  intros EN Ha Hm Hn Hs Hh H1 H2.
  destruct (centre_runs E EN UCentred h a fl n m Ha Hm Hn) as (r' & (o' & h'' & H1' & H2') & Hr & Hv).
  cbn [centre_fn] in H1'. rewrite H1 in H1'. injection H1' as <- <-. rewrite H2 in H2'. injection H2' as <-.
  specialize (Hv Hs). cbn [centred] in Hv.
  destruct (centre_runs E EN UCentred h' o true n r H2 Hr Hn) as (r2 & (o2 & h2 & H3 & H4) & Hr2 & Hv2).
  exists o2, h2. split; [exact H3|]. rewrite H4. do 2 f_equal. cbn [centred] in Hv2.
  assert (symmetric n (entry r)) as Hsr.
  { intros i j Hi Hj. rewrite Hv, !entry_tab2 by auto. apply ucenter_sym; auto. }
  rewrite (Hv2 Hsr). rewrite Hv at 2. apply tab2_ext. intros i j Hi Hj.
  rewrite (ucenter_ext n _ (ucenter n (entry m))); auto.
  - apply ucenter_idem; auto.
  - intros i' j' Hi' Hj'. rewrite Hv. apply entry_tab2; auto.
Qed.

Example C18_meets : exists m, mat 4 m /\ symmetric 4 (entry m) /\ hollow 4 (entry m) /\ entry m 0 1 <> 0.
Proof.
  exists [[0; 3; 11; 6]; [3; 0; 8; 3]; [11; 8; 0; 5]; [6; 3; 5; 0]]. repeat split; auto.
  - intros i j Hi Hj.
    destruct i as [|[|[|[|i]]]]; try lia; destruct j as [|[|[|[|j]]]]; try lia; reflexivity.
  - intros i Hi. destruct i as [|[|[|[|i]]]]; try lia; reflexivity.
  - cbn. lra.
Qed.

(** ** C19: the [out] parameter and aliasing *)

(** For any number type in which [v / 1 = v], any square matrix (symmetric or not) and any store: one
    result [r] for every way of passing [out]. *)
Theorem C19_out {T} (E : Env T) c h a fl n m : (forall v, ndiv (e_num E) v (nunit (e_num E)) = v) ->
  nth_error h a = Some (fl, m) -> mat n m ->
  exists r,
    (* out=None: a new array, all the others unchanged *)
    centre_fn c E h a None = Ok (length h, h ++ [(true, r)]) /\
    (* out=o: [o] is returned and holds [r], all the others are unchanged; [o] may be [a] itself *)
    (forall o m', nth_error h o = Some (true, m') -> mat n m' ->
       exists h', centre_fn c E h a (Some o) = Ok (o, h') /\ nth_error h' o = Some (true, r) /\
                  length h' = length h /\ forall l, l <> o -> nth_error h' l = nth_error h l) /\
    (* an integer array cannot hold the result *)
    (forall o m', nth_error h o = Some (false, m') -> mat n m' -> centre_fn c E h a (Some o) = Err TypeError).
Proof.
  intros Hd Ha Hm. pose proof (copied_id E m Hd) as Hc.
  pose proof (copy_none E h a fl m Ha) as Hcopy. rewrite Hc in Hcopy.
  pose proof (square_mat n m Hm) as Hq. pose proof (nth_error_lt _ _ _ Ha) as La.
  assert (forall m' : list (list T), mat n m' -> same_shape m m' = true) as Hsh.
  { intros m' [L' F']. destruct Hm as [L F]. unfold same_shape. rewrite L, L', Nat.eqb_refl. cbn.
    apply forallb_forall. intros [r r'] Hr. rewrite Forall_forall in F, F'.
    cbn. rewrite (F r), (F' r') by eauto using in_combine_l, in_combine_r. apply Nat.eqb_refl. }
  set (r := match c with Double => dc_pure E m m | UCentred => uc_pure E m m end).
  exists r. split; [|split].
  - assert (centre_fn c E h a None = Ok (length h, upd (h ++ [(true, m)]) (length h) (true, r))) as ->.
    { assert (nth_error (h ++ [(true, m)]) a = Some (fl, m)) by (rewrite nth_error_app1; auto).
      assert (nth_error (h ++ [(true, m)]) (length h) = Some (true, m)) by (rewrite nth_error_app2, Nat.sub_diag; auto).
      destruct c; [eapply dc_run|eapply uc_run]; eauto. }
    rewrite upd_end. reflexivity.
  - intros o m' Ho Hm'. pose proof (nth_error_lt _ _ _ Ho) as Lo.
    destruct (Nat.eq_dec o a) as [->|Hne].
    + rewrite Ha in Ho. injection Ho as -> <-.
      exists (upd h a (true, r)). split; [|split; [apply upd_same; auto|split; [apply upd_length|]]].
      * pose proof (copy_self E h a true m Ha). destruct c; [eapply dc_run|eapply uc_run]; eauto.
      * intros l Hl. apply upd_other. auto.
    + exists (upd h o (true, r)). split; [|split; [apply upd_same; auto|split; [apply upd_length|]]].
      * pose proof (copy_out E h a o fl true m m' Ha Ho Hne) as Hco. rewrite (Hsh m' Hm') in Hco.
        assert (nth_error (upd h o (true, m)) a = Some (fl, m)) by (rewrite upd_other; auto).
        assert (nth_error (upd h o (true, m)) o = Some (true, m)) by (apply upd_same; auto).
        rewrite <- (upd_upd h o (true, m) (true, r)).
        destruct c; [eapply dc_run|eapply uc_run]; eauto.
      * intros l Hl. apply upd_other. auto.
  - intros o m' Ho Hm'. pose proof (nth_error_lt _ _ _ Ho) as Lo.
    destruct (Nat.eq_dec o a) as [->|Hne].
    + rewrite Ha in Ho. injection Ho as -> <-.
      destruct (dc_int E h h a (Some a) a m false m (copy_self E h a false m Ha) Ha Ha Hq). destruct c; auto.
    + pose proof (copy_out E h a o fl false m m' Ha Ho Hne) as Hco. rewrite (Hsh m' Hm') in Hco.
      assert (nth_error (upd h o (false, m)) a = Some (fl, m)) by (rewrite upd_other; auto).
      assert (nth_error (upd h o (false, m)) o = Some (false, m)) by (apply upd_same; auto).
      destruct (dc_int E h _ a (Some o) o m fl m Hco) as [D U]; auto. destruct c; auto.
Qed.

(** An output of another shape is refused. *)
Theorem C19_wrong_shape {T} (E : Env T) c h a fl fl' m o m' :
  nth_error h a = Some (fl, m) -> nth_error h o = Some (fl', m') -> o <> a -> length m' <> length m ->
  centre_fn c E h a (Some o) = Err ValueError.
Proof.
  intros Ha Ho Hne Hl. pose proof (copy_out E h a o fl fl' m m' Ha Ho Hne) as Hco.
  assert (same_shape m m' = false) as Hs.
  { unfold same_shape. destruct (Nat.eqb_spec (length m) (length m')); [congruence|reflexivity]. }
  rewrite Hs in Hco. destruct c; cbn [centre_fn]; unfold double_centered, u_centered; rewrite Hco; reflexivity.
Qed.

Example C19_meets : exists h' r,
  double_centered (env_R true) [(true, [[0; 2]; [2; 1]]); (true, [[9; 9]; [9; 9]])] 0%nat (Some 1%nat) = Ok (1%nat, h') /\
  nth_error h' 1 = Some (true, r) /\ nth_error h' 0 = Some (true, [[0; 2]; [2; 1]]).
Proof.
  set (h := [(true, [[0; 2]; [2; 1]]); (true, [[9; 9]; [9; 9]])]).
  destruct (C19_out (env_R true) Double h 0%nat true 2 [[0; 2]; [2; 1]]) as (r & _ & H & _).
  - intros v. apply R_div_1. reflexivity.
  - reflexivity.
  - split; auto.
  - destruct (H 1%nat [[9; 9]; [9; 9]]) as (h' & H1 & H2 & _ & H3); [reflexivity|split; auto|].
    exists h', r. split; [exact H1|]. split; [exact H2|]. apply H3. auto.
Qed.

(** ** C20: products of centred distance matrices *)

Section C20.
  Variables (E : Env R) (x y : array R) (n : nat) (e : R).
  Hypothesis HE : valid_env E.
  Hypothesis Hp : paired n x y.
  Hypothesis He : 0 < e.

  (** The matrix obtained by the public functions pairwise_distances and then double_centered or u_centered. *)
  Definition centred_distances (c : centring) (x : array R) (r : list (list R)) : Prop :=
    exists m o h, pairwise_distances E x None e = Ok m /\ centre_fn c E [(true, m)] 0%nat None = Ok (o, h) /\
                  nth_error h o = Some (true, r).

  Lemma centred_distances_value c z : wf z -> shape0 z = n -> (centre_size c <= n)%nat ->
    exists r, centred_distances c z r /\ r = tab2 n n (centred c n (distances e z)).
  Proof.
    intros Wz Sz Hn. pose proof HE as [EN _ _]. pose proof (pairwise_distances_one E EN z e Wz He) as Hd.
    rewrite Sz in Hd.
    destruct (centre_runs E EN c [(true, tab2 n n (distances e z))] 0 true n _ eq_refl (tab2_mat n _) Hn)
      as (r & (o & h & H1 & H2) & Hr & Hv).
    exists r. split; [exists (tab2 n n (distances e z)), o, h; auto|].
    rewrite Hv.
    - apply tab2_ext. intros i j Hi Hj. destruct c; cbn [centred].
      + apply dcenter_ext; auto. intros; apply entry_tab2; auto.
      + apply ucenter_ext; auto. intros; apply entry_tab2; auto.
    - intros i j Hi Hj. rewrite !entry_tab2 by auto. apply dmat_symmetric with (n := n); auto.
  Qed.

  Theorem C20_mean_product m cm : accepts m cm x y e ->
    exists a b v, centred_distances Double x a /\ centred_distances Double y b /\
    mean_product E a b = Ok v /\ outcome (distance_covariance_sqr E x y e (MethodEnum m) cm) = Ok v.
  Proof.
    intros Ha. pose proof HE as [EN _ _]. pose proof Hp as (Wx & Wy & Sx & Sy & Hn).
    destruct (centred_distances_value Double x Wx Sx Hn) as (a & Ca & Va).
    destruct (centred_distances_value Double y Wy Sy Hn) as (b & Cb & Vb).
    exists a, b. eexists. split; [exact Ca|]. split; [exact Cb|]. split.
    - rewrite Va, Vb. apply mean_product_tab; auto.
    - apply (call_ok DcovSqr E x y n e m cm HE Hp Hn He Ha).
  Qed.

  Theorem C20_u_product m cm : (4 <= n)%nat -> accepts m cm x y e ->
    exists a b v, centred_distances UCentred x a /\ centred_distances UCentred y b /\
    u_product E a b = Ok v /\ outcome (u_distance_covariance_sqr E x y e (MethodEnum m) cm) = Ok v.
  Proof.
    intros Hn Ha. pose proof HE as [EN _ _]. pose proof Hp as (Wx & Wy & Sx & Sy & _).
    assert (centre_size UCentred <= n)%nat as Hn' by (cbn; lia).
    destruct (centred_distances_value UCentred x Wx Sx Hn') as (a & Ca & Va).
    destruct (centred_distances_value UCentred y Wy Sy Hn') as (b & Cb & Vb).
    exists a, b. eexists. split; [exact Ca|]. split; [exact Cb|]. split.
    - rewrite Va, Vb. apply u_product_tab; auto.
    - apply (call_ok UDcovSqr E x y n e m cm HE Hp Hn He Ha).
  Qed.
End C20.

(** The products themselves, on any matrices of the same size. *)
Theorem C20_products E n a b : e_num E = RNum -> mat n a -> mat n b ->
  ((1 <= n)%nat -> mean_product E a b = Ok (rsum2 n n (fun i j => entry a i j * entry b i j) / (INR n * INR n))) /\
  ((4 <= n)%nat -> u_product E a b = Ok (rsum2 n n (fun i j => entry a i j * entry b i j) / (INR n * (INR n - 3)))).
Proof.
  intros EN Ha Hb. pose proof (mat_tab2 n a Ha) as Ta. pose proof (mat_tab2 n b Hb) as Tb. split; intros Hn.
  - rewrite Ta at 1. rewrite Tb at 1. rewrite mean_product_tab by auto. f_equal. pose proof (INR_pos n Hn). field. lra.
  - rewrite Ta at 1. rewrite Tb at 1. rewrite u_product_tab by auto. unfold uprod. f_equal. pose proof (INR_ge4 n Hn). field. lra.
Qed.

Example C20_meets : exists a b v, centred_distances (env_R true) 1 UCentred xs a /\ centred_distances (env_R true) 1 UCentred zs b /\
  u_product (env_R true) a b = Ok v /\ outcome (u_distance_covariance_sqr (env_R true) xs zs 1 (MethodEnum MNaive) CAuto) = Ok v.
Proof.
  apply (C20_u_product _ xs zs 5); auto using env_R_valid, xs_zs, naive_accepts; try lra; try lia.
  left. reflexivity.
Qed.

(** ** C21: projections *)

Section C21.
  Variables (E : Env R) (n : nat) (c : list (list R)).
  Hypothesis EN : e_num E = RNum.
  Hypothesis Hn : (4 <= n)%nat.
  Hypothesis Hc : mat n c.

  (** [<a, b>] on matrices *)
  Definition inner (a b : list (list R)) : R := uprod n (entry a) (entry b).

  Lemma uproj_ext a a' i j : (forall i j, (i < n)%nat -> (j < n)%nat -> a i j = a' i j) ->
    uproj n (entry c) a i j = uproj n (entry c) a' i j.
  Proof. intros H. unfold uproj. rewrite (uprod_ext n a (entry c) a' (entry c)) by auto. reflexivity. Qed.

  Lemma proj_value : exists p, u_projection E c = Ok p /\
    forall a, mat n a -> p a = Ok (tab2 n n (uproj n (entry c) (entry a))).
  Proof.
    destruct (u_projection_tab E EN n (entry c) Hn) as (p & Hp & Hv).
    rewrite <- (mat_tab2 n c Hc) in Hp. exists p. split; [exact Hp|]. intros a Ha.
    rewrite (mat_tab2 n a Ha) at 1. apply Hv.
  Qed.

  (** The projection is the multiple <a,c>/<c,c> of [c] (0 when [c] = 0). *)
  Theorem C21_projection : exists p, u_projection E c = Ok p /\ forall a, mat n a ->
    exists r, p a = Ok r /\ mat n r /\
    (forall i j, (i < n)%nat -> (j < n)%nat -> inner c c <> 0 -> entry r i j = inner a c / inner c c * entry c i j) /\
    (forall i j, (i < n)%nat -> (j < n)%nat -> inner c c = 0 -> entry c i j = 0 /\ entry r i j = 0).
  Proof.
    destruct proj_value as (p & Hp & Hv). exists p. split; [exact Hp|]. intros a Ha.
    eexists. split; [apply Hv; auto|]. split; [apply tab2_mat|]. split; intros i j Hi Hj H0; rewrite entry_tab2 by auto;
      unfold uproj, inner in *; destruct (Req_EM_T _ _); try contradiction; auto.
    split; auto. apply (uprod_zero n (entry c)); auto.
  Qed.

  (** Linear, idempotent, fixes [c]. *)
  Theorem C21_linear_idempotent : exists p, u_projection E c = Ok p /\
    (forall a b r w s u, mat n a -> mat n b -> mat n u -> p a = Ok r -> p b = Ok w ->
       (forall i j, (i < n)%nat -> (j < n)%nat -> entry u i j = s * entry a i j + entry b i j) ->
       exists v, p u = Ok v /\
       forall i j, (i < n)%nat -> (j < n)%nat -> entry v i j = s * entry r i j + entry w i j) /\
    (forall a r, mat n a -> p a = Ok r -> p r = Ok r) /\
    p c = Ok c.
  Proof.
    destruct proj_value as (p & Hp & Hv). exists p. split; [exact Hp|]. split; [|split].
    - intros a b r w s u Ha Hb Hu Hr Hw He. rewrite Hv in Hr, Hw by auto. injection Hr as <-. injection Hw as <-.
      eexists. split; [apply Hv; auto|]. intros i j Hi Hj. rewrite !entry_tab2 by auto.
      rewrite (uproj_ext _ _ i j He). unfold uproj. destruct (Req_EM_T _ _); [ring|].
      rewrite uprod_lin. field. auto.
    - intros a r Ha Hr. rewrite Hv in Hr by auto. injection Hr as <-. rewrite Hv by apply tab2_mat. f_equal.
      apply tab2_ext. intros i j Hi Hj.
      rewrite (uproj_ext _ (uproj n (entry c) (entry a))) by (intros; apply entry_tab2; auto).
      unfold uproj at 1 3. destruct (Req_EM_T (uprod n (entry c) (entry c)) 0) as [H0|H0]; auto.
      rewrite (uprod_ext n _ (entry c) (fun i j => (uprod n (entry a) (entry c) / uprod n (entry c) (entry c)) * entry c i j) (entry c)).
      + rewrite uprod_scal. field. auto.
      + intros i' j' Hi' Hj'. unfold uproj. destruct (Req_EM_T _ _); [contradiction|reflexivity].
      + auto.
    - rewrite Hv by auto. f_equal. apply (mat_eq n); auto using tab2_mat. intros i j Hi Hj. rewrite entry_tab2 by auto.
      unfold uproj. destruct (Req_EM_T _ _) as [H0|H0]; [symmetry; apply (uprod_zero n (entry c)); auto|field; auto].
  Qed.

  (** The remainder of u_complementary_projection is orthogonal to [c]; projecting never increases the norm. *)
  Theorem C21_orthogonal : exists p q, u_projection E c = Ok p /\ u_complementary_projection E c = Ok q /\
    forall a, mat n a -> exists r w, p a = Ok r /\ q a = Ok w /\ mat n r /\ mat n w /\
    (forall i j, (i < n)%nat -> (j < n)%nat -> entry a i j = entry r i j + entry w i j) /\
    u_product E w c = Ok 0 /\ inner r w = 0 /\ inner r r <= inner a a /\ inner w w <= inner a a.
  Proof.
    destruct proj_value as (p & Hp & Hv).
    destruct (u_compl_tab E EN n (entry c) Hn) as (q & Hq & Hw). rewrite <- (mat_tab2 n c Hc) in Hq.
    exists p, q. split; [exact Hp|]. split; [exact Hq|]. intros a Ha.
    eexists. eexists. split; [apply Hv; auto|]. split; [rewrite (mat_tab2 n a Ha) at 1; apply Hw|].
    split; [apply tab2_mat|]. split; [apply tab2_mat|].
    set (A := entry a). set (C := entry c).
    assert (forall i j, (i < n)%nat -> (j < n)%nat ->
      entry (tab2 n n (fun i j => A i j - uproj n C A i j)) i j = A i j - uproj n C A i j) as Ew by (intros; apply entry_tab2; auto).
    assert (forall i j, (i < n)%nat -> (j < n)%nat -> entry (tab2 n n (uproj n C A)) i j = uproj n C A i j) as Er
      by (intros; apply entry_tab2; auto).
    assert (uprod n (uproj n C A) C = uprod n A C) as Hpc.
    { destruct (Req_EM_T (uprod n C C) 0) as [H0|H0].
      - pose proof (uprod_zero n C Hn H0) as Hz. unfold uprod. f_equal. apply rsum2_ext. intros. rewrite Hz by auto. ring.
      - rewrite (uprod_ext n _ C (fun i j => (uprod n A C / uprod n C C) * C i j) C).
        + rewrite uprod_scal. field. auto.
        + intros. unfold uproj. destruct (Req_EM_T _ _); [contradiction|reflexivity].
        + auto. }
    assert (uprod n (fun i j => A i j - uproj n C A i j) C = 0) as Hwc.
    { rewrite (uprod_ext n _ C (fun i j => (-1) * uproj n C A i j + A i j) C) by (intros; ring).
      rewrite uprod_lin, Hpc. ring. }
    assert (forall B, uprod n (uproj n C A) B * uprod n C C = uprod n A C * uprod n C B) as Hpb.
    { intros B. destruct (Req_EM_T (uprod n C C) 0) as [H0|H0].
      - pose proof (uprod_zero n C Hn H0) as Hz. rewrite H0.
        assert (uprod n A C = 0) as -> by (unfold uprod; rewrite (rsum2_ext n n _ (fun _ _ => 0)), rsum2_const;
          [ring|intros; rewrite Hz by auto; ring]). ring.
      - rewrite (uprod_ext n _ B (fun i j => (uprod n A C / uprod n C C) * C i j) B).
        + rewrite uprod_scal. field. auto.
        + intros. unfold uproj. destruct (Req_EM_T _ _); [contradiction|reflexivity].
        + auto. }
    assert (uprod n (uproj n C A) (fun i j => A i j - uproj n C A i j) = 0) as Hrw.
    { destruct (Req_EM_T (uprod n C C) 0) as [H0|H0].
      - unfold uprod. rewrite (rsum2_ext n n _ (fun _ _ => 0)), rsum2_const; [ring|]. intros. unfold uproj.
        destruct (Req_EM_T _ _); [ring|contradiction].
      - pose proof (Hpb (fun i j => A i j - uproj n C A i j)) as H1. rewrite (uprod_sym n C (fun i j => A i j - uproj n C A i j)), Hwc in H1.
        rewrite Rmult_0_r in H1. apply Rmult_integral in H1. tauto. }
    assert (forall B, 0 <= uprod n B B) as Hpos.
    { intros B. unfold uprod. pose proof (INR_ge4 n Hn). apply Rmult_le_pos.
      - left. apply Rinv_0_lt_compat. nra.
      - apply rsum2_nonneg. intros. nra. }
    assert (uprod n A A = uprod n (uproj n C A) (uproj n C A)
            + uprod n (fun i j => A i j - uproj n C A i j) (fun i j => A i j - uproj n C A i j)) as Hpy.
    { set (P := uproj n C A) in *. set (W := fun i j => A i j - P i j) in *.
      assert (uprod n A A = uprod n P P + 2 * uprod n P W + uprod n W W) as ->; [|rewrite Hrw; ring].
      unfold uprod. rewrite (rsum2_ext n n (fun i j => A i j * A i j)
        (fun i j => P i j * P i j + 2 * (P i j * W i j) + W i j * W i j)) by (intros; unfold W; ring).
      rewrite !rsum2_plus, rsum2_scal_l. ring. }
    split; [|split; [|split; [|split]]].
    - intros i j Hi Hj. rewrite Ew, Er by auto. fold A. ring.
    - rewrite (mat_tab2 n c Hc), u_product_tab by auto. rewrite <- Hwc. reflexivity.
    - unfold inner. rewrite (uprod_ext n _ _ _ _ Er Ew). auto.
    - unfold inner. rewrite (uprod_ext n _ _ _ _ Er Er). fold A. rewrite Hpy.
      pose proof (Hpos (fun i j => A i j - uproj n C A i j)). lra.
    - unfold inner. rewrite (uprod_ext n _ _ _ _ Ew Ew). fold A. rewrite Hpy. pose proof (Hpos (uproj n C A)). lra.
  Qed.
End C21.

Example C21_meets : exists c, mat 4 c /\ inner 4 c c <> 0.
Proof.
  exists [[0; -2; 1; 1]; [-2; 0; 1; 1]; [1; 1; 0; -2]; [1; 1; -2; 0]]. split; [split; auto|].
  unfold inner, uprod, rsum2. cbn. lra.
Qed.
