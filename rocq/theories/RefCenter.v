(** Centring on a store, products and projections: from the model to matrices as functions. *)
From Coq Require Import Reals Lra Lia List Arith Bool ZArith.
From Verif Require Import Num Numpy MUtils MDistances MInternals Sums Spec Centering Tab Samples RefDist.
Import ListNotations.

(** An [n] x [n] matrix as a list of rows, and its entries. *)
Definition mat {T} (n : nat) (m : list (list T)) : Prop := length m = n /\ Forall (fun r => length r = n) m.
Definition entry (m : list (list R)) (i j : nat) : R := nth j (nth i m []) 0%R.

(** ** The store *)

Section Store.
  Context {T : Type} (E : Env T).
  Let N := e_num E.

  (** The returned matrix: [m0] is the copy, [m] the matrix whose sums are taken. *)
  Definition dc_pure (m0 m : list (list T)) : list (list T) :=
    let (axis, total) := symmetric_matrix_sums E m in
    let dim := Z.of_nat (length m) in
    let mean := map (fun s => ndiv N s (nofZ N dim)) axis in
    add_all E (ndiv N total (nofZ N (dim ^ 2))) (sub_rows E mean (sub_cols E mean m0)).
  Definition uc_pure (m0 m : list (list T)) : list (list T) :=
    let (axis, total) := symmetric_matrix_sums E m in
    let dim := Z.of_nat (length m) in
    let mean := map (fun s => ndiv N s (nofZ N (dim - 2))) axis in
    zero_diag E (add_all E (ndiv N total (nofZ N ((dim - 1) * (dim - 2)))) (sub_rows E mean (sub_cols E mean m0))).

  Lemma upd_upd {A} (l : list A) i v w : upd (upd l i v) i w = upd l i w.
  Proof. revert i; induction l; destruct i; cbn; auto. rewrite IHl. reflexivity. Qed.
  Lemma upd_same {A} (l : list A) i v : (i < length l)%nat -> nth_error (upd l i v) i = Some v.
  Proof. revert i; induction l; destruct i; cbn; intros; try lia; auto. apply IHl. lia. Qed.
  Lemma upd_other {A} (l : list A) i j v : i <> j -> nth_error (upd l i v) j = nth_error l j.
  Proof. revert i j; induction l; destruct i, j; cbn; intros; try congruence; auto. Qed.
  Lemma upd_id {A} (l : list A) i v : nth_error l i = Some v -> upd l i v = l.
  Proof. revert i; induction l; destruct i; cbn; intros H; try congruence. rewrite IHl; auto. Qed.
  Lemma upd_end {A} (l : list A) v w : upd (l ++ [v]) (length l) w = l ++ [w].
  Proof. induction l; cbn; congruence. Qed.

  Lemma inplace_ok (h : @store T) o f m : nth_error h o = Some (true, m) -> inplace h o f = Ok (upd h o (true, f m)).
  Proof. intros H. unfold inplace. rewrite H. reflexivity. Qed.
  Lemma inplace_upd (h : @store T) o f m : (o < length h)%nat -> inplace (upd h o (true, m)) o f = Ok (upd h o (true, f m)).
  Proof. intros H. rewrite (inplace_ok _ _ _ m) by (apply upd_same; auto). rewrite upd_upd. reflexivity. Qed.
  Lemma inplace_int (h : @store T) o f m : nth_error h o = Some (false, m) -> inplace h o f = Err TypeError.
  Proof. intros H. unfold inplace. rewrite H. reflexivity. Qed.

  Lemma nth_error_lt {A} (l : list A) i v : nth_error l i = Some v -> (i < length l)%nat.
  Proof. intros H. apply nth_error_Some. congruence. Qed.

  (** Both functions are: copy, then sums of [a], then in-place updates. *)
  Lemma dc_run h h' a out o m0 fl m : float_copy_to_out E h out a = Ok (o, h') ->
    nth_error h' a = Some (fl, m) -> nth_error h' o = Some (true, m0) -> square m = true ->
    double_centered E h a out = Ok (o, upd h' o (true, dc_pure m0 m)).
  Proof.
    intros Hc Ha Ho Hm. unfold double_centered. rewrite Hc. cbn [rbind]. rewrite Ha. cbn [of_option rbind]. rewrite Hm.
    unfold dc_pure. destruct (symmetric_matrix_sums E m) as [axis total]. cbv zeta.
    pose proof (nth_error_lt _ _ _ Ho) as L.
    rewrite (inplace_ok _ _ _ m0) by auto. cbn [rbind].
    rewrite !inplace_upd by auto. cbn [rbind]. rewrite inplace_upd by auto. reflexivity.
  Qed.

  Lemma uc_run h h' a out o m0 fl m : float_copy_to_out E h out a = Ok (o, h') ->
    nth_error h' a = Some (fl, m) -> nth_error h' o = Some (true, m0) -> square m = true ->
    u_centered E h a out = Ok (o, upd h' o (true, uc_pure m0 m)).
  Proof.
    intros Hc Ha Ho Hm. unfold u_centered. rewrite Hc. cbn [rbind]. rewrite Ha. cbn [of_option rbind]. rewrite Hm.
    unfold uc_pure. destruct (symmetric_matrix_sums E m) as [axis total]. cbv zeta.
    pose proof (nth_error_lt _ _ _ Ho) as L.
    rewrite (inplace_ok _ _ _ m0) by auto. cbn [rbind].
    rewrite !inplace_upd by auto. cbn [rbind]. rewrite inplace_upd by auto. cbn [rbind].
    rewrite inplace_upd by auto. reflexivity.
  Qed.

  (** An integer array as output: the first in-place subtraction is refused. *)
  Lemma dc_int h h' a out o m0 fl m : float_copy_to_out E h out a = Ok (o, h') ->
    nth_error h' a = Some (fl, m) -> nth_error h' o = Some (false, m0) -> square m = true ->
    double_centered E h a out = Err TypeError /\ u_centered E h a out = Err TypeError.
  Proof.
    intros Hc Ha Ho Hm. unfold double_centered, u_centered. rewrite Hc. cbn [rbind]. rewrite Ha. cbn [of_option rbind].
    rewrite Hm. destruct (symmetric_matrix_sums E m) as [axis total]. cbv zeta.
    rewrite !(inplace_int _ _ _ m0) by auto. auto.
  Qed.

  Definition copied (m : list (list T)) : list (list T) := map (map (fun v => ndiv N v (nunit N))) m.

  Lemma copy_none h a fl m : nth_error h a = Some (fl, m) ->
    float_copy_to_out E h None a = Ok (length h, h ++ [(true, copied m)]).
  Proof. intros H. unfold float_copy_to_out. rewrite H. reflexivity. Qed.
  Lemma copy_self h a fl m : nth_error h a = Some (fl, m) -> float_copy_to_out E h (Some a) a = Ok (a, h).
  Proof. intros H. unfold float_copy_to_out. rewrite H. cbn. rewrite Nat.eqb_refl. reflexivity. Qed.
  Lemma copy_out h a o fl fl' m m' : nth_error h a = Some (fl, m) -> nth_error h o = Some (fl', m') -> o <> a ->
    float_copy_to_out E h (Some o) a = if same_shape m m' then Ok (o, upd h o (fl', m)) else Err ValueError.
  Proof.
    intros H H' Hn. unfold float_copy_to_out. rewrite H. cbn. destruct (Nat.eqb_spec o a); [contradiction|].
    rewrite H'. reflexivity.
  Qed.

  Lemma copied_id m : (forall v, ndiv N v (nunit N) = v) -> copied m = m.
  Proof.
    intros H. unfold copied. rewrite <- (map_id m) at 2. apply map_ext. intros r.
    rewrite <- (map_id r) at 2. apply map_ext. auto.
  Qed.

  Lemma square_mat n (m : list (list T)) : mat n m -> square m = true.
  Proof.
    intros [H1 H2]. unfold square. apply forallb_forall. intros r Hr.
    rewrite Forall_forall in H2. rewrite (H2 r Hr), H1. apply Nat.eqb_refl.
  Qed.
End Store.

(** ** Real matrices *)

Lemma tab2_length {A} n m (f : nat -> nat -> A) : length (tab2 n m f) = n.
Proof. apply tab_length. Qed.
Lemma mat_tab2 n m : mat n m -> m = tab2 n n (entry m).
Proof.
  intros [H1 H2]. unfold tab2. apply (list_tab_eq []); auto. intros i Hi.
  apply (list_tab_eq 0%R); auto. rewrite Forall_forall in H2. apply H2. apply nth_In. lia.
Qed.
Lemma tab2_mat {T} n (f : nat -> nat -> T) : mat n (tab2 n n f).
Proof.
  split; [apply tab_length|]. apply Forall_forall. intros r Hr.
  unfold tab2, tab in Hr. apply in_map_iff in Hr. destruct Hr as (i & <- & _). fold (tab n (f i)). apply tab_length.
Qed.
Lemma entry_tab2 n m f i j : (i < n)%nat -> (j < m)%nat -> entry (tab2 n m f) i j = f i j.
Proof. intros. unfold entry, tab2. rewrite tab_nth, tab_nth by auto. reflexivity. Qed.
Lemma mat_eq n a b : mat n a -> mat n b ->
  (forall i j, (i < n)%nat -> (j < n)%nat -> entry a i j = entry b i j) -> a = b.
Proof. intros Ha Hb H. rewrite (mat_tab2 n a), (mat_tab2 n b) by auto. apply tab2_ext. auto. Qed.

Section Real.
  Variable E : Env R.
  Hypothesis EN : e_num E = RNum.
  Local Open Scope R_scope.

  Lemma sums_tab2 n f : symmetric_matrix_sums E (tab2 n n f) = (tab n (fun i => rsum n (f i)), rsum2 n n f).
  Proof. unfold symmetric_matrix_sums. rewrite EN, row_sums_tab2, np_sum_tab. reflexivity. Qed.

  Lemma sub_cols_tab n m v f : sub_cols E (tab m v) (tab2 n m f) = tab2 n m (fun i j => f i j - v j).
  Proof.
    unfold sub_cols, tab2. rewrite tab_map. apply tab_ext. intros. rewrite EN, tab_map2. reflexivity.
  Qed.
  Lemma sub_rows_tab n m v f : sub_rows E (tab n v) (tab2 n m f) = tab2 n m (fun i j => f i j - v i).
  Proof.
    unfold sub_rows, tab2. rewrite tab_map2. apply tab_ext. intros. rewrite EN, tab_map. reflexivity.
  Qed.
  Lemma add_all_tab n m t f : add_all E t (tab2 n m f) = tab2 n m (fun i j => f i j + t).
  Proof. unfold add_all. rewrite EN, tab2_map. reflexivity. Qed.
  Lemma upd_tab {A} n (f : nat -> A) i v : upd (tab n f) i v = tab n (fun j => if j =? i then v else f j).
  Proof.
    destruct (Nat.lt_ge_cases i n).
    - apply (list_tab_eq v); [rewrite upd_length; apply tab_length|]. intros j Hj.
      rewrite upd_nth by (rewrite tab_length; auto). rewrite tab_nth by auto. reflexivity.
    - replace (upd (tab n f) i v) with (tab n f).
      + apply tab_ext. intros j Hj. destruct (Nat.eqb_spec j i); auto; lia.
      + assert (forall (l : list A) i, (length l <= i)%nat -> l = upd l i v) as Hu.
        { induction l; destruct i0; cbn; intros; try lia; auto. rewrite <- IHl; auto; lia. }
        apply Hu. rewrite tab_length. auto.
  Qed.
  Lemma zero_diag_tab n m f : zero_diag E (tab2 n m f) = tab2 n m (fun i j => if j =? i then 0 else f i j).
  Proof.
    unfold zero_diag. rewrite tab2_length, seq_tab. unfold tab2. rewrite tab_map2. apply tab_ext. intros i Hi.
    rewrite upd_tab, EN. reflexivity.
  Qed.

  Lemma dc_pure_tab n f : (1 <= n)%nat ->
    dc_pure E (tab2 n n f) (tab2 n n f)
    = tab2 n n (fun i j => f i j - rsum n (f j) / INR n - rsum n (f i) / INR n + rsum2 n n f / INR n ^ 2).
  Proof.
    intros Hn. unfold dc_pure. rewrite sums_tab2, EN. rewrite tab2_length. cbv zeta. rewrite tab_map.
    rewrite sub_cols_tab, sub_rows_tab, add_all_tab. apply tab2_ext. intros i j Hi Hj. cbn [ndiv nofZ RNum].
    rewrite <- INR_IZR_INZ. replace (IZR (Z.of_nat n ^ 2)) with (INR n ^ 2); [reflexivity|].
    rewrite INR_IZR_INZ, pow_IZR. reflexivity.
  Qed.

  Lemma dc_pure_sym n f : (1 <= n)%nat -> symmetric n f -> dc_pure E (tab2 n n f) (tab2 n n f) = tab2 n n (dcenter n f).
  Proof.
    intros Hn Hs. rewrite dc_pure_tab by auto. apply tab2_ext. intros i j Hi Hj. unfold dcenter, mean.
    rewrite (rsum_ext n (f j) (fun k => f k j)) by (intros; apply Hs; auto).
    rewrite rsum_div. unfold rsum2.
    change (fun k => rsum n (fun l => f k l)) with (fun k => rsum n (f k)). change (fun l => f i l) with (f i).
    pose proof (INR_pos n Hn). field. lra.
  Qed.

  Lemma uc_pure_tab n f : (3 <= n)%nat ->
    uc_pure E (tab2 n n f) (tab2 n n f)
    = tab2 n n (fun i j => if j =? i then 0 else f i j - rsum n (f j) / (INR n - 2) - rsum n (f i) / (INR n - 2)
                                          + rsum2 n n f / ((INR n - 1) * (INR n - 2))).
  Proof.
    intros Hn. unfold uc_pure. rewrite sums_tab2, EN. rewrite tab2_length. cbv zeta. rewrite tab_map.
    rewrite sub_cols_tab, sub_rows_tab, add_all_tab, zero_diag_tab. apply tab2_ext. intros i j Hi Hj. cbn [ndiv nofZ RNum].
    rewrite mult_IZR, !minus_IZR, <- INR_IZR_INZ. reflexivity.
  Qed.

  Lemma uc_pure_sym n f : (3 <= n)%nat -> symmetric n f -> uc_pure E (tab2 n n f) (tab2 n n f) = tab2 n n (ucenter n f).
  Proof.
    intros Hn Hs. rewrite uc_pure_tab by auto. apply tab2_ext. intros i j Hi Hj. unfold ucenter.
    rewrite (Nat.eqb_sym j i). destruct (i =? j); auto.
    rewrite (rsum_ext n (f j) (fun k => f k j)) by (intros; apply Hs; auto).
    change (fun l => f i l) with (f i).
    pose proof (INR_ge3 n Hn). field. lra.
  Qed.

  Lemma R_div_1 v : ndiv (e_num E) v (nunit (e_num E)) = v.
  Proof. rewrite EN. cbn. field. Qed.

  (** ** Products *)

  Lemma mean_product_tab n a b : (1 <= n)%nat ->
    mean_product E (tab2 n n a) (tab2 n n b) = Ok (/ INR n ^ 2 * rsum2 n n (fun i j => a i j * b i j)).
  Proof.
    intros Hn. unfold mean_product, elt_product, elt_op. rewrite same_shape_tab2. cbn [rbind].
    rewrite tab2_map2, EN. unfold np_mean. rewrite np_sum_concat_tab2, concat_length_tab2, nofnat_INR, mult_INR.
    cbn [ndiv nmul RNum]. f_equal. pose proof (INR_pos n Hn). field. lra.
  Qed.

  Lemma u_product_tab n a b : (4 <= n)%nat ->
    u_product E (tab2 n n a) (tab2 n n b) = Ok (uprod n a b).
  Proof.
    intros Hn. unfold u_product, elt_product, elt_op. rewrite same_shape_tab2. cbn [rbind]. rewrite tab2_length.
    rewrite tab2_map2, EN, np_sum_concat_tab2.
    cbn [ndiv nmul nofZ RNum]. unfold uprod. rewrite mult_IZR, minus_IZR, <- INR_IZR_INZ.
    pose proof (INR_ge4 n Hn). f_equal. field. lra.
  Qed.

  (** ** Projection *)

  Definition uproj (n : nat) (c a : nat -> nat -> R) (i j : nat) : R :=
    if Req_EM_T (uprod n c c) 0 then 0 else uprod n a c / uprod n c c * c i j.

  Lemma u_projection_tab n c : (4 <= n)%nat -> exists p, u_projection E (tab2 n n c) = Ok p /\
    forall a, p (tab2 n n a) = Ok (tab2 n n (uproj n c a)).
  Proof.
    intros Hn. unfold u_projection. rewrite u_product_tab by auto. cbn [rbind]. eexists. split; [reflexivity|].
    intros a. cbv beta. unfold uproj.
    destruct (Req_EM_T (uprod n c c) 0) as [H|H].
    - rewrite H, EN. cbn [neqb nzero RNum]. rewrite Reqb_refl. rewrite tab2_map. reflexivity.
    - rewrite EN at 1. cbn [neqb nzero RNum]. destruct (Reqb_spec (uprod n c c) (nzero (e_num E))) as [H'|_].
      + rewrite EN in H'. contradiction.
      + rewrite u_product_tab by auto. cbn [rbind]. rewrite tab2_map, EN. reflexivity.
  Qed.

  Lemma u_compl_tab n c : (4 <= n)%nat -> exists q, u_complementary_projection E (tab2 n n c) = Ok q /\
    forall a, q (tab2 n n a) = Ok (tab2 n n (fun i j => a i j - uproj n c a i j)).
  Proof.
    intros Hn. destruct (u_projection_tab n c Hn) as (p & Hp & Ha). unfold u_complementary_projection.
    rewrite Hp. cbn [rbind]. eexists. split; [reflexivity|]. intros a. cbv beta. rewrite Ha. cbn [rbind].
    unfold elt_op. rewrite same_shape_tab2, tab2_map2, EN. reflexivity.
  Qed.
End Real.

(** ** Centred distance matrices of samples ([centering(a, out=a)] on a fresh matrix) *)

Lemma dmg_double E x n e : valid_env E -> wf x -> shape0 x = n -> (1 <= n)%nat -> (0 < e)%R ->
  outcome (distance_matrix_generic E (double_centered E) x e) = Ok (tab2 n n (dcenter n (distances e x))).
Proof.
  intros [EN _ _] Wx Sx Hn He. unfold distance_matrix_generic. rewrite !outcome_bind, check_exponent_ok. cbn [rbind].
  cbn [outcome lift snd]. rewrite (pairwise_distances_one E EN x e Wx He), Sx. cbn [rbind].
  set (m := tab2 n n (distances e x)).
  erewrite dc_run; [|eapply copy_self; reflexivity|reflexivity|reflexivity|apply (square_mat n), tab2_mat].
  unfold deref. cbn [rbind upd nth_error of_option]. unfold m. rewrite dc_pure_sym; auto. apply dmat_symmetric.
Qed.

Lemma dmg_u E x n e : valid_env E -> wf x -> shape0 x = n -> (3 <= n)%nat -> (0 < e)%R ->
  outcome (u_distance_matrix E x e) = Ok (tab2 n n (ucenter n (distances e x))).
Proof.
  intros [EN _ _] Wx Sx Hn He. unfold u_distance_matrix, distance_matrix_generic.
  rewrite !outcome_bind, check_exponent_ok. cbn [rbind].
  cbn [outcome lift snd]. rewrite (pairwise_distances_one E EN x e Wx He), Sx. cbn [rbind].
  set (m := tab2 n n (distances e x)).
  erewrite uc_run; [|eapply copy_self; reflexivity|reflexivity|reflexivity|apply (square_mat n), tab2_mat].
  unfold deref. cbn [rbind upd nth_error of_option]. unfold m. rewrite uc_pure_sym; auto. apply dmat_symmetric.
Qed.

(** ** The inner product *)
Section Inner.
  Local Open Scope R_scope.
  Lemma uprod_lin n a a' b s : uprod n (fun i j => s * a i j + a' i j) b = s * uprod n a b + uprod n a' b.
  Proof.
    unfold uprod. rewrite (rsum2_ext n n _ (fun i j => s * (a i j * b i j) + a' i j * b i j)) by (intros; ring).
    rewrite rsum2_plus, rsum2_scal_l. ring.
  Qed.

  Lemma uprod_scal n a b s : uprod n (fun i j => s * a i j) b = s * uprod n a b.
  Proof.
    unfold uprod. rewrite (rsum2_ext n n _ (fun i j => s * (a i j * b i j))) by (intros; ring).
    rewrite rsum2_scal_l. ring.
  Qed.

  Lemma uprod_zero n c : (4 <= n)%nat -> uprod n c c = 0 -> forall i j, (i < n)%nat -> (j < n)%nat -> c i j = 0.
  Proof.
    intros Hn H i j Hi Hj. pose proof (INR_ge4 n Hn). unfold uprod in H.
    assert (rsum2 n n (fun i j => c i j * c i j) = 0) as Hz.
    { apply Rmult_integral in H. destruct H as [H|H]; auto. exfalso. revert H. apply Rinv_neq_0_compat. nra. }
    pose proof (rsum2_zero_all n n (fun i j => c i j * c i j) ltac:(intros; nra) Hz i j Hi Hj) as Hq. cbv beta in Hq. nra.
  Qed.

  Lemma uprod_zero_l n a b : (forall i j, (i < n)%nat -> (j < n)%nat -> a i j = 0) -> uprod n a b = 0.
  Proof.
    intros H. unfold uprod. rewrite (rsum2_ext n n _ (fun _ _ => 0)), rsum2_const; [ring|]. intros. rewrite H by auto. ring.
  Qed.

  Lemma uprod_nonneg n b : (4 <= n)%nat -> 0 <= uprod n b b.
  Proof.
    intros Hn. unfold uprod. pose proof (INR_ge4 n Hn). apply Rmult_le_pos.
    - left. apply Rinv_0_lt_compat. nra.
    - apply rsum2_nonneg. intros. nra.
  Qed.

  Lemma uprod_cs n a c : uprod n a c * uprod n a c <= uprod n a a * uprod n c c.
  Proof.
    unfold uprod. pose proof (rsum2_cauchy_schwarz n n a c) as H1.
    assert (0 <= / (INR n * (INR n - 3)) * / (INR n * (INR n - 3))) as Hk by apply Rle_0_sqr.
    apply Rmult_le_compat_l with (1 := Hk) in H1. eapply Rle_trans; [|eapply Rle_trans; [exact H1|]]; right; ring.
  Qed.

  (** Inner product of the residuals of two matrices. *)
  Definition residual (n : nat) (c a : nat -> nat -> R) (i j : nat) : R := a i j - uproj n c a i j.
  Definition pinner (ab ac bc cc : R) : R := if Req_EM_T cc 0 then ab else ab - ac * bc / cc.

  Lemma uprod_residual n a b c : (4 <= n)%nat ->
    uprod n (residual n c a) (residual n c b)
    = pinner (uprod n a b) (uprod n a c) (uprod n b c) (uprod n c c).
  Proof.
    intros Hn. unfold residual, uproj, pinner. destruct (Req_EM_T (uprod n c c) 0) as [H|H].
    - apply uprod_ext; intros; ring.
    - set (s := uprod n a c / uprod n c c). set (t := uprod n b c / uprod n c c).
      unfold uprod at 1. rewrite (rsum2_ext n n _ (fun i j => a i j * b i j - t * (a i j * c i j) - s * (b i j * c i j)
        + s * t * (c i j * c i j))) by (intros; ring).
      rewrite rsum2_plus, !rsum2_minus, !rsum2_scal_l.
      transitivity (uprod n a b - t * uprod n a c - s * uprod n b c + s * t * uprod n c c); [unfold uprod; ring|].
      unfold s, t. field. auto.
  Qed.
End Inner.
