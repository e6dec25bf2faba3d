(** Refinement: the AVL method computes the terms of the distance matrices. *)
From Coq Require Import Reals Lra Lia List Arith Bool ZArith Permutation.
From Verif Require Import Num Numpy MUtils MDistances MInternals MMergesort MAvl Sums Spec Tab
  Samples Centering RefDist RefDyad.
Import ListNotations.
Local Open Scope R_scope.

(** ** Sums over initial segments and ranks *)

Lemma rsum_lt m n f : (m <= n)%nat ->
  rsum n (fun k => zsel (k <? m)%nat (f k)) = rsum m f.
Proof.
  intros H. replace n with (m + (n - m))%nat by lia. rewrite rsum_app.
  rewrite (rsum_ext m _ f), (rsum_zero (n - m)); [ring| |].
  - intros i Hi. assert ((m + i <? m)%nat = false) as -> by (apply Nat.ltb_ge; lia). reflexivity.
  - intros i Hi. assert ((i <? m)%nat = true) as -> by (apply Nat.ltb_lt; lia). reflexivity.
Qed.

(** [p] orders positions by rank, [r] is its inverse. *)
Lemma rsum_rank n (p r : nat -> nat) (x : nat -> R) i :
  perm_on n p -> (forall j, (j < n)%nat -> r (p j) = j) -> (i < n)%nat ->
  rsum (r i) (fun j => x (p j)) = rsum n (fun k => zsel (r k <? r i)%nat (x k)).
Proof.
  intros Hp Hr Hi. pose proof (inv_right n p r Hp Hr) as Hinv.
  rewrite <- (rsum_lt (r i) n) by (apply Nat.lt_le_incl, Hinv; auto).
  rewrite <- (rsum_perm n r) by (eapply inv_perm_on; eauto).
  apply rsum_ext. intros k Hk. cbv beta. rewrite (proj2 (Hinv k Hk)). reflexivity.
Qed.

Lemma rank_count n r i : perm_on n r -> (i < n)%nat ->
  rsum n (fun k => zsel (r k <? r i)%nat 1) = INR (r i).
Proof.
  intros Hr Hi. rewrite (rsum_perm n r (fun k => zsel (k <? r i)%nat 1)) by auto.
  rewrite rsum_lt by (apply Nat.lt_le_incl, Hr; auto). rewrite rsum_const. ring.
Qed.

(** The row sums of the distance matrix of a univariate sample. *)
Lemma row_sum_rank n r (x : nat -> R) i : perm_on n r -> (i < n)%nat ->
  (forall j k, (j < n)%nat -> (k < n)%nat -> (r k < r j)%nat -> x k <= x j) ->
  rsum n (fun k => Rabs (x i - x k))
  = rsum n x + (2 * INR (r i) - INR n) * x i
    - 2 * rsum n (fun k => zsel (r k <? r i)%nat (x k)).
Proof.
  intros Hr Hi Hm. rewrite <- (rank_count n r i Hr Hi).
  rewrite (rsum_ext n (fun k => Rabs (x i - x k))
    (fun k => x k + (2 * (zsel (r k <? r i)%nat 1 * x i) - x i)
              - 2 * zsel (r k <? r i)%nat (x k))).
  - rewrite rsum_minus, rsum_plus, rsum_minus, !rsum_scal_l, rsum_scal_r, rsum_const.
    eta. ring.
  - intros k Hk. destruct (Nat.ltb_spec (r k) (r i)) as [Hlt|Hge]; unfold zsel.
    + pose proof (Hm i k Hi Hk Hlt). rewrite Rabs_pos_eq by lra. ring.
    + destruct (Nat.eq_dec (r k) (r i)) as [He|Hne].
      * assert (k = i) by (eapply perm_on_inj; eauto). subst. rewrite Rminus_eq_0, Rabs_R0. ring.
      * pose proof (Hm k i Hk Hi ltac:(lia)). rewrite Rabs_minus_sym, Rabs_pos_eq by lra. ring.
Qed.

(** ** Sorting *)

Lemma argsort_facts E l n : valid_env E -> length l = n ->
  let p := e_argsort E l in
  let q := scatter (repeat 0%nat n) p (seq 0 n) in
  length p = n /\ length q = n /\ is_perm n p /\
  perm_on n (fun i => nth i p 0%nat) /\
  (forall i, (i < n)%nat -> nth (nth i p 0%nat) q 0%nat = i) /\
  perm_on n (fun i => nth i q 0%nat) /\
  (forall i j, (i < n)%nat -> (j < n)%nat -> (nth i q 0 < nth j q 0)%nat ->
     nth i l 0 <= nth j l 0).
Proof.
  intros HE Hn p q. destruct (ve_argsort E HE l) as [Hp Hs]. fold p in Hp, Hs.
  rewrite Hn in Hp, Hs.
  pose proof (is_perm_on n p Hp) as Hpo.
  assert (forall i, (i < n)%nat -> nth (nth i p 0%nat) q 0%nat = i) as Hq.
  { intros i Hi. unfold q. apply scatter_inv; auto. apply repeat_length. }
  assert (perm_on n (fun i => nth i q 0%nat)) as Hqo
    by (apply (inv_perm_on n (fun i => nth i p 0%nat) (fun i => nth i q 0%nat)); auto).
  split; [apply is_perm_length; auto|].
  split; [unfold q; rewrite scatter_length, repeat_length; auto|].
  do 4 (split; auto).
  intros i j Hi Hj Hlt.
  destruct (inv_right n (fun i => nth i p 0%nat) (fun i => nth i q 0%nat) Hpo Hq i Hi) as [Hi1 Hi2].
  destruct (inv_right n (fun i => nth i p 0%nat) (fun i => nth i q 0%nat) Hpo Hq j Hj) as [Hj1 Hj2].
  rewrite <- Hi2, <- Hj2. apply Hs; auto.
Qed.

Lemma sorts_forward l p n i j : sorts l p -> length l = n -> (i <= j)%nat -> (j < n)%nat ->
  nth (nth i p 0%nat) l 0 <= nth (nth j p 0%nat) l 0.
Proof.
  intros [_ Hs] <- Hij Hj. destruct (Nat.eq_dec i j) as [->|]; [lra|]. apply Hs; lia.
Qed.

(** ** Variance term *)

Lemma var_term n (x : nat -> R) : (1 <= n)%nat ->
  IZR (2 * Z.of_nat n ^ 2) * np_var RNum (tab n x)
  = rsum2 n n (fun i j => Rabs (x i - x j) * Rabs (x i - x j)).
Proof.
  intros Hn. pose proof (INR_pos n Hn).
  unfold np_var. rewrite np_mean_tab, tab_map, np_mean_tab. cbn [nsub nmul RNum].
  set (m := rsum n x / INR n).
  rewrite (rsum2_ext n n _ (fun i j => x i * x i - 2 * (x i * x j) + x j * x j)).
  2:{ intros. rewrite <- Rabs_mult, Rabs_pos_eq by (apply Rle_0_sqr). ring. }
  rewrite rsum2_plus, rsum2_minus, rsum2_scal_l.
  rewrite (rsum2_swap n n (fun i j => x j * x j)).
  assert (rsum2 n n (fun i _ => x i * x i) = INR n * rsum n (fun i => x i * x i)) as ->.
  { unfold rsum2. rewrite <- rsum_scal_l. apply rsum_ext; intros. rewrite rsum_const. ring. }
  assert (rsum2 n n (fun i j => x i * x j) = rsum n x * rsum n x) as ->.
  { unfold rsum2. rewrite rsum_mult. reflexivity. }
  rewrite (rsum_ext n (fun i => (x i - m) * (x i - m))
             (fun i => x i * x i - 2 * m * x i + m * m)) by (intros; ring).
  rewrite rsum_plus, rsum_minus, rsum_scal_l, rsum_const.
  rewrite mult_IZR. change (Z.of_nat n ^ 2)%Z with (Z.of_nat n ^ Z.of_nat 2)%Z.
  rewrite <- pow_IZR, <- INR_IZR_INZ. unfold m. eta. field. lra.
Qed.

(** ** Double sums with signs *)

Definition sgn2 (t : nat -> nat) (p q : nat) : R :=
  if (p =? q)%nat then 0
  else (if (q <? p)%nat then -1 else 1) * (if (t q <? t p)%nat then -1 else 1).

Section Avl.
  Variable E : Env R.
  Hypothesis HE : valid_env E.
  Variables (n : nat) (X Y : nat -> R).
  Hypothesis Hn : (4 <= n)%nat.

  Let HN : e_num E = RNum := ve_num E HE.
  Let px := e_argsort E (tab n X).
  Let ix := scatter (repeat 0%nat n) px (seq 0 n).
  Let Yr := fun i => Y (nth i px 0%nat).
  Let Xr := fun i => X (nth i px 0%nat).
  Let pr := e_argsort E (tab n Yr).
  Let ir := scatter (repeat 0%nat n) pr (seq 0 n).
  Let t := fun i => nth i ir 0%nat.
  Let r := fun i => nth i ix 0%nat.

  Lemma avl_beta_ok (Z : nat -> R) :
    let p := e_argsort E (tab n Z) in
    let q := scatter (repeat 0%nat n) p (seq 0 n) in
    avl_beta E (take 0 (tab n Z) p) q
    = tab n (fun i => rsum n (fun k => zsel (nth k q 0 <? nth i q 0)%nat (Z k))).
  Proof.
    intros p q.
    destruct (argsort_facts E (tab n Z) n HE (tab_length n Z)) as (H1 & H2 & H3 & H4 & H5 & H6 & H7).
    fold p in H1, H2, H3, H4, H5, H6, H7. fold q in H2, H5, H6, H7.
    unfold avl_beta. rewrite HN. rewrite (take_tab 0 n (tab n Z) p) by auto.
    rewrite (tab_ext n (fun i => nth (nth i p 0%nat) (tab n Z) 0) (fun i => Z (nth i p 0%nat)))
      by (intros; apply tab_nth, H4; auto).
    rewrite np_cumsum_tab, !(take_tab _ n) by auto. rewrite tab_map2.
    apply tab_ext. intros i Hi. assert (nth i q 0%nat < n)%nat as Hlt by (apply H6; auto).
    change (nzero RNum) with 0. rewrite !tab_nth by auto. cbn [rsum nsub RNum].
    rewrite <- (rsum_rank n (fun i => nth i p 0%nat) (fun i => nth i q 0%nat) Z i) by auto. ring.
  Qed.

  Lemma avl_row_sums_ok (Z : nat -> R) :
    let p := e_argsort E (tab n Z) in
    let q := scatter (repeat 0%nat n) p (seq 0 n) in
    avl_row_sums E (tab n Z) q
      (tab n (fun i => rsum n (fun k => zsel (nth k q 0 <? nth i q 0)%nat (Z k))))
    = tab n (fun i => rsum n (fun j => Rabs (Z i - Z j))).
  Proof.
    intros p q.
    destruct (argsort_facts E (tab n Z) n HE (tab_length n Z)) as (H1 & H2 & H3 & H4 & H5 & H6 & H7).
    fold p in H1, H2, H3, H4, H5, H6, H7. fold q in H2, H5, H6, H7.
    unfold avl_row_sums. rewrite HN, np_sum_tab, tab_length.
    rewrite (tab_of_list_n 0%nat n q H2) at 1. rewrite !tab_map2.
    apply tab_ext. intros i Hi. cbn [nadd nsub nmul nofZ RNum].
    rewrite (row_sum_rank n (fun i => nth i q 0%nat) Z i); auto.
    - rewrite minus_IZR, mult_IZR, <- !INR_IZR_INZ. reflexivity.
    - intros j k Hj Hk Hlt. pose proof (H7 k j Hk Hj Hlt) as Hle.
      rewrite !tab_nth in Hle by auto. exact Hle.
  Qed.

  Lemma avl_total_ok (Z : nat -> R) :
    let p := e_argsort E (tab n Z) in
    let q := scatter (repeat 0%nat n) p (seq 0 n) in
    avl_total E (tab n Z) q
      (tab n (fun i => rsum n (fun k => zsel (nth k q 0 <? nth i q 0)%nat (Z k))))
    = rsum2 n n (fun i j => Rabs (Z i - Z j)).
  Proof.
    intros p q.
    destruct (argsort_facts E (tab n Z) n HE (tab_length n Z)) as (H1 & H2 & H3 & H4 & H5 & H6 & H7).
    fold p in H1, H2, H3, H4, H5, H6, H7. fold q in H2, H5, H6, H7.
    unfold avl_total. rewrite HN.
    rewrite (tab_of_list_n 0%nat n q H2) at 1. rewrite tab_map2, !np_sum_tab.
    cbn [nadd nsub nmul nofZ RNum]. unfold rsum2.
    rewrite (rsum_ext n (fun i => rsum n (fun j => Rabs (Z i - Z j)))
      (fun i => rsum n Z + (2 * (INR (nth i q 0%nat) * Z i) - INR n * Z i)
        - 2 * rsum n (fun k => zsel (nth k q 0 <? nth i q 0)%nat (Z k)))).
    - rewrite rsum_minus, rsum_plus, rsum_minus, !rsum_scal_l, rsum_const.
      rewrite (rsum_ext n (fun i => IZR (Z.of_nat (nth i q 0%nat)) * Z i)
                 (fun i => INR (nth i q 0%nat) * Z i))
        by (intros; rewrite <- INR_IZR_INZ; reflexivity).
      eta. ring.
    - intros i Hi. rewrite (row_sum_rank n (fun i => nth i q 0%nat) Z i); auto.
      + ring.
      + intros j k Hj Hk Hlt. pose proof (H7 k j Hk Hj Hlt) as Hle.
        rewrite !tab_nth in Hle by auto. exact Hle.
  Qed.

  (** Facts about the two permutations. *)
  Lemma facts_x :
    length px = n /\ length ix = n /\ is_perm n px /\ perm_on n (fun i => nth i px 0%nat) /\
    (forall i, (i < n)%nat -> r (nth i px 0%nat) = i) /\ perm_on n r /\
    (forall i j, (i < j)%nat -> (j < n)%nat -> Xr i <= Xr j).
  Proof.
    destruct (argsort_facts E (tab n X) n HE (tab_length n X)) as (H1 & H2 & H3 & H4 & H5 & H6 & H7).
    do 6 (split; auto). intros i j Hij Hj.
    pose proof (proj2 (ve_argsort E HE (tab n X)) i j Hij) as Hs.
    rewrite tab_length in Hs. specialize (Hs Hj).
    rewrite !tab_nth in Hs by (apply H4; lia). exact Hs.
  Qed.

  Lemma facts_r :
    length pr = n /\ length ir = n /\ is_perm n pr /\ perm_on n (fun i => nth i pr 0%nat) /\
    (forall i, (i < n)%nat -> t (nth i pr 0%nat) = i) /\ perm_on n t /\
    (forall i j, (i < n)%nat -> (j < n)%nat -> (t i < t j)%nat -> Yr i <= Yr j).
  Proof.
    destruct (argsort_facts E (tab n Yr) n HE (tab_length n Yr)) as (H1 & H2 & H3 & H4 & H5 & H6 & H7).
    do 6 (split; auto). intros i j Hi Hj Hij.
    pose proof (H7 i j Hi Hj Hij) as Hs. rewrite !tab_nth in Hs by auto. exact Hs.
  Qed.

  Let L := Nat.log2_up n.
  Lemma n_le_pow : (n <= 2 ^ L)%nat.
  Proof. apply (Nat.log2_up_spec n). lia. Qed.

  (** One call of the partial sum, for the weight [c] given in x-order. *)
  Lemma partial_sum_ok oob compiled c s : length s = (2 ^ (L + 1))%nat ->
    exists s', partial_sum_2d RNum oob compiled (map (fun i => (Z.of_nat i + 1)%Z) ir) (tab n c) ix ir
        (map2 Rminus (np_cumsum RNum (tab n c)) (tab n c))
        (map2 Rminus (np_cumsum RNum (take 0 (tab n c) pr)) (take 0 (tab n c) pr))
        (np_sum RNum (tab n c)) L s (mk_pos_sums L) (tab n (fun _ => 0))
      = Ok (tab n (fun i => rsum n (fun q => sgn2 t (r i) q * c q)), s')
      /\ length s' = (2 ^ (L + 1))%nat.
  Proof.
    intros Hs.
    destruct facts_x as (X1 & X2 & X3 & X4 & X5 & X6 & X7).
    destruct facts_r as (R1 & R2 & R3 & R4 & R5 & R6 & R7).
    set (z := fun i => Z.of_nat (t i)).
    assert (forall i, (i < n)%nat -> (0 <= z i < 2 ^ Z.of_nat L)%Z) as Hz.
    { intros i Hi. unfold z. split; [lia|]. pose proof n_le_pow as HL.
      assert (t i < n)%nat by (apply R6; auto).
      apply Z.lt_le_trans with (Z.of_nat (2 ^ L)); [lia|]. rewrite Nat2Z.inj_pow. simpl; lia. }
    assert (map (fun i => (Z.of_nat i + 1)%Z) ir = tab n (fun i => (z i + 1)%Z)) as ->.
    { rewrite (tab_of_list_n 0%nat n ir R2). rewrite tab_map.
      apply tab_ext; intros i Hi. unfold z, t. reflexivity. }
    assert (exists s', (if compiled then
              dyad_update_compiled RNum oob (tab n (fun i => (z i + 1)%Z)) (tab n c)
                (tab n (fun _ => 0)) L s (mk_pos_sums L)
            else dyad_update RNum oob (tab n (fun i => (z i + 1)%Z)) (tab n c) L s (mk_pos_sums L))
            = Ok (tab n (dyad_out z c), s') /\ length s' = (2 ^ (L + 1))%nat) as (s' & Hd & Hl).
    { destruct compiled.
      - apply dyad_update_compiled_ok; auto. lia.
      - apply dyad_update_ok; auto. }
    exists s'. split; [|exact Hl].
    unfold partial_sum_2d. rewrite Hd. cbn [rbind].
    rewrite (take_tab 0 n (tab n c) pr) by auto.
    rewrite (tab_ext n (fun i => nth (nth i pr 0%nat) (tab n c) 0) (fun i => c (nth i pr 0%nat)))
      by (intros; apply tab_nth, R4; auto).
    rewrite !np_cumsum_tab, !tab_map2, np_sum_tab, tab_map.
    rewrite (take_tab _ n _ ir) by auto. rewrite !tab_map2.
    rewrite (take_tab _ n _ ix) by auto. do 2 f_equal.
    apply tab_ext. intros i Hi.
    assert (r i < n)%nat as Hri by (apply X6; auto).
    change (nth i ix 0%nat) with (r i). set (p := r i) in *.
    rewrite tab_nth by auto. change (nth p ir 0%nat) with (t p).
    assert (t p < n)%nat as Htp by (apply R6; auto).
    change (nzero RNum) with 0. rewrite tab_nth by auto.
    cbn [nadd nsub nmul nofZ RNum].
    cbn [rsum].
    replace (rsum (t p) (fun i0 => c (nth i0 pr 0%nat)) + c (nth (t p) pr 0%nat) - c (nth (t p) pr 0%nat))
      with (rsum (t p) (fun i0 => c (nth i0 pr 0%nat))) by ring.
    rewrite (rsum_rank n (fun i => nth i pr 0%nat) t c p) by auto.
    replace (rsum p c + c p - c p) with (rsum p c) by ring.
    rewrite <- (rsum_lt p n c) by lia.
    unfold dyad_out. rewrite <- (rsum_lt p n (fun j => zsel (z j <? z p)%Z (c j))) by lia.
    rewrite <- (rsum_delta n p c) at 1 by auto.
    rewrite <- !rsum_scal_l, <- !rsum_minus, <- rsum_plus.
    apply rsum_ext. intros q Hq. unfold sgn2, zsel, z.
    destruct (Nat.eqb_spec q p) as [->|Hne].
    - rewrite !Nat.ltb_irrefl, Nat.eqb_refl. ring.
    - assert ((p =? q)%nat = false) as -> by (apply Nat.eqb_neq; lia).
      assert ((Z.of_nat (t q) <? Z.of_nat (t p))%Z = (t q <? t p)%nat) as ->.
      { destruct (Nat.ltb_spec (t q) (t p)); [apply Z.ltb_lt|apply Z.ltb_ge]; lia. }
      destruct (q <? p)%nat, (t q <? t p)%nat; ring.
  Qed.

  Lemma sgn2_abs p q : (p < n)%nat -> (q < n)%nat ->
    sgn2 t p q * ((Xr p - Xr q) * (Yr p - Yr q)) = Rabs (Xr p - Xr q) * Rabs (Yr p - Yr q).
  Proof.
    intros Hp Hq.
    destruct facts_x as (X1 & X2 & X3 & X4 & X5 & X6 & X7).
    destruct facts_r as (R1 & R2 & R3 & R4 & R5 & R6 & R7).
    unfold sgn2. destruct (Nat.eqb_spec p q) as [->|Hne].
    - rewrite !Rminus_eq_0, Rabs_R0. ring.
    - assert (t p <> t q) by (intros He; apply Hne; eapply perm_on_inj; eauto).
      assert ((if (q <? p)%nat then -1 else 1) * (Xr p - Xr q) = - Rabs (Xr p - Xr q)) as HX.
      { destruct (Nat.ltb_spec q p).
        - pose proof (X7 q p ltac:(lia) Hp). rewrite Rabs_pos_eq; lra.
        - pose proof (X7 p q ltac:(lia) Hq). rewrite Rabs_left1; lra. }
      assert ((if (t q <? t p)%nat then -1 else 1) * (Yr p - Yr q) = - Rabs (Yr p - Yr q)) as HY.
      { destruct (Nat.ltb_spec (t q) (t p)).
        - pose proof (R7 q p Hq Hp ltac:(lia)). rewrite Rabs_pos_eq; lra.
        - pose proof (R7 p q Hp Hq ltac:(lia)). rewrite Rabs_left1; lra. }
      match goal with |- ?a * ?b * (?u * ?v) = _ =>
        replace (a * b * (u * v)) with ((a * u) * (b * v)) by ring end.
      rewrite HX, HY. ring.
  Qed.

  Lemma terms_avl_impl_ok compiled oob k kv rv :
    exists tm, terms_avl_impl E compiled oob k kv (tab n X) (tab n Y) rv = Ok tm /\
      t_kind tm = k /\ t_vkind tm = kv /\
      terms_ok n (fun i j => Rabs (X i - X j)) (fun i j => Rabs (Y i - Y j)) rv tm.
  Proof.
    destruct facts_x as (X1 & X2 & X3 & X4 & X5 & X6 & X7).
    destruct facts_r as (R1 & R2 & R3 & R4 & R5 & R6 & R7).
    unfold terms_avl_impl, get_impl_args. rewrite HN. rewrite !tab_length.
    assert ((3 <? n)%nat = true) as -> by (apply Nat.ltb_lt; lia).
    rewrite Nat.eqb_refl. cbn [negb rbind].
    change (nzero RNum) with 0.
    assert (take 0 (tab n Y) (e_argsort E (tab n X)) = tab n Yr) as ->.
    { rewrite (take_tab 0 n) by apply X1. apply tab_ext; intros i Hi.
      rewrite tab_nth by (apply X4; auto). reflexivity. }
    assert (take 0 (tab n X) (e_argsort E (tab n X)) = tab n Xr) as HXr.
    { rewrite (take_tab 0 n) by apply X1. apply tab_ext; intros i Hi.
      rewrite tab_nth by (apply X4; auto). reflexivity. }
    assert (take 0 (map2 (nmul RNum) (tab n X) (tab n Y)) (e_argsort E (tab n X))
            = tab n (fun i => Xr i * Yr i)) as ->.
    { rewrite tab_map2, (take_tab 0 n) by apply X1. apply tab_ext; intros i Hi.
      rewrite tab_nth by (apply X4; auto). reflexivity. }
    assert (map (fun _ : R => nunit RNum) (tab n X) = tab n (fun _ => 1)) as ->
      by (rewrite tab_map; reflexivity).
    fold px ix pr ir.
    cbn [g_x g_y g_ix g_iy g_vx g_vy g_iy_reord g_c g_sx_c g_sy_c g_c_sum g_l_max g_s g_pos_sums
         g_gamma].
    fold L.
    (* row sums and totals *)
    unfold ix, px. rewrite avl_beta_ok, avl_row_sums_ok, avl_total_ok.
    rewrite avl_beta_ok, avl_row_sums_ok, avl_total_ok. fold px ix.
    fold px in HXr. rewrite !HXr.
    (* the four partial sums *)
    assert (length (e_empty E (2 ^ (L + 1))) = (2 ^ (L + 1))%nat) as Hs0 by apply (ve_empty E HE).
    set (s0 := e_empty E (2 ^ (L + 1))) in *. clearbody s0.
    cbn [map partial_sums nth g_c g_ix g_iy_reord g_sx_c g_sy_c g_c_sum g_l_max g_pos_sums g_gamma].
    rewrite HN. change (nsub RNum) with Rminus.
    rewrite !tab_map. change (nzero RNum) with 0.
    destruct (partial_sum_ok oob compiled (fun _ => 1) s0 Hs0) as (s1 & Hp1 & Hs1).
    rewrite Hp1. cbn [rbind].
    destruct (partial_sum_ok oob compiled Xr s1 Hs1) as (s2 & Hp2 & Hs2).
    rewrite Hp2. cbn [rbind].
    destruct (partial_sum_ok oob compiled Yr s2 Hs2) as (s3 & Hp3 & Hs3).
    rewrite Hp3. cbn [rbind].
    destruct (partial_sum_ok oob compiled (fun i => Xr i * Yr i) s3 Hs3) as (s4 & Hp4 & Hs4).
    rewrite Hp4. cbn [rbind nth].
    eexists. split; [reflexivity|]. cbn [t_kind t_vkind].
    split; [reflexivity|]. split; [reflexivity|].
    unfold terms_ok. cbn [t_mean_prod t_a_axis t_a_total t_b_axis t_b_total t_mp_a t_mp_b].
    split; [|repeat split; auto].
    2-3: subst rv; cbn [nmul nofZ RNum]; f_equal; apply var_term; lia.
    rewrite !tab_map2, np_sum_tab. cbn [nadd nsub nmul RNum].
    set (f := fun p => rsum n (fun q => sgn2 t p q * ((Xr p - Xr q) * (Yr p - Yr q)))).
    rewrite (rsum_ext n _ (fun i => f (r i))).
    - rewrite (rsum_perm n r f) by auto. unfold f.
      rewrite (rsum_ext n _ (fun p => rsum n (fun q => Rabs (Xr p - Xr q) * Rabs (Yr p - Yr q)))).
      + exact (rsum2_perm n (fun i => nth i px 0%nat)
                 (fun i j => Rabs (X i - X j) * Rabs (Y i - Y j)) X4).
      + intros p Hp. apply rsum_ext; intros q Hq. apply sgn2_abs; auto.
    - intros i Hi. unfold f.
      destruct (inv_right n (fun i => nth i px 0%nat) r X4 X5 i Hi) as [Hri Hpi].
      assert (Xr (r i) = X i) as HXi by (unfold Xr; rewrite Hpi; reflexivity).
      assert (Yr (r i) = Y i) as HYi by (unfold Yr; rewrite Hpi; reflexivity).
      rewrite HXi, HYi.
      rewrite <- !rsum_scal_l, <- rsum_plus, <- !rsum_minus.
      apply rsum_ext; intros q Hq. ring.
  Qed.
End Avl.
