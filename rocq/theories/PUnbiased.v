(** C45, C46: the bias-corrected statistics are unbiased. *)
From Coq Require Import Reals Lra Lia List Arith Bool.
From Verif Require Import Num Numpy MUtils MDcor MEnergy Sums Spec Tab Samples Api Witness Centering SpecFacts RefDist RefApi RefEnergy PDcov PEnergy Expect.
Import ListNotations.
Local Open Scope R_scope.

(** ** Specification *)

(** The array of [n] observations with [p] coordinates where observation [i] is the atom [s i];
    [X k] is the position of atom [k]. *)
Definition drawn (ns : nspace) (dt : dtype) (n p : nat) (X : nat -> nat -> R) (s : nat -> nat) : array R :=
  mkArr ns dt (Mat p (tab n (fun i => tab p (fun c => X (s i) c)))).

(** Population squared distance covariance of a pair (X, Y) with distribution [w] on the atoms:
    E|X-X'||Y-Y'| + E|X-X'| E|Y-Y'| - 2 E|X-X'||Y-Y''|. *)
Definition population_dcov2 (K : nat) (w : nat -> R) (a b : nat -> nat -> R) : R :=
  rsum2 K K (fun k l => w k * w l * (a k l * b k l))
  + rsum2 K K (fun k l => w k * w l * a k l) * rsum2 K K (fun k l => w k * w l * b k l)
  - 2 * rsum K (fun k => rsum2 K K (fun l m => w k * w l * w m * (a k l * b k m))).

(** Population energy distance of two distributions [w] and [v] on two sets of atoms:
    2 E|X-Y| - E|X-X'| - E|Y-Y'|. *)
Definition population_energy (e : R) (p K L : nat) (w v : nat -> R) (X Y : nat -> nat -> R) : R :=
  2 * rsum2 K L (fun k l => w k * v l * rpow (dist p (X k) (Y l)) e)
  - rsum2 K K (fun k l => w k * w l * rpow (dist p (X k) (X l)) e)
  - rsum2 L L (fun k l => v k * v l * rpow (dist p (Y k) (Y l)) e).

(** ** Lemmas *)

Lemma drawn_obs ns dt n p X s i k : (i < n)%nat -> (k < p)%nat -> obs (drawn ns dt n p X s) i k = X (s i) k.
Proof. intros. unfold obs, drawn; cbn [adata]. rewrite tab_nth, tab_nth by auto. reflexivity. Qed.
Lemma drawn_wf ns dt n p X s : wf (drawn ns dt n p X s).
Proof. unfold wf, drawn; cbn [adata]. unfold tab at 1. apply Forall_map, Forall_forall. intros. apply tab_length. Qed.
Lemma drawn_shape ns dt n p X s : shape0 (drawn ns dt n p X s) = n.
Proof. unfold shape0, drawn; cbn [adata]. apply tab_length. Qed.
Lemma drawn_paired n p q ns dt ns' dt' X Y s : (1 <= n)%nat ->
  paired n (drawn ns dt n p X s) (drawn ns' dt' n q Y s).
Proof. intros. repeat split; auto using drawn_wf, drawn_shape. Qed.

Lemma drawn_distances ns dt n p X s e i j : (i < n)%nat -> (j < n)%nat ->
  distances e (drawn ns dt n p X s) i j = dmat e p X (s i) (s j).
Proof.
  intros Hi Hj. unfold distances, dmat. change (ncols (drawn ns dt n p X s)) with p. f_equal.
  unfold dist. f_equal. apply rsum_ext. intros k Hk. rewrite !drawn_obs by auto. reflexivity.
Qed.

Lemma dmat_sym_all e p X k l : dmat e p X k l = dmat e p X l k.
Proof. apply (dmat_symmetric _ _ _ (S (max k l))); lia. Qed.
Lemma dmat_hollow_all e p X k : dmat e p X k k = 0.
Proof. apply (dmat_hollow _ _ _ (S k)); lia. Qed.

Lemma branch_eq K w a b : branch K w a b = rsum K (fun k => rsum2 K K (fun l m => w k * w l * w m * (a k l * b k m))).
Proof.
  unfold branch. apply rsum_ext. intros k Hk. unfold rsum2. rewrite <- rsum_scal_r, <- rsum_scal_l.
  apply rsum_ext. intros l Hl. rewrite <- !rsum_scal_l. apply rsum_ext. intros. ring.
Qed.

Lemma rsum_blocks L K f : rsum (L * K) f = rsum L (fun l => rsum K (fun k => f (l * K + k)%nat)).
Proof.
  induction L as [|L IH]; simpl; auto. rewrite Nat.add_comm, rsum_app, IH. reflexivity.
Qed.
Lemma div_block K l k : (k < K)%nat -> ((l * K + k) / K = l)%nat.
Proof. intros. rewrite Nat.div_add_l, Nat.div_small by lia. lia. Qed.
Lemma mod_block K l k : (k < K)%nat -> ((l * K + k) mod K = k)%nat.
Proof. intros. rewrite Nat.add_comm, Nat.mod_add, Nat.mod_small by lia. reflexivity. Qed.

(** ** C45 *)

Theorem C45_unbiased E K w X Y p q ns dt ns' dt' n e m cm : valid_env E -> distribution K w ->
  (4 <= n)%nat -> 0 < e ->
  (forall s, accepts m cm (drawn ns dt n p X s) (drawn ns' dt' n q Y s) e) ->
  exists v, (forall s, call UDcovSqr E (drawn ns dt n p X s) (drawn ns' dt' n q Y s) e m cm = Ok (v s))
  /\ expect K w n v = population_dcov2 K w (dmat e p X) (dmat e q Y).
Proof.
  intros HE (_ & Hw) Hn He Ha.
  exists (fun s => udcov2 n (fun i j => dmat e p X (s i) (s j)) (fun i j => dmat e q Y (s i) (s j))). split.
  { intros s. rewrite (call_ok _ _ _ _ n); auto using drawn_paired with arith.
    - cbn [value]. f_equal. apply udcov2_ext; intros; apply drawn_distances; auto.
    - apply drawn_paired. lia. }
  set (a := dmat e p X). set (b := dmat e q Y).
  assert (Sa : forall k l, a k l = a l k) by (intros; apply dmat_sym_all).
  assert (Sb : forall k l, b k l = b l k) by (intros; apply dmat_sym_all).
  assert (Za : forall k, a k k = 0) by (intros; apply dmat_hollow_all).
  assert (Zb : forall k, b k k = 0) by (intros; apply dmat_hollow_all).
  pose proof (INR_ge4 n Hn) as HN.
  rewrite (expect_ext K w n _ (fun s =>
    / (INR n * (INR n - 3)) * rsum2 n n (fun i j => a (s i) (s j) * b (s i) (s j))
    + (- 2 / (INR n * (INR n - 2) * (INR n - 3)) * rsum n (fun i => rsum n (fun j => a (s i) (s j)) * rsum n (fun k => b (s i) (s k)))
    + / (INR n * (INR n - 1) * (INR n - 2) * (INR n - 3)) *
        (rsum2 n n (fun i j => a (s i) (s j)) * rsum2 n n (fun k l => b (s k) (s l)))))).
  - rewrite !expect_plus, !expect_scal.
    rewrite expect_sum_products, expect_row_products, expect_totals by auto.
    unfold population_dcov2. rewrite <- branch_eq. fold (joint K w a b). fold (product K w a b). field. lra.
  - intros s. rewrite udcov2_from_terms; auto; try (intros i j _ _; auto); try (intros i _; auto).
    unfold udcov2_terms.
    rewrite (rsum_ext n (fun i => rsum n (fun j => a (s i) (s j)) / INR n * rsum n (fun j => b (s i) (s j)))
      (fun i => / INR n * (rsum n (fun j => a (s i) (s j)) * rsum n (fun k => b (s i) (s k))))) by (intros; field; lra).
    rewrite rsum_scal_l. field. lra.
Qed.

(** Under independence the expected value is zero. *)
Theorem C45_unbiased_null E K L u v X Y p q ns dt ns' dt' n e m cm :
  let w k := u (k mod K)%nat * v (k / K)%nat in
  let X' k := X (k mod K)%nat in let Y' k := Y (k / K)%nat in
  valid_env E -> distribution K u -> distribution L v -> (4 <= n)%nat -> 0 < e ->
  (forall s, accepts m cm (drawn ns dt n p X' s) (drawn ns' dt' n q Y' s) e) ->
  exists f, (forall s, call UDcovSqr E (drawn ns dt n p X' s) (drawn ns' dt' n q Y' s) e m cm = Ok (f s))
  /\ expect (L * K) w n f = 0.
Proof.
  intros w X' Y' HE Hu Hv Hn He Ha.
  pose proof Hu as (Pu & Su). pose proof Hv as (Pv & Sv).
  assert (HKw : (0 < K)%nat) by (destruct K; [cbn in Su; lra|lia]).
  assert (Hww : forall l k, (k < K)%nat -> w (l * K + k)%nat = u k * v l).
  { intros l k Hk. unfold w. rewrite div_block, mod_block by auto. reflexivity. }
  assert (Hd : distribution (L * K) w).
  { split.
    - intros k Hk. apply Rmult_le_pos; [apply Pu|apply Pv].
      + apply Nat.mod_upper_bound. lia.
      + apply Nat.div_lt_upper_bound; lia.
    - rewrite rsum_blocks. rewrite (rsum_ext L _ v); auto. intros l Hl.
      rewrite (rsum_ext K _ (fun k => u k * v l)) by (intros; apply Hww; auto). rewrite rsum_scal_r, Su. ring. }
  destruct (C45_unbiased E (L * K) w X' Y' p q ns dt ns' dt' n e m cm HE Hd Hn He Ha) as (f & Hf & Hx).
  exists f. split; auto. rewrite Hx. unfold population_dcov2.
  set (a := dmat e p X). set (b := dmat e q Y).
  set (ma := rsum2 K K (fun k l => u k * u l * a k l)). set (mb := rsum2 L L (fun k l => v k * v l * b k l)).
  assert (Ha' : forall l k l' k', (k < K)%nat -> (k' < K)%nat -> dmat e p X' (l * K + k)%nat (l' * K + k')%nat = a k k').
  { intros. unfold dmat, X'. rewrite !mod_block by auto. reflexivity. }
  assert (Hb' : forall l k l' k', (k < K)%nat -> (k' < K)%nat -> dmat e q Y' (l * K + k)%nat (l' * K + k')%nat = b l l').
  { intros. unfold dmat, Y'. rewrite !div_block by auto. reflexivity. }
  (* the conditional means *)
  assert (Ra : forall l k, (k < K)%nat -> rsum (L * K) (fun t => w t * dmat e p X' (l * K + k)%nat t) = rsum K (fun k' => u k' * a k k')).
  { intros l k Hk. rewrite rsum_blocks.
    rewrite (rsum_ext L _ (fun l' => v l' * rsum K (fun k' => u k' * a k k'))).
    - rewrite rsum_scal_r, Sv. ring.
    - intros l' Hl'. rewrite <- rsum_scal_l. apply rsum_ext. intros k' Hk'. rewrite Hww, Ha' by auto. ring. }
  assert (Rb : forall l k, (k < K)%nat -> rsum (L * K) (fun t => w t * dmat e q Y' (l * K + k)%nat t) = rsum L (fun l' => v l' * b l l')).
  { intros l k Hk. rewrite rsum_blocks. apply rsum_ext. intros l' Hl'.
    rewrite (rsum_ext K _ (fun k' => u k' * (v l' * b l l'))).
    - rewrite rsum_scal_r, Su. ring.
    - intros k' Hk'. rewrite Hww, Hb' by auto. ring. }
  assert (M1 : rsum2 (L * K) (L * K) (fun k l => w k * w l * dmat e p X' k l) = ma).
  { unfold rsum2. rewrite rsum_blocks.
    rewrite (rsum_ext L _ (fun l => v l * ma)); [rewrite rsum_scal_r, Sv; ring|].
    intros l Hl. unfold ma, rsum2. rewrite <- rsum_scal_l. apply rsum_ext. intros k Hk.
    rewrite (rsum_ext (L * K) _ (fun t => w (l * K + k)%nat * (w t * dmat e p X' (l * K + k)%nat t))) by (intros; ring).
    rewrite rsum_scal_l, Ra, Hww by auto. rewrite <- !rsum_scal_l. apply rsum_ext. intros. ring. }
  assert (M2 : rsum2 (L * K) (L * K) (fun k l => w k * w l * dmat e q Y' k l) = mb).
  { unfold rsum2. rewrite rsum_blocks. unfold mb, rsum2. apply rsum_ext. intros l Hl.
    rewrite (rsum_ext K _ (fun k => u k * rsum L (fun l' => v l * v l' * b l l'))).
    - rewrite rsum_scal_r, Su. ring.
    - intros k Hk.
      rewrite (rsum_ext (L * K) _ (fun t => w (l * K + k)%nat * (w t * dmat e q Y' (l * K + k)%nat t))) by (intros; ring).
      rewrite rsum_scal_l, Rb, Hww by auto. rewrite <- !rsum_scal_l. apply rsum_ext. intros. ring. }
  assert (M3 : rsum2 (L * K) (L * K) (fun k l => w k * w l * (dmat e p X' k l * dmat e q Y' k l)) = ma * mb).
  { unfold rsum2. rewrite rsum_blocks.
    rewrite (rsum_ext L _ (fun l => rsum K (fun k => rsum K (fun k' => u k * u k' * a k k') * rsum L (fun l' => v l * v l' * b l l')))).
    - rewrite (rsum_ext L _ (fun l => ma * rsum L (fun l' => v l * v l' * b l l'))); [rewrite rsum_scal_l; reflexivity|].
      intros l Hl. rewrite rsum_scal_r. reflexivity.
    - intros l Hl. apply rsum_ext. intros k Hk. rewrite rsum_blocks, <- rsum_scal_l. apply rsum_ext. intros l' Hl'.
      rewrite <- rsum_scal_r. apply rsum_ext. intros k' Hk'. rewrite !Hww, Ha', Hb' by auto. ring. }
  assert (M4 : rsum (L * K) (fun k => rsum2 (L * K) (L * K) (fun l m0 => w k * w l * w m0 * (dmat e p X' k l * dmat e q Y' k m0))) = ma * mb).
  { rewrite rsum_blocks.
    rewrite (rsum_ext L _ (fun l => rsum K (fun k => rsum K (fun k' => u k * u k' * a k k') * rsum L (fun l' => v l * v l' * b l l')))).
    - rewrite (rsum_ext L _ (fun l => ma * rsum L (fun l' => v l * v l' * b l l'))); [rewrite rsum_scal_l; reflexivity|].
      intros l Hl. rewrite rsum_scal_r. reflexivity.
    - intros l Hl. apply rsum_ext. intros k Hk.
      transitivity (w (l * K + k)%nat * (rsum (L * K) (fun t => w t * dmat e p X' (l * K + k)%nat t)
                                       * rsum (L * K) (fun t => w t * dmat e q Y' (l * K + k)%nat t))).
      + unfold rsum2. rewrite <- rsum_scal_r, <- rsum_scal_l. apply rsum_ext. intros t Ht.
        rewrite <- !rsum_scal_l. apply rsum_ext. intros. ring.
      + rewrite Ra, Rb, Hww by auto.
        rewrite (rsum_ext K (fun k' => u k * u k' * a k k') (fun k' => u k * (u k' * a k k'))) by (intros; ring).
        rewrite (rsum_ext L (fun l' => v l * v l' * b l l') (fun l' => v l * (v l' * b l l'))) by (intros; ring).
        rewrite !rsum_scal_l. ring. }
  rewrite M1, M2, M3, M4. ring.
Qed.

(** A fair coin thrown at both coordinates of the plane against its first coordinate. *)
Example C45_meets : exists v,
  (forall s, call UDcovSqr (env_R true) (drawn Numpy F64 4 2 (fun k c => INR (k * c)) s)
                  (drawn Numpy F64 4 1 (fun k _ => INR k) s) 1 MAuto CAuto = Ok (v s))
  /\ expect 2 (fun _ => 1 / 2) 4 v = 1 / 4.
Proof.
  destruct (C45_unbiased (env_R true) 2 (fun _ => 1 / 2) (fun k c => INR (k * c)) (fun k _ => INR k) 2 1 Numpy F64 Numpy F64 4 1 MAuto CAuto)
    as (v & Hv & Hx); auto using env_R_valid; try lra.
  - split; [intros; lra|cbn; lra].
  - intros s. left. left. reflexivity.
  - exists v. split; auto. rewrite Hx. unfold population_dcov2, rsum2.
    assert (forall k l, dmat 1 2 (fun k c => INR (k * c)) k l = Rabs (INR k - INR l)) as A.
    { intros. unfold dmat. rewrite rpow_1 by apply dist_nonneg. unfold dist; cbn [rsum]. rewrite !Nat.mul_0_r, !Nat.mul_1_r.
      rewrite <- sqrt_Rsqr_abs. f_equal. unfold Rsqr. cbn [INR]. ring. }
    assert (forall k l, dmat 1 1 (fun k _ => INR k) k l = Rabs (INR k - INR l)) as B.
    { intros. unfold dmat. rewrite rpow_1 by apply dist_nonneg. unfold dist; cbn [rsum].
      rewrite <- sqrt_Rsqr_abs. f_equal. unfold Rsqr. ring. }
    cbn [rsum]. rewrite !A, !B. cbn [INR].
    rewrite ?Rminus_0_r, ?(Rminus_diag_eq 1 1), ?(Rminus_diag_eq (1 + 1) (1 + 1)), ?Rabs_R0, ?Rabs_R1 by reflexivity.
    replace (Rabs (0 - 1)) with 1 by (rewrite Rabs_left; lra). lra.
Qed.

(** ** C46 *)

Theorem C46_unbiased E K L w v X Y p ns dt ns' dt' n m e : valid_env E -> distribution K w -> distribution L v ->
  (2 <= n)%nat -> (2 <= m)%nat -> 0 < e ->
  exists f, (forall s t, outcome (energy_distance E (drawn ns dt n p X s) (drawn ns' dt' m p Y t) e None (EstEnum UStatistic)) = Ok (f s t))
  /\ expect K w n (fun s => expect L v m (f s)) = population_energy e p K L w v X Y.
Proof.
  intros HE (_ & Hw) (_ & Hv) Hn Hm He.
  set (a := dmat e p X). set (b := dmat e p Y). set (c := fun k l => rpow (dist p (X k) (Y l)) e).
  exists (fun s t => 2 / (INR n * INR m) * rsum2 n m (fun i j => c (s i) (t j))
    + (- / (INR n * (INR n - 1)) * rsum2 n n (fun i j => a (s i) (s j))
    + - / (INR m * (INR m - 1)) * rsum2 m m (fun i j => b (t i) (t j)))).
  assert (HN : 2 <= INR n) by (apply (le_INR 2); auto). assert (HM : 2 <= INR m) by (apply (le_INR 2); auto).
  split.
  - intros s t. rewrite (C27_u_ordered E _ _ n m p); auto.
    2: repeat split; auto using drawn_wf, drawn_shape.
    f_equal.
    rewrite (rsum2_ext n m _ (fun i j => c (s i) (t j))).
    2:{ intros i j Hi Hj. unfold c. f_equal. unfold dist. f_equal. apply rsum_ext. intros. rewrite !drawn_obs by auto. reflexivity. }
    rewrite (rsum2_ext n n _ (fun i j => a (s i) (s j))).
    2:{ intros i j Hi Hj. unfold a, dmat. f_equal. unfold dist. f_equal. apply rsum_ext. intros. rewrite !drawn_obs by auto. reflexivity. }
    rewrite (rsum2_ext m m _ (fun i j => b (t i) (t j))).
    2:{ intros i j Hi Hj. unfold b, dmat. f_equal. unfold dist. f_equal. apply rsum_ext. intros. rewrite !drawn_obs by auto. reflexivity. }
    field. repeat split; lra.
  - assert (Hpair : forall N K0 w0 d, rsum K0 w0 = 1 -> (forall k, d k k = 0) ->
      expect K0 w0 N (fun s => rsum2 N N (fun i j => d (s i) (s j))) = INR N * (INR N - 1) * rsum2 K0 K0 (fun k l => w0 k * w0 l * d k l)).
    { intros N K0 w0 d H0 Hd. rewrite (expect_rsum2 K0 w0 H0). unfold rsum2 at 1.
      rewrite (rsum_ext N _ (fun _ => (INR N - 1) * rsum2 K0 K0 (fun k l => w0 k * w0 l * d k l))).
      - rewrite rsum_const. ring.
      - intros i Hi. rewrite (rsum_one N _ i Hi (rsum2 K0 K0 (fun k l => w0 k * w0 l * d k l))).
        + rewrite (expect_ext _ _ _ (fun s => d (s i) (s i)) (fun _ => 0)) by (intros; apply Hd).
          rewrite expect_const by auto. ring.
        + intros j Hj Hji. rewrite (expect_2 K0 w0 H0 N i j d) by auto. unfold rsum2. apply rsum_ext. intros.
          rewrite <- rsum_scal_l. apply rsum_ext. intros. ring. }
    assert (Hone : forall N K0 w0 (g : nat -> R) i, rsum K0 w0 = 1 -> (i < N)%nat ->
      expect K0 w0 N (fun s => g (s i)) = rsum K0 (fun k => w0 k * g k)).
    { intros N K0 w0 g i H0 Hi. rewrite <- (expect_redraw K0 w0 H0 N i) by auto. unfold redraw.
      rewrite Nat.eqb_refl. apply expect_const; auto. }
    rewrite (expect_ext K w n _ (fun s =>
       2 / (INR n * INR m) * rsum2 n m (fun i j => rsum L (fun l => v l * c (s i) l))
       + (- / (INR n * (INR n - 1)) * rsum2 n n (fun i j => a (s i) (s j))
       + - / (INR m * (INR m - 1)) * (INR m * (INR m - 1) * rsum2 L L (fun k l => v k * v l * b k l))))).
    + rewrite !expect_plus, !expect_scal, expect_const by auto.
      rewrite (Hpair n K w a) by (auto; intros; apply dmat_hollow_all).
      rewrite (expect_rsum2 K w Hw).
      rewrite (rsum2_ext n m _ (fun _ _ => rsum2 K L (fun k l => w k * v l * c k l))).
      * rewrite rsum2_const. unfold population_energy.
        change (fun k l => w k * v l * rpow (dist p (X k) (Y l)) e) with (fun k l => w k * v l * c k l).
        change (fun k l => w k * w l * rpow (dist p (X k) (X l)) e) with (fun k l => w k * w l * a k l).
        change (fun k l => v k * v l * rpow (dist p (Y k) (Y l)) e) with (fun k l => v k * v l * b k l).
        field. repeat split; lra.
      * intros i j Hi Hj. rewrite (Hone n K w (fun k => rsum L (fun l => v l * c k l)) i) by auto.
        unfold rsum2. apply rsum_ext. intros. rewrite <- rsum_scal_l. apply rsum_ext. intros. ring.
    + intros s. rewrite !expect_plus, !expect_scal, expect_const by auto.
      rewrite (Hpair m L v b) by (auto; intros; apply dmat_hollow_all).
      rewrite (expect_rsum2 L v Hv). do 2 f_equal. apply rsum2_ext. intros i j Hi Hj. apply (Hone m L v (c (s i)) j); auto.
Qed.

Example C46_meets : exists f,
  (forall s t, outcome (energy_distance (env_R true) (drawn Numpy F64 2 1 (fun k _ => INR k) s)
     (drawn Numpy F64 3 1 (fun k _ => INR (2 * k)) t) 1 None (EstEnum UStatistic)) = Ok (f s t))
  /\ expect 2 (fun _ => 1 / 2) 2 (fun s => expect 2 (fun _ => 1 / 2) 3 (f s)) = 1 / 2.
Proof.
  destruct (C46_unbiased (env_R true) 2 2 (fun _ => 1 / 2) (fun _ => 1 / 2) (fun k _ => INR k) (fun k _ => INR (2 * k)) 1 Numpy F64 Numpy F64 2 3 1)
    as (f & Hf & Hx); auto using env_R_valid; try lra.
  - split; [intros; lra|cbn; lra].
  - split; [intros; lra|cbn; lra].
  - exists f. split; auto. rewrite Hx. unfold population_energy, rsum2.
    assert (forall u v, rpow (dist 1 (fun _ => u) (fun _ => v)) 1 = Rabs (u - v)) as B.
    { intros. rewrite rpow_1 by apply dist_nonneg. unfold dist; cbn [rsum].
      rewrite <- sqrt_Rsqr_abs. f_equal. unfold Rsqr. ring. }
    cbn [rsum]. rewrite !B. cbn [INR Nat.mul Nat.add].
    rewrite ?Rminus_0_r, ?(Rminus_diag_eq 1 1), ?(Rminus_diag_eq (1 + 1) (1 + 1)), ?Rabs_R0, ?Rabs_R1 by reflexivity.
    replace (Rabs (0 - 1)) with 1 by (rewrite Rabs_left; lra).
    replace (Rabs (0 - (1 + 1))) with 2 by (rewrite Rabs_left; lra).
    replace (Rabs (1 - (1 + 1))) with 1 by (rewrite Rabs_left; lra).
    replace (Rabs (1 + 1)) with 2 by (rewrite Rabs_right; lra). lra.
Qed.
