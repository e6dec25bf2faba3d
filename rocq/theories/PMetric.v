(** C81: the square root of the energy distance satisfies the triangle inequality, and the energy distance of a pooled
    sample is the one of the geometry of squared distances (Stewart's theorem).

    [energy] is the textbook V-statistic (Spec.v); [two_samples n m p x y]: samples of [n] and [m] observations with [p]
    coordinates (RefEnergy.v). *)
From Coq Require Import Reals Lra Lia List Arith Bool ZArith.
From Verif Require Import Num Numpy MUtils MDistances MEnergy Sums Spec Centering Psd PowerKernel Nonneg Empirical EnergyMath
  Samples Api RefDist RefEnergy Witness PShapes PEnergy.
Import List ListNotations.
Local Open Scope R_scope.

(** ** Three samples *)
Section Three.
  Context (e : R) (p n m k : nat) (X Y Z : nat -> nat -> R) (a b c : R).
  Hypothesis Hn : (1 <= n)%nat.
  Hypothesis Hm : (1 <= m)%nat.
  Hypothesis Hk : (1 <= k)%nat.

  (** The mean distance between the points of two samples *)
  Definition between (e : R) (p n m : nat) (X Y : nat -> nat -> R) : R :=
    rsum2 n m (fun i j => rpow (dist p (X i) (Y j)) e) / (INR n * INR m).

  Let W := pool (n + m) (pool n X Y) Z.
  Let w (i : nat) : R := if Nat.ltb i n then a / INR n else if Nat.ltb i (n + m) then b / INR m else c / INR k.

  Lemma w_1 i : (i < n)%nat -> w i = a / INR n.
  Proof. intros H. unfold w. destruct (Nat.ltb_spec i n); [reflexivity|lia]. Qed.
  Lemma w_2 i : (i < m)%nat -> w (n + i) = b / INR m.
  Proof.
    intros H. unfold w. destruct (Nat.ltb_spec (n + i) n); [lia|]. destruct (Nat.ltb_spec (n + i) (n + m)); [reflexivity|lia].
  Qed.
  Lemma w_3 i : w (n + m + i) = c / INR k.
  Proof.
    unfold w. destruct (Nat.ltb_spec (n + m + i) n); [lia|].
    destruct (Nat.ltb_spec (n + m + i) (n + m)); [lia|reflexivity].
  Qed.
  Lemma W_1 i : (i < n)%nat -> W i = X i.
  Proof. intros H. unfold W. rewrite !pool_l by lia. reflexivity. Qed.
  Lemma W_2 i : (i < m)%nat -> W (n + i) = Y i.
  Proof. intros H. unfold W. rewrite pool_l by lia. apply pool_r. Qed.
  Lemma W_3 i : W (n + m + i) = Z i.
  Proof. apply pool_r. Qed.

  Lemma w_total : rsum (n + m + k) w = a + b + c.
  Proof.
    pose proof (INR_pos n Hn). pose proof (INR_pos m Hm). pose proof (INR_pos k Hk).
    rewrite rsum_app, rsum_app, (rsum_ext n _ (fun _ => a / INR n)) by (intros; apply w_1; auto).
    rewrite (rsum_ext m _ (fun _ => b / INR m)) by (intros; apply w_2; auto).
    rewrite (rsum_ext k _ (fun _ => c / INR k)) by (intros; apply w_3). rewrite !rsum_const. field. lra.
  Qed.

  Lemma rsum2_split_l n1 n2 m1 (f : nat -> nat -> R) :
    rsum2 (n1 + n2) m1 f = rsum2 n1 m1 f + rsum2 n2 m1 (fun i j => f (n1 + i)%nat j).
  Proof. unfold rsum2. apply rsum_app. Qed.
  Lemma rsum2_split_r n1 m1 m2 (f : nat -> nat -> R) :
    rsum2 n1 (m1 + m2) f = rsum2 n1 m1 f + rsum2 n1 m2 (fun i j => f i (m1 + j)%nat).
  Proof. rewrite (rsum2_swap n1), rsum2_split_l, (rsum2_swap m1), (rsum2_swap m2). reflexivity. Qed.

  Lemma between_sym n' m' X' Y' : between e p n' m' X' Y' = between e p m' n' Y' X'.
  Proof.
    unfold between. rewrite rsum2_swap, (Rmult_comm (INR n')). f_equal. apply rsum2_ext. intros. rewrite dist_sym. reflexivity.
  Qed.

  Lemma block n' m' X' Y' s t (f : nat -> nat -> R) : (1 <= n')%nat -> (1 <= m')%nat ->
    (forall i j, (i < n')%nat -> (j < m')%nat -> f i j = s / INR n' * (t / INR m') * rpow (dist p (X' i) (Y' j)) e) ->
    rsum2 n' m' f = s * t * between e p n' m' X' Y'.
  Proof.
    intros H1 H2 H. pose proof (INR_pos n' H1). pose proof (INR_pos m' H2).
    rewrite (rsum2_ext n' m' _ _ H), rsum2_scal_l. unfold between. field. lra.
  Qed.

  Lemma form_three : rsum2 (n + m + k) (n + m + k) (fun i j => w i * w j * dmat e p W i j)
    = a * a * between e p n n X X + b * b * between e p m m Y Y + c * c * between e p k k Z Z
      + 2 * (a * b * between e p n m X Y) + 2 * (a * c * between e p n k X Z) + 2 * (b * c * between e p m k Y Z).
  Proof.
    rewrite rsum2_pool, (rsum2_pool n m), (rsum2_split_l n m k), (rsum2_split_r k n m). unfold dmat.
    rewrite (block n n X X a a _ Hn Hn) by (intros; rewrite !w_1, !W_1 by auto; reflexivity).
    rewrite (block n m X Y a b _ Hn Hm) by (intros; rewrite !w_2, !W_2, !w_1, !W_1 by auto; reflexivity).
    rewrite (block m n Y X b a _ Hm Hn) by (intros; rewrite !w_2, !W_2, !w_1, !W_1 by auto; reflexivity).
    rewrite (block m m Y Y b b _ Hm Hm) by (intros; rewrite !w_2, !W_2 by auto; reflexivity).
    rewrite (block n k X Z a c _ Hn Hk) by (intros; rewrite !w_3, !W_3, !w_1, !W_1 by auto; reflexivity).
    rewrite (block m k Y Z b c _ Hm Hk) by (intros; rewrite !w_3, !W_3, !w_2, !W_2 by auto; reflexivity).
    rewrite (block k n Z X c a _ Hk Hn) by (intros; rewrite !w_3, !W_3, !w_1, !W_1 by auto; reflexivity).
    rewrite (block k m Z Y c b _ Hk Hm) by (intros; rewrite !w_3, !W_3, !w_2, !W_2 by auto; reflexivity).
    rewrite (block k k Z Z c c _ Hk Hk) by (intros; rewrite !w_3, !W_3 by auto; reflexivity).
    rewrite (between_sym m n Y X), (between_sym k n Z X), (between_sym k m Z Y). ring.
  Qed.

  Lemma form_nonpos : 0 < e <= 2 -> a + b + c = 0 ->
    a * a * between e p n n X X + b * b * between e p m m Y Y + c * c * between e p k k Z Z
      + 2 * (a * b * between e p n m X Y) + 2 * (a * c * between e p n k X Z) + 2 * (b * c * between e p m k Y Z) <= 0.
  Proof.
    intros He H0. rewrite <- form_three. apply (cnd_nonpos (n + m + k) p W (fun i j => w i * w j)); auto.
    - rewrite <- rsum_mult, w_total, H0. ring.
    - intros t Ht. apply (schur_psd _ _ (gauss_schur (n + m + k) p t W ltac:(lra))).
  Qed.
End Three.

Lemma energy_between e p n m X Y : energy e p n m X Y = 2 * between e p n m X Y - between e p n n X X - between e p m m Y Y.
Proof. reflexivity. Qed.

(** A quadratic form in two variables that is never negative *)
Lemma form_discriminant A B C : (forall s t, 0 <= s * s * A + t * t * B + s * t * (C - A - B)) -> 0 <= A -> 0 <= B ->
  C <= (sqrt A + sqrt B) * (sqrt A + sqrt B).
Proof.
  intros H HA HB. pose proof (sqrt_pos A). pose proof (sqrt_pos B).
  pose proof (sqrt_sqrt A HA) as EA. pose proof (sqrt_sqrt B HB) as EB.
  destruct (Rle_lt_dec A 0) as [A0|A0].
  - assert (A = 0) by lra. subst A. rewrite sqrt_0, Rplus_0_l, EB.
    destruct (Rle_lt_dec C B) as [|HC]; [lra|exfalso].
    specialize (H (- (B / (C - B)) - 1) 1).
    assert (0 < C - B) by lra.
    assert ((- (B / (C - B)) - 1) * (C - B) = - B - (C - B)) by (field; lra). nra.
  - destruct (Rle_lt_dec B 0) as [B0|B0].
    + assert (B = 0) by lra. subst B. rewrite sqrt_0, Rplus_0_r, EA.
      destruct (Rle_lt_dec C A) as [|HC]; [lra|exfalso].
      specialize (H 1 (- (A / (C - A)) - 1)). assert (0 < C - A) by lra.
      assert ((- (A / (C - A)) - 1) * (C - A) = - A - (C - A)) by (field; lra). nra.
    + assert (0 < sqrt A) by (apply sqrt_lt_R0; auto). assert (0 < sqrt B) by (apply sqrt_lt_R0; auto).
      specialize (H (sqrt B) (- sqrt A)).
      assert (0 <= sqrt A * sqrt B * (2 * (sqrt A * sqrt B) - (C - A - B))) by nra.
      assert (0 < sqrt A * sqrt B) by (apply Rmult_lt_0_compat; auto).
      assert (0 <= 2 * (sqrt A * sqrt B) - (C - A - B)) by (apply Rmult_le_reg_l with (sqrt A * sqrt B); lra). nra.
Qed.

Lemma energy_triangle e p n m k X Y Z : (1 <= n)%nat -> (1 <= m)%nat -> (1 <= k)%nat -> 0 < e <= 2 ->
  sqrt (energy e p n k X Z) <= sqrt (energy e p n m X Y) + sqrt (energy e p m k Y Z).
Proof.
  intros Hn Hm Hk He.
  pose proof (energy_nonneg e p n m X Y Hn Hm He) as HA. pose proof (energy_nonneg e p m k Y Z Hm Hk He) as HB.
  pose proof (form_discriminant (energy e p n m X Y) (energy e p m k Y Z) (energy e p n k X Z)) as H.
  assert (energy e p n k X Z <= (sqrt (energy e p n m X Y) + sqrt (energy e p m k Y Z))
                                * (sqrt (energy e p n m X Y) + sqrt (energy e p m k Y Z))) as HC.
  { apply H; auto. intros s t.
    pose proof (form_nonpos e p n m k X Y Z s (t - s) (- t) Hn Hm Hk He ltac:(ring)) as HF.
    rewrite !energy_between. nra. }
  pose proof (sqrt_pos (energy e p n m X Y)). pose proof (sqrt_pos (energy e p m k Y Z)).
  apply sqrt_le_1_alt in HC. rewrite sqrt_square in HC by lra. exact HC.
Qed.

(** ** Pooled samples *)

(** [xy] is [x] followed by [y]. *)
Definition pooled (x y xy : array R) : Prop :=
  wf xy /\ ncols xy = ncols x /\ shape0 xy = (shape0 x + shape0 y)%nat /\
  (forall i l, (i < shape0 x)%nat -> (l < ncols x)%nat -> obs xy i l = obs x i l) /\
  (forall i l, (i < shape0 y)%nat -> (l < ncols x)%nat -> obs xy (shape0 x + i) l = obs y i l).

Section Pooled.
  Context (e : R) (p n m : nat) (X Y XY : nat -> nat -> R).
  Hypothesis Hn : (1 <= n)%nat.
  Hypothesis Hm : (1 <= m)%nat.
  Hypothesis H1 : forall i l, (i < n)%nat -> (l < p)%nat -> XY i l = X i l.
  Hypothesis H2 : forall i l, (i < m)%nat -> (l < p)%nat -> XY (n + i)%nat l = Y i l.

  Let u := INR n / (INR n + INR m).

  Lemma between_ext e' p' n' m' A B A' B' : (forall i l, (i < n')%nat -> (l < p')%nat -> A i l = A' i l) ->
    (forall i l, (i < m')%nat -> (l < p')%nat -> B i l = B' i l) -> between e' p' n' m' A B = between e' p' n' m' A' B'.
  Proof.
    intros HA HB. unfold between. f_equal. apply rsum2_ext. intros. f_equal. apply SpecFacts.dist_ext; auto.
  Qed.

  Lemma between_pooled k Z : (1 <= k)%nat -> between e p (n + m) k XY Z = u * between e p n k X Z + (1 - u) * between e p m k Y Z.
  Proof.
    intros Hk. pose proof (INR_pos n Hn). pose proof (INR_pos m Hm). pose proof (INR_pos k Hk).
    unfold between, u. rewrite rsum2_split_l, plus_INR.
    rewrite (rsum2_ext n k _ (fun i j => rpow (dist p (X i) (Z j)) e))
      by (intros; f_equal; apply SpecFacts.dist_ext; auto).
    rewrite (rsum2_ext m k (fun i j => rpow (dist p (XY (n + i)%nat) (Z j)) e) (fun i j => rpow (dist p (Y i) (Z j)) e))
      by (intros; f_equal; apply SpecFacts.dist_ext; auto).
    field. lra.
  Qed.

  Lemma energy_pooled k Z : (1 <= k)%nat ->
    energy e p (n + m) k XY Z
    = u * energy e p n k X Z + (1 - u) * energy e p m k Y Z - u * (1 - u) * energy e p n m X Y.
  Proof.
    intros Hk. rewrite !energy_between. rewrite (between_pooled k Z Hk), (between_pooled (n + m) XY ltac:(lia)).
    rewrite (between_sym e p n (n + m) X XY), (between_sym e p m (n + m) Y XY).
    rewrite (between_pooled n X Hn), (between_pooled m Y Hm), (between_sym e p m n Y X). ring.
  Qed.
End Pooled.

(** ** The claims *)

Theorem C81_triangle E x y z n m k p e : valid_env E -> two_samples n m p x y -> two_samples m k p y z ->
  (1 <= n)%nat -> (1 <= m)%nat -> (1 <= k)%nat -> 0 < e <= 2 ->
  exists dxy dyz dxz, outcome (energy_distance E x y e None V) = Ok dxy /\ outcome (energy_distance E y z e None V) = Ok dyz /\
    outcome (energy_distance E x z e None V) = Ok dxz /\ sqrt dxz <= sqrt dxy + sqrt dyz.
Proof.
  intros HE Hxy Hyz Hn Hm Hk He.
  assert (two_samples n k p x z) as Hxz by (unfold two_samples in *; tauto).
  do 3 eexists. split; [apply energy_V; eauto; lra|]. split; [apply energy_V; eauto; lra|].
  split; [apply energy_V; eauto; lra|]. apply energy_triangle; auto.
Qed.

Lemma pooled_two n m k p x y xy z : two_samples n m p x y -> two_samples m k p y z -> pooled x y xy ->
  two_samples (n + m) k p xy z.
Proof.
  intros (Wx & Wy & Sx & Sy & Cx & Cy) (_ & Wz & _ & Sz & _ & Cz) (Wp & Cp & Sp & _). unfold two_samples.
  repeat split; auto; congruence.
Qed.

(** The distance to a pooled sample *)
Theorem C81_pooled E x y xy z n m k p e : valid_env E -> two_samples n m p x y -> two_samples m k p y z -> pooled x y xy ->
  (1 <= n)%nat -> (1 <= m)%nat -> (1 <= k)%nat -> 0 < e ->
  exists dxy dxz dyz, outcome (energy_distance E x y e None V) = Ok dxy /\ outcome (energy_distance E x z e None V) = Ok dxz /\
    outcome (energy_distance E y z e None V) = Ok dyz /\
    outcome (energy_distance E xy z e None V)
    = Ok (INR n / INR (n + m) * dxz + INR m / INR (n + m) * dyz - INR n * INR m / (INR (n + m) * INR (n + m)) * dxy).
Proof.
  intros HE Hxy Hyz HP Hn Hm Hk He.
  assert (two_samples n k p x z) as Hxz by (unfold two_samples in *; tauto).
  pose proof (pooled_two _ _ _ _ _ _ _ _ Hxy Hyz HP) as Hpz.
  do 3 eexists. split; [apply energy_V; eauto|]. split; [apply energy_V; eauto|]. split; [apply energy_V; eauto|].
  rewrite (energy_V E HE xy z (n + m) k p) by (auto; lia). f_equal.
  destruct Hxy as (_ & _ & Sx & Sy & Cx & Cy). destruct HP as (_ & _ & _ & P1 & P2). rewrite Sx, Sy, Cx in *.
  rewrite (energy_pooled e p n m (obs x) (obs y) (obs xy) Hn Hm P1 P2 k (obs z) Hk), plus_INR.
  pose proof (INR_pos n Hn). pose proof (INR_pos m Hm). field. lra.
Qed.

(** Pooling never increases the distance beyond the larger one, and the distance of a sample to a pooled one containing it
    shrinks by the square of the proportion of the other observations. *)
Theorem C81_diluted E x y xy n m p e : valid_env E -> two_samples n m p x y -> pooled x y xy ->
  (1 <= n)%nat -> (1 <= m)%nat -> 0 < e ->
  exists dxy, outcome (energy_distance E x y e None V) = Ok dxy /\
    outcome (energy_distance E xy x e None V) = Ok ((INR m / INR (n + m)) * (INR m / INR (n + m)) * dxy).
Proof.
  intros HE Hxy HP Hn Hm He. pose proof (two_samples_sym _ _ _ _ _ Hxy) as Hyx.
  destruct (C81_pooled E x y xy x n m n p e HE Hxy Hyx HP Hn Hm Hn He) as (d1 & d2 & d3 & E1 & E2 & E3 & EP).
  exists d1. split; [exact E1|]. rewrite EP. f_equal.
  assert (d2 = 0) as ->.
  { destruct Hxy as (Wx & _ & Sx & _ & Cx & _). rewrite (C24_same E x n p e) in E2 by auto. congruence. }
  assert (d3 = d1) as ->.
  { rewrite <- (C24_symmetric E x y n m p e None V) in E3; [congruence|auto|auto| |auto|exact I]. cbn. auto. }
  rewrite plus_INR. pose proof (INR_pos n Hn). pose proof (INR_pos m Hm). field. lra.
Qed.

Theorem C81_convex E x y xy z n m k p e : valid_env E -> two_samples n m p x y -> two_samples m k p y z -> pooled x y xy ->
  (1 <= n)%nat -> (1 <= m)%nat -> (1 <= k)%nat -> 0 < e <= 2 ->
  exists dxz dyz d, outcome (energy_distance E x z e None V) = Ok dxz /\ outcome (energy_distance E y z e None V) = Ok dyz /\
    outcome (energy_distance E xy z e None V) = Ok d /\
    d <= INR n / INR (n + m) * dxz + INR m / INR (n + m) * dyz.
Proof.
  intros HE Hxy Hyz HP Hn Hm Hk He.
  destruct (C81_pooled E x y xy z n m k p e HE Hxy Hyz HP Hn Hm Hk ltac:(lra)) as (d1 & d2 & d3 & E1 & E2 & E3 & EP).
  exists d2, d3. eexists. split; [exact E2|]. split; [exact E3|]. split; [exact EP|].
  destruct (C24_nonneg E x y n m p e HE Hxy Hn Hm He) as (v & Ev & Hv).
  assert (v = d1) as -> by congruence.
  pose proof (INR_pos n Hn). pose proof (INR_pos m Hm). rewrite plus_INR.
  assert (0 <= INR n * INR m / ((INR n + INR m) * (INR n + INR m)) * d1); [|lra].
  apply Rmult_le_pos; [|auto]. apply Rlt_le, Rdiv_lt_0_compat; nra.
Qed.

(** Three samples on the line, pooled *)
Definition m_x : array R := mkArr Numpy F64 (Vec [0; 1]).
Definition m_y : array R := mkArr Numpy F64 (Vec [5]).
Definition m_xy : array R := mkArr Numpy F64 (Vec [0; 1; 5]).
Definition m_z : array R := mkArr Numpy F64 (Vec [2; 3; 7]).

Example C81_meets : valid_env (env_R true) /\ two_samples 2 1 1 m_x m_y /\ two_samples 1 3 1 m_y m_z /\ pooled m_x m_y m_xy.
Proof.
  split; [apply env_R_valid|]. split; [repeat split|]. split; [repeat split|].
  unfold pooled. split; [exact I|]. split; [reflexivity|]. split; [reflexivity|]. split.
  - intros [|[|i]] [|l] Hi Hl; cbn in *; try lia; reflexivity.
  - intros [|i] [|l] Hi Hl; cbn in *; try lia; reflexivity.
Qed.
