(** C82: samples of the same dimension have distance correlation one exactly if one is the image of the other under
    a similarity: a rotation or reflection, a positive factor and a translation.

    [orthogonal p Q]: the columns of [Q] are orthonormal; [obs x i k] is coordinate [k] of observation [i]; [constant x]:
    all the observations are equal (Api.v). *)
From Coq Require Import Reals Lra Lia List Arith Bool ZArith.
From Verif Require Import Num Numpy MUtils MDistances MInternals MDcor Sums Spec Centering Tab Samples Api RefDist RefDcor
  Psd PowerKernel Nonneg Empirical EnergyMath Invariance SpecFacts RefApi Witness PDcov.
Import ListNotations.
Local Open Scope R_scope.

(** ** Vectors with equal inner products are images of each other under an orthogonal matrix *)
Definition inner (p : nat) (u v : nat -> R) : R := rsum p (fun k => u k * v k).
Definition apply (p : nat) (Q : nat -> nat -> R) (u : nat -> R) (k : nat) : R := rsum p (fun l => Q k l * u l).

Lemma inner_sym p u v : inner p u v = inner p v u.
Proof. unfold inner. apply rsum_ext. intros. ring. Qed.

Lemma inner_ext p u v u' v' : (forall k, (k < p)%nat -> u k = u' k) -> (forall k, (k < p)%nat -> v k = v' k) ->
  inner p u v = inner p u' v'.
Proof. intros H H'. unfold inner. apply rsum_ext. intros k Hk. rewrite H, H' by auto. reflexivity. Qed.

Lemma inner_minus p u v w : inner p (fun k => u k - v k) w = inner p u w - inner p v w.
Proof. unfold inner. rewrite <- rsum_minus. apply rsum_ext. intros. ring. Qed.

Lemma inner_zero p u : inner p u u = 0 -> forall k, (k < p)%nat -> u k = 0.
Proof.
  unfold inner. intros H k Hk.
  assert (u k * u k = 0).
  { apply (rsum_zero_all p (fun k => u k * u k)); auto. intros. apply Rle_0_sqr. }
  apply Rsqr_0_uniq. exact H0.
Qed.

Lemma inner_apply p Q u v : orthogonal p Q -> inner p (apply p Q u) (apply p Q v) = inner p u v.
Proof.
  intros HQ. unfold inner, apply.
  rewrite (rsum_ext p _ (fun k => rsum p (fun l => rsum p (fun r => (u l * v r) * (Q k l * Q k r))))).
  2:{ intros k Hk. rewrite <- rsum_scal_r. apply rsum_ext. intros l Hl. rewrite <- rsum_scal_l. apply rsum_ext. intros. ring. }
  rewrite rsum_swap. apply rsum_ext. intros l Hl. rewrite rsum_swap.
  rewrite (rsum_ext p _ (fun r => (u l * v r) * (if Nat.eqb l r then 1 else 0))).
  2:{ intros r Hr. rewrite rsum_scal_l. f_equal. apply HQ; auto. }
  rewrite (rsum_ext p _ (fun r => if Nat.eqb r l then u l * v r else 0))
    by (intros r Hr; rewrite (Nat.eqb_sym l r); destruct (Nat.eqb r l); ring).
  apply (rsum_delta p l (fun r => u l * v r)). auto.
Qed.

(** One Householder reflection more for each vector. *)
Lemma gram_orthogonal p n (U V : nat -> nat -> R) :
  (forall i j, (i < n)%nat -> (j < n)%nat -> inner p (U i) (U j) = inner p (V i) (V j)) ->
  exists Q, orthogonal p Q /\ forall i k, (i < n)%nat -> (k < p)%nat -> V i k = apply p Q (U i) k.
Proof.
  induction n as [|n IH]; intros HG.
  - exists (fun k l => if Nat.eqb k l then 1 else 0). split; [|intros; lia]. intros k l Hk Hl.
    rewrite (rsum_ext p _ (fun r => if Nat.eqb r k then (if Nat.eqb r l then 1 else 0) else 0))
      by (intros r Hr; destruct (Nat.eqb r k); ring).
    rewrite (rsum_delta p k (fun r => if Nat.eqb r l then 1 else 0)) by auto. reflexivity.
  - destruct IH as (Q & HQ & HV); [intros; apply HG; lia|].
    set (w := apply p Q (U n)). set (d := fun k => w k - V n k).
    destruct (Req_dec (inner p d d) 0) as [Hz|Hnz].
    + exists Q. split; auto. intros i k Hi Hk. assert (i = n \/ i < n)%nat as [->|Hlt] by lia; [|auto].
      pose proof (inner_zero p d Hz k Hk) as H. unfold d in H. fold w. lra.
    + set (h := fun l => rsum p (fun r => d r * Q r l)). set (s := 2 / inner p d d).
      assert (Hs : s * inner p d d = 2) by (unfold s; field; auto).
      exists (fun k l => Q k l - s * d k * h l). split.
      * intros k l Hk Hl. rewrite <- (HQ k l Hk Hl).
        rewrite (rsum_ext p _ (fun r => Q r k * Q r l - (s * h k) * (d r * Q r l) - (s * h l) * (d r * Q r k)
                                        + (s * s * h k * h l) * (d r * d r))) by (intros; ring).
        rewrite rsum_plus, !rsum_minus, !rsum_scal_l.
        change (rsum p (fun r => d r * Q r l)) with (h l). change (rsum p (fun r => d r * Q r k)) with (h k).
        change (rsum p (fun r => d r * d r)) with (inner p d d).
        replace (s * s * h k * h l * inner p d d) with (s * h k * h l * (s * inner p d d)) by ring. rewrite Hs. ring.
      * assert (Happ : forall u k, apply p (fun k l => Q k l - s * d k * h l) u k
                                   = apply p Q u k - s * d k * inner p d (apply p Q u)).
        { intros u k. unfold apply at 1.
          rewrite (rsum_ext p _ (fun l => Q k l * u l - (s * d k) * (h l * u l))) by (intros; ring).
          rewrite rsum_minus, rsum_scal_l. unfold apply at 1. f_equal. f_equal. unfold inner, apply, h.
          rewrite (rsum_ext p (fun l => rsum p (fun r => d r * Q r l) * u l) (fun l => rsum p (fun r => d r * Q r l * u l)))
            by (intros; symmetry; apply rsum_scal_r).
          rewrite rsum_swap. apply rsum_ext. intros r Hr. rewrite <- rsum_scal_l. apply rsum_ext. intros. ring. }
        intros i k Hi Hk. rewrite Happ. assert (i = n \/ i < n)%nat as [->|Hlt] by lia.
        -- fold w.
           assert (Hww : inner p w w = inner p (V n) (V n)) by (unfold w; rewrite inner_apply by auto; apply HG; lia).
           assert (Hdw : inner p d w = inner p w w - inner p (V n) w) by (unfold d; apply inner_minus).
           assert (Hdd : inner p d d = inner p w w - 2 * inner p (V n) w + inner p (V n) (V n)).
           { unfold d at 1. rewrite inner_minus, (inner_sym p w d), Hdw, (inner_sym p (V n) d). unfold d. rewrite inner_minus.
             rewrite (inner_sym p w (V n)). ring. }
           assert (s * inner p d w = 1) by (apply (Rmult_eq_reg_l 2); [rewrite <- Hs at 2; rewrite Hdd, Hdw, Hww; ring|lra]).
           replace (s * d k * inner p d w) with (d k * (s * inner p d w)) by ring. rewrite H. unfold d. ring.
        -- rewrite <- HV by auto.
           assert (H : inner p d (apply p Q (U i)) = 0).
           { unfold d. rewrite inner_minus. unfold w. rewrite inner_apply by auto.
             rewrite (inner_ext p (V n) (apply p Q (U i)) (V n) (V i)) by (auto; intros; symmetry; auto).
             rewrite HG by lia. ring. }
           rewrite H. ring.
Qed.

(** ** Samples with proportional distances *)
Lemma dist_zero_same p u v : dist p u v = 0 <-> same_point p u v.
Proof.
  rewrite dist_sqdist, <- sqdist_zero. split; [apply sqrt_eq_0, sqdist_nonneg|intros ->; apply sqrt_0].
Qed.

Lemma inner_sqdist p u v w : 2 * inner p (fun k => u k - w k) (fun k => v k - w k) = sqdist p u w + sqdist p v w - sqdist p u v.
Proof.
  unfold inner, sqdist. rewrite <- rsum_scal_l, <- rsum_plus, <- rsum_minus. apply rsum_ext. intros. ring.
Qed.

Lemma rpow_inj a b e : 0 < e -> 0 <= a -> 0 <= b -> rpow a e = rpow b e -> a = b.
Proof.
  intros He Ha Hb. unfold rpow.
  destruct (Rle_dec a 0), (Rle_dec b 0); intros H; try lra;
    [pose proof (exp_pos (e * ln b)); lra|pose proof (exp_pos (e * ln a)); lra|].
  apply exp_inv in H. apply ln_inv; try lra. apply (Rmult_eq_reg_l e); lra.
Qed.

Lemma proportional_dist e p n X Y c : 0 < e -> 0 < c ->
  (forall i j, (i < n)%nat -> (j < n)%nat -> dmat e p X i j = c * dmat e p Y i j) ->
  exists b, 0 < b /\ forall i j, (i < n)%nat -> (j < n)%nat -> dist p (Y i) (Y j) = b * dist p (X i) (X j).
Proof.
  intros He Hc H. exists (rpow (/ c) (/ e)). split; [apply rpow_pos, Rinv_0_lt_compat; auto|].
  intros i j Hi Hj. specialize (H i j Hi Hj). unfold dmat in H.
  assert (0 < rpow (/ c) (/ e)) by (apply rpow_pos, Rinv_0_lt_compat; auto).
  apply (rpow_inj _ _ e); auto; [apply dist_nonneg|apply Rmult_le_pos; [lra|apply dist_nonneg]|].
  rewrite rpow_mult by (try apply dist_nonneg; lra). rewrite H.
  assert (Hc' : rpow (rpow (/ c) (/ e)) e = / c).
  { assert (0 < / c) by (apply Rinv_0_lt_compat; auto). unfold rpow at 2. destruct (Rle_dec (/ c) 0); [lra|].
    unfold rpow. pose proof (exp_pos (/ e * ln (/ c))). destruct (Rle_dec _ 0); [lra|]. rewrite ln_exp.
    replace (e * (/ e * ln (/ c))) with (ln (/ c)) by (field; lra). apply exp_ln. auto. }
  rewrite Hc'. field. lra.
Qed.

Lemma proportional_similar p n X Y b : (1 <= n)%nat -> 0 < b ->
  (forall i j, (i < n)%nat -> (j < n)%nat -> dist p (Y i) (Y j) = b * dist p (X i) (X j)) ->
  exists a Q, orthogonal p Q /\
  forall i k, (i < n)%nat -> (k < p)%nat -> Y i k = a k + b * rsum p (fun l => Q k l * X i l).
Proof.
  intros Hn Hb H.
  assert (Hsq : forall i j, (i < n)%nat -> (j < n)%nat -> sqdist p (Y i) (Y j) = b * b * sqdist p (X i) (X j)).
  { intros i j Hi Hj. specialize (H i j Hi Hj). rewrite !dist_sqdist in H.
    rewrite <- (sqrt_sqrt (sqdist p (Y i) (Y j))), <- (sqrt_sqrt (sqdist p (X i) (X j))) by apply sqdist_nonneg.
    rewrite H. ring. }
  destruct (gram_orthogonal p n (fun i k => b * (X i k - X 0%nat k)) (fun i k => Y i k - Y 0%nat k)) as (Q & HQ & HY).
  { intros i j Hi Hj.
    assert (E1 := inner_sqdist p (Y i) (Y j) (Y 0%nat)). rewrite !Hsq in E1 by lia.
    assert (E2 := inner_sqdist p (X i) (X j) (X 0%nat)).
    replace (inner p (fun k => b * (X i k - X 0%nat k)) (fun k => b * (X j k - X 0%nat k)))
      with (b * b * inner p (fun k => X i k - X 0%nat k) (fun k => X j k - X 0%nat k)).
    2:{ unfold inner. rewrite <- rsum_scal_l. apply rsum_ext. intros. ring. }
    cbv beta in *. replace (b * b * inner p (fun k => X i k - X 0%nat k) (fun k => X j k - X 0%nat k))
      with (b * b * (2 * inner p (fun k => X i k - X 0%nat k) (fun k => X j k - X 0%nat k)) / 2) by field.
    rewrite E2.
    replace (inner p (fun k => Y i k - Y 0%nat k) (fun k => Y j k - Y 0%nat k))
      with (2 * inner p (fun k => Y i k - Y 0%nat k) (fun k => Y j k - Y 0%nat k) / 2) by field.
    rewrite E1. field. }
  exists (fun k => Y 0%nat k - b * rsum p (fun l => Q k l * X 0%nat l)), Q. split; auto.
  intros i k Hi Hk. specialize (HY i k Hi Hk). cbv beta in HY. unfold apply in HY.
  rewrite (rsum_ext p _ (fun l => b * (Q k l * X i l) - b * (Q k l * X 0%nat l))) in HY by (intros; ring).
  rewrite rsum_minus, !rsum_scal_l in HY. lra.
Qed.

(** A similarity multiplies the distances by the absolute value of its factor. *)
Lemma similar_dist p n X Y a b Q : orthogonal p Q ->
  (forall i k, (i < n)%nat -> (k < p)%nat -> Y i k = a k + b * rsum p (fun l => Q k l * X i l)) ->
  forall i j, (i < n)%nat -> (j < n)%nat -> dist p (Y i) (Y j) = Rabs b * dist p (X i) (X j).
Proof.
  intros HQ HY i j Hi Hj. unfold dist.
  rewrite (rsum_ext p (fun k => (Y i k - Y j k) ^ 2)
    (fun k => b² * (apply p Q (fun l => X i l - X j l) k * apply p Q (fun l => X i l - X j l) k))).
  2:{ intros k Hk. rewrite !HY by auto. unfold apply.
      rewrite (rsum_ext p (fun l => Q k l * (X i l - X j l)) (fun l => Q k l * X i l - Q k l * X j l)) by (intros; ring).
      rewrite rsum_minus. unfold Rsqr. ring. }
  rewrite rsum_scal_l. change (rsum p (fun k => ?a k * ?a k)) with (inner p a a).
  rewrite sqrt_mult_alt by apply Rle_0_sqr. rewrite sqrt_Rsqr_abs. f_equal. f_equal.
  etransitivity; [apply (inner_apply p Q (fun l => X i l - X j l) (fun l => X i l - X j l) HQ)|].
  unfold inner. apply rsum_ext. intros. ring.
Qed.

(** ** C82: correlation one is similarity *)
Lemma dcor_one_iff E x y n e m cm : valid_env E -> paired n x y -> 0 < e -> accepts m cm x y e ->
  (outcome (distance_correlation E x y e (MethodEnum m) cm) = Ok 1
   <-> outcome (distance_correlation_sqr E x y e (MethodEnum m) cm) = Ok 1).
Proof.
  intros HE Hp He Ha. pose proof Hp as (Hx & Hy & Nx & Ny & Hn).
  change (outcome (distance_correlation E x y e (MethodEnum m) cm)) with (call Dcor E x y e m cm).
  change (outcome (distance_correlation_sqr E x y e (MethodEnum m) cm)) with (call DcorSqr E x y e m cm).
  rewrite (call_ok Dcor E x y n), (call_ok DcorSqr E x y n) by auto. cbn [value].
  set (v := dcor2 _ _ _). split; intros H; injection H as H.
  - destruct (Rle_dec v 0) as [Hle|Hgt].
    + rewrite sqrt_neg_0 in H by lra. lra.
    + rewrite <- (sqrt_sqrt v) by lra. rewrite H. f_equal. ring.
  - rewrite H, sqrt_1. reflexivity.
Qed.

Theorem C82_one_similar E x y n p e m cm : valid_env E -> paired n x y -> ncols x = p -> ncols y = p -> 0 < e ->
  accepts m cm x y e ->
  outcome (distance_correlation E x y e (MethodEnum m) cm) = Ok 1 ->
  ~ constant x /\
  exists a b Q, 0 < b /\ orthogonal p Q /\
  forall i k, (i < n)%nat -> (k < p)%nat -> obs y i k = a k + b * rsum p (fun l => Q k l * obs x i l).
Proof.
  intros HE Hp Px Py He Ha H. pose proof Hp as (Hx & Hy & Nx & Ny & Hn).
  apply (dcor_one_iff E x y n) in H; auto. apply (C13_dcor_one_iff E x y n) in H; auto.
  destruct H as (Hc & _ & c & Hc0 & H). split; auto. unfold distances in H. rewrite Px, Py, Nx in H.
  destruct (proportional_dist e p n (obs x) (obs y) c He Hc0 H) as (b & Hb & Hd).
  destruct (proportional_similar p n (obs x) (obs y) b Hn Hb Hd) as (a & Q & HQ & HY).
  exists a, b, Q. auto.
Qed.

Theorem C82_similar_one E x y n p e m cm a b Q : valid_env E -> paired n x y -> ncols x = p -> ncols y = p -> 0 < e ->
  accepts m cm x y e -> ~ constant x -> b <> 0 -> orthogonal p Q ->
  (forall i k, (i < n)%nat -> (k < p)%nat -> obs y i k = a k + b * rsum p (fun l => Q k l * obs x i l)) ->
  outcome (distance_correlation E x y e (MethodEnum m) cm) = Ok 1.
Proof.
  intros HE Hp Px Py He Ha Hc Hb HQ HY. pose proof Hp as (Hx & Hy & Nx & Ny & Hn).
  pose proof (similar_dist p n (obs x) (obs y) a b Q HQ HY) as Hd.
  assert (Hb' : 0 < Rabs b) by (apply Rabs_pos_lt; auto).
  apply (dcor_one_iff E x y n); auto. apply (C13_dcor_one_iff E x y n); auto. split; [auto|split].
  - intros Hcy. apply Hc. intros i j Hi Hj. rewrite Nx in Hi, Hj. rewrite Px.
    assert (Hz : dist p (obs y i) (obs y j) = 0).
    { apply dist_zero_same. rewrite <- Py. apply Hcy; rewrite Ny; auto. }
    rewrite Hd in Hz by auto. apply dist_zero_same. apply Rmult_integral in Hz as [|]; lra.
  - exists (/ rpow (Rabs b) e). pose proof (rpow_pos (Rabs b) e Hb') as Hr.
    split; [apply Rinv_0_lt_compat; auto|]. intros i j Hi Hj. rewrite Nx in Hi, Hj.
    unfold distances, dmat. rewrite Px, Py, Hd by auto. rewrite rpow_mult by (try apply dist_nonneg; lra). field. lra.
Qed.

(** With one coordinate: distance correlation one exactly if [y] is a linear function of [x]. *)
Theorem C82_linear E x y n e m cm : valid_env E -> paired n x y -> univariate x -> univariate y -> 0 < e ->
  accepts m cm x y e ->
  (outcome (distance_correlation E x y e (MethodEnum m) cm) = Ok 1
   <-> ~ constant x /\ exists a b, b <> 0 /\ forall i, (i < n)%nat -> obs y i 0%nat = a + b * obs x i 0%nat).
Proof.
  intros HE Hp Ux Uy He Ha. split.
  - intros H. apply (C82_one_similar E x y n 1) in H; auto. destruct H as (Hc & a & b & Q & Hb & HQ & H). split; auto.
    specialize (HQ 0%nat 0%nat ltac:(lia) ltac:(lia)). cbn in HQ.
    exists (a 0%nat), (b * Q 0%nat 0%nat). split.
    + intros Hz. apply Rmult_integral in Hz as [Hz|Hz]; [lra|]. rewrite Hz in HQ. lra.
    + intros i Hi. rewrite H by (auto; lia). cbn. ring.
  - intros (Hc & a & b & Hb & H).
    apply (C82_similar_one E x y n 1 e m cm (fun _ => a) b (fun k l => if Nat.eqb k l then 1 else 0)); auto.
    + intros k l Hk Hl. assert (k = 0%nat) by lia. assert (l = 0%nat) by lia. subst. cbn. ring.
    + intros i k Hi Hk. assert (k = 0%nat) by lia. subst. rewrite H by auto. cbn. ring.
Qed.

(** A plane sample turned by a right angle, doubled and moved *)
Definition turned_x : array R := mkArr Numpy F64 (Mat 2 [[0; 0]; [1; 0]; [0; 2]]).
Definition turned_y : array R := mkArr Numpy F64 (Mat 2 [[5; 1]; [5; 3]; [1; 1]]).
Definition quarter (k l : nat) : R := match k, l with 0%nat, 1%nat => -1 | 1%nat, 0%nat => 1 | _, _ => 0 end.

Example C82_meets : paired 3 turned_x turned_y /\ ~ constant turned_x /\ orthogonal 2 quarter
  /\ outcome (distance_correlation (env_R true) turned_x turned_y 1 (MethodEnum MAuto) CAuto) = Ok 1.
Proof.
  assert (P : paired 3 turned_x turned_y).
  { unfold paired, wf; cbn. repeat split; auto; repeat constructor. }
  assert (C : ~ constant turned_x).
  { intros H. specialize (H 0%nat 1%nat ltac:(cbn; lia) ltac:(cbn; lia) 0%nat ltac:(cbn; lia)). cbn in H. lra. }
  assert (O : orthogonal 2 quarter).
  { intros k l Hk Hl. destruct k as [|[|k]]; [..|lia]; (destruct l as [|[|l]]; [..|lia]); cbn; ring. }
  repeat split; auto; try apply P.
  apply (C82_similar_one _ turned_x turned_y 3 2 1 MAuto CAuto (fun k => match k with 0%nat => 5 | _ => 1 end) 2 quarter);
    auto using env_R_valid, auto_accepts; try lra.
  intros i k Hi Hk. do 3 (destruct i; [destruct k as [|[|k]]; [..|lia]; cbn; ring|]). lia.
Qed.
