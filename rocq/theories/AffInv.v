(** Scaling by the inverse square root of a covariance matrix: the distances between scaled
    observations, without reference to the eigenvectors. *)
From Coq Require Import Reals Lra Lia List Arith Bool ZArith Psatz.
From Verif Require Import Num Numpy MUtils MInternals MDcor Sums Spec Tab Samples Api Centering.
Import ListNotations.
Local Open Scope R_scope.

Definition dot (p : nat) (u v : nat -> R) : R := rsum p (fun k => u k * v k).

Lemma dot_ext p u v u' v' : (forall k, (k < p)%nat -> u k = u' k) -> (forall k, (k < p)%nat -> v k = v' k) ->
  dot p u v = dot p u' v'.
Proof. intros. apply rsum_ext. intros. rewrite H, H0 by auto. reflexivity. Qed.
Lemma dot_comm p u v : dot p u v = dot p v u.
Proof. apply rsum_ext. intros. ring. Qed.
Lemma dot_comb_l p q (c : nat -> R) (W : nat -> nat -> R) v :
  dot p (fun k => rsum q (fun l => c l * W k l)) v = rsum q (fun l => c l * dot p (fun k => W k l) v).
Proof.
  unfold dot. rewrite (rsum_ext p _ (fun k => rsum q (fun l => c l * (W k l * v k)))).
  - rewrite rsum_swap. apply rsum_ext. intros. rewrite rsum_scal_l. reflexivity.
  - intros k Hk. rewrite Rmult_comm, <- rsum_scal_l. apply rsum_ext. intros. ring.
Qed.
Lemma dot_comb_r p q (c : nat -> R) (W : nat -> nat -> R) v :
  dot p v (fun k => rsum q (fun l => c l * W k l)) = rsum q (fun l => c l * dot p v (fun k => W k l)).
Proof. rewrite dot_comm, dot_comb_l. apply rsum_ext. intros. rewrite dot_comm. reflexivity. Qed.

(** The covariance matrix of [n] points with [p] coordinates. *)
Definition mean_coord (n : nat) (x : nat -> nat -> R) (k : nat) : R := rsum n (fun i => x i k) / INR n.
Definition covariance (n : nat) (x : nat -> nat -> R) (k l : nat) : R :=
  rsum n (fun i => (x i k - mean_coord n x k) * (x i l - mean_coord n x l)) / (INR n - 1).

Lemma covariance_sym n x k l : covariance n x k l = covariance n x l k.
Proof. unfold covariance. f_equal. apply rsum_ext. intros. ring. Qed.

(** What is assumed of [eigh] on the symmetric matrix [s]: an orthonormal basis of
    eigenvectors (the columns of [V]). *)
Definition eigen (p : nat) (s : nat -> nat -> R) (lam : nat -> R) (V : nat -> nat -> R) : Prop :=
  orthogonal p V /\ orthogonal p (fun i j => V j i) /\
  forall i j, (i < p)%nat -> (j < p)%nat -> s i j = rsum p (fun l => lam l * (V i l * V j l)).

Section Scaling.
  Context (n p : nat) (x : nat -> nat -> R) (lam : nat -> R) (V : nat -> nat -> R).
  Hypothesis Hn : (2 <= n)%nat.
  Let S0 := covariance n x.
  Hypothesis HV : eigen p S0 lam V.

  Let isq (l : nat) : R := if Rleb (lam l) 0 then 0 else 1 / sqrt (lam l).
  Let P (k j : nat) : R := rsum p (fun l => V k l * isq l * V j l).
  Let xc (i k : nat) : R := x i k - mean_coord n x k.

  Lemma INR_n1 : 0 < INR n - 1.
  Proof. pose proof (le_INR 2 n Hn) as H. cbn in H. lra. Qed.

  (** the columns of V are orthonormal *)
  Lemma col l m : (l < p)%nat -> (m < p)%nat ->
    dot p (fun k => V k l) (fun k => V k m) = if Nat.eqb l m then 1 else 0.
  Proof. intros. destruct HV as (HO & _). apply HO; auto. Qed.

  Lemma comb_col (c : nat -> R) l : (l < p)%nat ->
    dot p (fun k => V k l) (fun k => rsum p (fun m => c m * V k m)) = c l.
  Proof.
    intros Hl. rewrite dot_comb_r.
    rewrite (rsum_ext p _ (fun m => if Nat.eqb m l then c m else 0)).
    - apply rsum_delta. auto.
    - intros m Hm. rewrite col by auto. rewrite (Nat.eqb_sym l m). destruct (m =? l)%nat; ring.
  Qed.

  Lemma expand (d : nat -> R) k : (k < p)%nat ->
    rsum p (fun l => dot p d (fun k => V k l) * V k l) = d k.
  Proof.
    intros Hk. unfold dot.
    rewrite (rsum_ext p _ (fun l => rsum p (fun j => d j * (V j l * V k l)))).
    - rewrite rsum_swap. rewrite (rsum_ext p _ (fun j => if Nat.eqb j k then d j else 0)).
      + apply rsum_delta. auto.
      + intros j Hj. rewrite rsum_scal_l. destruct HV as (_ & HO & _).
        unfold orthogonal in HO. rewrite HO by auto. destruct (j =? k)%nat; ring.
    - intros l Hl. rewrite Rmult_comm, <- rsum_scal_l. apply rsum_ext. intros. ring.
  Qed.

  (** S v_l = lam_l v_l *)
  Lemma cov_col v i : (i < p)%nat ->
    rsum p (fun k => S0 i k * v k) = rsum p (fun l => lam l * dot p v (fun k => V k l) * V i l).
  Proof.
    intros Hi. destruct HV as (_ & _ & HS).
    rewrite (rsum_ext p _ (fun k => rsum p (fun l => (lam l * V i l) * (v k * V k l)))).
    - rewrite rsum_swap. apply rsum_ext. intros l Hl. rewrite rsum_scal_l. unfold dot. ring.
    - intros k Hk. rewrite HS by auto. rewrite Rmult_comm, <- rsum_scal_l. apply rsum_ext. intros. ring.
  Qed.

  Lemma lam_value l : (l < p)%nat ->
    lam l = rsum n (fun i => (dot p (xc i) (fun k => V k l))²) / (INR n - 1).
  Proof.
    intros Hl.
    transitivity (dot p (fun k => V k l) (fun i => rsum p (fun k => S0 i k * V k l))).
    - rewrite (dot_ext p _ _ (fun k => V k l) (fun k => rsum p (fun m => (if Nat.eqb m l then lam m else 0) * V k m))).
      + rewrite comb_col by auto. rewrite Nat.eqb_refl. reflexivity.
      + auto.
      + intros i Hi. rewrite (cov_col (fun k => V k l)) by auto. apply rsum_ext. intros m Hm.
        rewrite col by auto. rewrite (Nat.eqb_sym l m). destruct (m =? l)%nat; ring.
    - unfold dot, Rdiv. rewrite Rmult_comm, <- rsum_scal_l.
      rewrite (rsum_ext p _ (fun i => rsum p (fun k => rsum n (fun a => / (INR n - 1) * ((xc a i * V i l) * (xc a k * V k l)))))).
      + rewrite (rsum_ext p _ (fun i => rsum n (fun a => / (INR n - 1) * ((xc a i * V i l) * dot p (xc a) (fun k => V k l))))).
        * rewrite rsum_swap. apply rsum_ext. intros a Ha. rewrite rsum_scal_l. f_equal.
          unfold Rsqr, dot. rewrite <- rsum_scal_l at 1.
          rewrite (rsum_ext p _ (fun i => (rsum p (fun k => xc a k * V k l)) * (xc a i * V i l))) by (intros; ring).
          reflexivity.
        * intros i Hi. rewrite rsum_swap. apply rsum_ext. intros a Ha. rewrite rsum_scal_l. f_equal.
          rewrite rsum_scal_l. reflexivity.
      + intros i Hi. rewrite <- rsum_scal_l. apply rsum_ext. intros k Hk. unfold S0, covariance, Rdiv.
        transitivity (/ (INR n - 1) * (V i l * V k l) * rsum n (fun a => xc a i * xc a k)); [unfold xc; ring|].
        rewrite <- rsum_scal_l. apply rsum_ext. intros. ring.
  Qed.

  Lemma lam_nonneg l : (l < p)%nat -> 0 <= lam l.
  Proof.
    intros Hl. rewrite lam_value by auto. pose proof INR_n1.
    apply Rmult_le_pos; [apply rsum_nonneg; intros; apply Rle_0_sqr|]. left. apply Rinv_0_lt_compat. auto.
  Qed.

  Context (i j : nat).
  Hypothesis (Hi : (i < n)%nat) (Hj : (j < n)%nat).
  Let d (k : nat) : R := x i k - x j k.

  (** the components of a difference of observations along the null space vanish *)
  Lemma null_component l : (l < p)%nat -> lam l <= 0 -> dot p d (fun k => V k l) = 0.
  Proof.
    intros Hl H0. pose proof INR_n1 as HN. pose proof (lam_nonneg l Hl).
    assert (Hz : rsum n (fun i => (dot p (xc i) (fun k => V k l))²) = 0).
    { assert (E : lam l = 0) by lra. rewrite lam_value in E by auto. unfold Rdiv in E.
      apply Rmult_integral in E. destruct E as [E|E]; auto.
      pose proof (Rinv_0_lt_compat _ HN). lra. }
    assert (Hall : forall a, (a < n)%nat -> dot p (xc a) (fun k => V k l) = 0).
    { intros a Ha. apply Rsqr_eq_0. apply (rsum_zero_all n (fun i => (dot p (xc i) (fun k => V k l))²)); auto.
      intros; apply Rle_0_sqr. }
    transitivity (dot p (xc i) (fun k => V k l) - dot p (xc j) (fun k => V k l)).
    - unfold dot. rewrite <- rsum_minus. apply rsum_ext. intros. unfold d, xc. ring.
    - rewrite !Hall by auto. ring.
  Qed.

  Lemma isq_sqr l : (l < p)%nat -> isq l * isq l * lam l * dot p d (fun k => V k l) = dot p d (fun k => V k l).
  Proof.
    intros Hl. unfold isq. destruct (Rleb_spec (lam l) 0) as [H|H].
    - rewrite null_component by auto. ring.
    - pose proof (sqrt_lt_R0 (lam l) ltac:(lra)).
      assert (1 / sqrt (lam l) * (1 / sqrt (lam l)) * lam l = 1) as ->; [|ring].
      rewrite <- (sqrt_sqrt (lam l)) at 3 by lra. field. lra.
  Qed.

  (** The vector [w] with [S w = d]. *)
  Let w (k : nat) : R := rsum p (fun l => (isq l * isq l * dot p d (fun k => V k l)) * V k l).

  Lemma solves_w k : (k < p)%nat -> rsum p (fun l => S0 k l * w l) = d k.
  Proof.
    intros Hk. rewrite cov_col by auto. rewrite <- (expand d k) by auto. apply rsum_ext. intros l Hl.
    f_equal. rewrite dot_comm. unfold w.
    rewrite (comb_col (fun l => isq l * isq l * dot p d (fun k => V k l))) by auto.
    rewrite <- (isq_sqr l) at 2 by auto. ring.
  Qed.

  (** The squared length of the scaled difference. *)
  Lemma scaled_length :
    rsum p (fun c => (rsum p (fun k => x i k * P k c) - rsum p (fun k => x j k * P k c))²) = dot p w d.
  Proof.
    set (comp := fun l => isq l * dot p d (fun k => V k l)).
    rewrite (rsum_ext p _ (fun c => rsum p (fun l => comp l * V c l) * rsum p (fun l => comp l * V c l))).
    - change (dot p (fun c => rsum p (fun l => comp l * V c l)) (fun c => rsum p (fun l => comp l * V c l)) = dot p w d).
      rewrite dot_comb_l. unfold w. rewrite dot_comb_l. apply rsum_ext. intros l Hl.
      rewrite comb_col by auto. unfold comp. rewrite (dot_comm p (fun k => V k l) d). ring.
    - intros c Hc. unfold Rsqr.
      assert (rsum p (fun k => x i k * P k c) - rsum p (fun k => x j k * P k c) = rsum p (fun l => comp l * V c l)) as ->; auto.
      rewrite <- rsum_minus. rewrite (rsum_ext p _ (fun k => rsum p (fun l => (isq l * V c l) * (d k * V k l)))).
      + rewrite rsum_swap. apply rsum_ext. intros l Hl. rewrite rsum_scal_l. unfold comp, dot. ring.
      + intros k Hk. unfold P, d. rewrite <- !rsum_scal_l, <- rsum_minus. apply rsum_ext. intros. ring.
  Qed.

  (** Any solution gives the same value. *)
  Lemma quad_unique u : (forall k, (k < p)%nat -> rsum p (fun l => S0 k l * u l) = d k) -> dot p u d = dot p w d.
  Proof.
    intros Hu.
    rewrite (dot_ext p u d u (fun k => rsum p (fun l => w l * S0 k l))); auto.
    2:{ intros k Hk. rewrite <- solves_w by auto. apply rsum_ext. intros. ring. }
    rewrite dot_comb_r. apply rsum_ext. intros l Hl. f_equal. rewrite <- (Hu l Hl). unfold dot.
    apply rsum_ext. intros k Hk. unfold S0. rewrite covariance_sym. ring.
  Qed.

  Theorem scaled_length_any u : (forall k, (k < p)%nat -> rsum p (fun l => S0 k l * u l) = d k) ->
    rsum p (fun c => (rsum p (fun k => x i k * P k c) - rsum p (fun k => x j k * P k c))²) = dot p u d.
  Proof. intros Hu. rewrite (quad_unique u Hu). apply scaled_length. Qed.

  Theorem solution_exists : exists u, forall k, (k < p)%nat -> rsum p (fun l => S0 k l * u l) = d k.
  Proof. exists w. apply solves_w. Qed.
End Scaling.

(** ** An affine change of coordinates *)

Section Change.
  Context (n p q : nat) (x x' : nat -> nat -> R) (A B : nat -> nat -> R) (b : nat -> R).
  Hypothesis Hn : (2 <= n)%nat.
  Hypothesis Hx : forall i k, (i < n)%nat -> (k < q)%nat -> x' i k = rsum p (fun l => x i l * A l k) + b k.
  Hypothesis HB : forall l m, (l < p)%nat -> (m < p)%nat ->
    rsum q (fun k => A l k * B k m) = if Nat.eqb l m then 1 else 0.

  Lemma mean_change k : (k < q)%nat ->
    mean_coord n x' k = rsum p (fun l => mean_coord n x l * A l k) + b k.
  Proof.
    intros Hk. pose proof (INR_n1 n Hn). unfold mean_coord.
    rewrite (rsum_ext n _ (fun i => rsum p (fun l => x i l * A l k) + b k)) by (intros; apply Hx; auto).
    rewrite rsum_plus, rsum_const, rsum_swap. unfold Rdiv. rewrite Rmult_plus_distr_r. f_equal.
    - rewrite Rmult_comm, <- rsum_scal_l. apply rsum_ext. intros l Hl.
      rewrite (Rmult_comm (rsum n _ * _) (A l k)), <- Rmult_assoc, (Rmult_comm (A l k)).
      rewrite (rsum_ext n _ (fun i => A l k * x i l)) by (intros; ring). rewrite rsum_scal_l. ring.
    - field. lra.
  Qed.

  Lemma change_centred i k : (i < n)%nat -> (k < q)%nat ->
    x' i k - mean_coord n x' k = rsum p (fun l => (x i l - mean_coord n x l) * A l k).
  Proof.
    intros Hi Hk. rewrite mean_change, Hx by auto.
    transitivity (rsum p (fun l => x i l * A l k) - rsum p (fun l => mean_coord n x l * A l k)); [ring|].
    rewrite <- rsum_minus. apply rsum_ext. intros. ring.
  Qed.

  (** S' (B u) = A^T (S u) *)
  Lemma cov_change u k : (k < q)%nat ->
    rsum q (fun l => covariance n x' k l * rsum p (fun m => B l m * u m)) =
    rsum p (fun a => A a k * rsum p (fun m => covariance n x a m * u m)).
  Proof.
    intros Hk.
    set (g := fun i => rsum p (fun m => (x i m - mean_coord n x m) * u m)).
    assert (HL : forall i, (i < n)%nat ->
      rsum q (fun l => (x' i l - mean_coord n x' l) * rsum p (fun m => B l m * u m)) = g i).
    { intros i Hi.
      rewrite (rsum_ext q _ (fun l => rsum p (fun a => (x i a - mean_coord n x a) * (A a l * rsum p (fun m => B l m * u m))))).
      - rewrite rsum_swap. apply rsum_ext. intros a Ha. rewrite rsum_scal_l. f_equal.
        rewrite (rsum_ext q _ (fun l => rsum p (fun m => u m * (A a l * B l m)))).
        + rewrite rsum_swap. rewrite (rsum_ext p _ (fun m => if Nat.eqb m a then u m else 0)).
          * apply rsum_delta. auto.
          * intros m Hm. rewrite rsum_scal_l, HB by auto. rewrite Nat.eqb_sym. destruct (m =? a)%nat; ring.
        + intros l Hl. rewrite <- rsum_scal_l. apply rsum_ext. intros. ring.
      - intros l Hl. rewrite change_centred by auto. rewrite Rmult_comm, <- rsum_scal_l. apply rsum_ext. intros. ring. }
    transitivity (rsum n (fun i => (x' i k - mean_coord n x' k) * g i) / (INR n - 1)).
    - unfold covariance, Rdiv.
      rewrite (rsum_ext q _ (fun l => rsum n (fun i => / (INR n - 1) * ((x' i k - mean_coord n x' k) *
        ((x' i l - mean_coord n x' l) * rsum p (fun m => B l m * u m)))))).
      + rewrite rsum_swap. rewrite (Rmult_comm (rsum n _)), <- rsum_scal_l. apply rsum_ext. intros i Hi.
        rewrite rsum_scal_l. f_equal. rewrite rsum_scal_l, HL by auto. reflexivity.
      + intros l Hl. rewrite Rmult_assoc, Rmult_comm, <- rsum_scal_l. apply rsum_ext. intros. ring.
    - unfold covariance, Rdiv, g.
      rewrite Rmult_comm, <- rsum_scal_l.
      rewrite (rsum_ext n _ (fun i => rsum p (fun a => A a k * ((/ (INR n - 1)) * ((x i a - mean_coord n x a) *
        rsum p (fun m => (x i m - mean_coord n x m) * u m)))))).
      + rewrite rsum_swap. apply rsum_ext. intros a Ha. rewrite rsum_scal_l. f_equal.
        rewrite (rsum_ext n _ (fun i => rsum p (fun m => (/ (INR n - 1)) * ((x i a - mean_coord n x a) * ((x i m - mean_coord n x m) * u m))))).
        * rewrite rsum_swap. apply rsum_ext. intros m Hm. rewrite rsum_scal_l.
          rewrite (rsum_ext n _ (fun i => u m * ((x i a - mean_coord n x a) * (x i m - mean_coord n x m)))) by (intros; ring).
          rewrite rsum_scal_l. ring.
        * intros i Hi. rewrite <- !rsum_scal_l. reflexivity.
      + intros i Hi. rewrite change_centred by auto.
        rewrite <- Rmult_assoc, (Rmult_comm (/ _)), Rmult_assoc, Rmult_comm, <- rsum_scal_l. apply rsum_ext. intros. ring.
  Qed.

  Lemma quad_change u i j : (i < n)%nat -> (j < n)%nat ->
    (forall k, (k < p)%nat -> rsum p (fun l => covariance n x k l * u l) = x i k - x j k) ->
    (forall k, (k < q)%nat -> rsum q (fun l => covariance n x' k l * rsum p (fun m => B l m * u m)) = x' i k - x' j k)
    /\ dot q (fun l => rsum p (fun m => B l m * u m)) (fun k => x' i k - x' j k) = dot p u (fun k => x i k - x j k).
  Proof.
    intros Hi Hj Hu.
    assert (Hd : forall k, (k < q)%nat -> x' i k - x' j k = rsum p (fun a => A a k * (x i a - x j a))).
    { intros k Hk. rewrite !Hx by auto.
      transitivity (rsum p (fun l => x i l * A l k) - rsum p (fun l => x j l * A l k)); [ring|].
      rewrite <- rsum_minus. apply rsum_ext. intros. ring. }
    split.
    - intros k Hk. rewrite cov_change, Hd by auto. apply rsum_ext. intros a Ha. rewrite Hu by auto. reflexivity.
    - rewrite (dot_ext q _ (fun k => x' i k - x' j k) (fun l => rsum p (fun m => u m * B l m))
                (fun k => rsum p (fun a => (x i a - x j a) * A a k))).
      + rewrite dot_comb_l. apply rsum_ext. intros m Hm. f_equal. rewrite dot_comb_r.
        rewrite (rsum_ext p _ (fun a => if Nat.eqb a m then x i a - x j a else 0)).
        * apply (rsum_delta p m (fun a => x i a - x j a)). auto.
        * intros a Ha. unfold dot. rewrite (rsum_ext q _ (fun k => A a k * B k m)) by (intros; ring).
          rewrite HB by auto. destruct (a =? m)%nat; ring.
      + intros. apply rsum_ext. intros. ring.
      + intros k Hk. rewrite Hd by auto. apply rsum_ext. intros. ring.
  Qed.
End Change.
