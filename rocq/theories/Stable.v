(** The integral of (1 - cos (u t)) / t^(1 + e) over the positive numbers is a positive multiple of |u|^e, for 0 < e < 2. *)
From Coq Require Import Reals Lra Lia Arith.
From Coquelicot Require Import Coquelicot.
From Verif Require Import Sums Spec RefDist SpecFacts Fejer.
Local Open Scope R_scope.

Definition bump_e (e t : R) : R := (1 - cos t) / exp ((1 + e) * ln t).
Definition wave_e (e u t : R) : R := (1 - cos (u * t)) / exp ((1 + e) * ln t).

Section Exponent.
  Context (e : R).
  Hypothesis He : 0 < e < 2.

  Lemma bump_e_continuous t : 0 < t -> continuous (bump_e e) t.
  Proof.
    intros H. apply (ex_derive_continuous (bump_e e)). unfold bump_e. auto_derive. split; auto.
    split; auto. apply Rgt_not_eq, exp_pos.
  Qed.
  Lemma bump_e_ex a b : 0 < a -> a <= b -> ex_RInt (bump_e e) a b.
  Proof.
    intros Ha Hab. apply (ex_RInt_continuous (V := R_CompleteNormedModule) (bump_e e)). intros t Ht.
    rewrite Rmin_left, Rmax_right in Ht by lra. apply bump_e_continuous. lra.
  Qed.
  Lemma bump_e_nonneg t : 0 <= bump_e e t.
  Proof. unfold bump_e. apply Rdiv_le_0_compat; [pose proof (COS_bound t); lra|apply exp_pos]. Qed.

  Lemma power_int k a b : k <> 0 -> 0 < a -> a <= b -> is_RInt (fun t => exp ((k - 1) * ln t)) a b (exp (k * ln b) / k - exp (k * ln a) / k).
  Proof.
    intros Hk Ha Hab. apply (is_RInt_derive (V := R_CompleteNormedModule) (fun t => exp (k * ln t) / k)).
    - intros t Ht. rewrite Rmin_left, Rmax_right in Ht by lra. auto_derive; [lra|].
      replace ((k - 1) * ln t) with (k * ln t + - ln t) by ring. rewrite exp_plus, exp_Ropp, exp_ln by lra. field. lra.
    - intros t Ht. rewrite Rmin_left, Rmax_right in Ht by lra.
      apply (ex_derive_continuous (fun t => exp ((k - 1) * ln t))). auto_derive. lra.
  Qed.

  Lemma bump_e_near a I : 0 < a <= 1 -> is_RInt (bump_e e) a 1 I -> I <= / (2 * (2 - e)).
  Proof.
    intros Ha HI. pose proof (power_int (2 - e) a 1 ltac:(lra) ltac:(lra) ltac:(lra)) as H.
    apply (is_RInt_scal_R _ (/ 2)) in H.
    apply Rle_trans with (/ 2 * (exp ((2 - e) * ln 1) / (2 - e) - exp ((2 - e) * ln a) / (2 - e))).
    - apply (is_RInt_le (bump_e e) (fun t => / 2 * exp ((2 - e - 1) * ln t)) a 1); auto; [lra|]. intros t Ht.
      unfold bump_e. apply (Rmult_le_reg_r (exp ((1 + e) * ln t))); [apply exp_pos|].
      unfold Rdiv at 1. rewrite Rmult_assoc, Rinv_l, Rmult_1_r by (apply Rgt_not_eq, exp_pos).
      rewrite Rmult_assoc, <- exp_plus. replace ((2 - e - 1) * ln t + (1 + e) * ln t) with (ln t + ln t) by ring.
      rewrite exp_plus, exp_ln by lra. rewrite one_minus_cos.
      assert (sin (t / 2) <= t / 2) by (apply sin_below; lra). pose proof PI2_3_2.
      assert (0 <= sin (t / 2)) by (apply sin_ge_0; lra).
      assert (sin (t / 2) * sin (t / 2) <= t / 2 * (t / 2)) by (apply Rmult_le_compat; lra). lra.
    - rewrite ln_1, Rmult_0_r, exp_0. assert (0 < exp ((2 - e) * ln a) / (2 - e)) by (apply Rdiv_lt_0_compat; [apply exp_pos|lra]).
      rewrite Rinv_mult. unfold Rdiv in *. lra.
  Qed.
  Lemma bump_e_far b I : 1 <= b -> is_RInt (bump_e e) 1 b I -> I <= 2 / e.
  Proof.
    intros Hb HI. pose proof (power_int (- e) 1 b ltac:(lra) ltac:(lra) ltac:(lra)) as H.
    apply (is_RInt_scal_R _ 2) in H.
    apply Rle_trans with (2 * (exp (- e * ln b) / - e - exp (- e * ln 1) / - e)).
    - apply (is_RInt_le (bump_e e) (fun t => 2 * exp ((- e - 1) * ln t)) 1 b); auto. intros t Ht.
      unfold bump_e. replace ((- e - 1) * ln t) with (- ((1 + e) * ln t)) by ring. rewrite exp_Ropp.
      apply Rmult_le_compat_r; [left; apply Rinv_0_lt_compat, exp_pos|]. pose proof (COS_bound t). lra.
    - rewrite ln_1, Rmult_0_r, exp_0. assert (0 < exp (- e * ln b) / e) by (apply Rdiv_lt_0_compat; [apply exp_pos|lra]).
      replace (exp (- e * ln b) / - e) with (- (exp (- e * ln b) / e)) by (field; lra).
      replace (1 / - e) with (- (1 / e)) by (field; lra). unfold Rdiv in *. lra.
  Qed.

  Let G (a b : R) : R := RInt (bump_e e) a b.
  Lemma G_int a b : 0 < a -> a <= b -> is_RInt (bump_e e) a b (G a b).
  Proof. intros. apply (RInt_correct (V := R_CompleteNormedModule)). apply bump_e_ex; auto. Qed.
  Lemma G_nonneg a b : 0 < a -> a <= b -> 0 <= G a b.
  Proof. intros. apply RInt_ge_0; auto; [apply bump_e_ex; auto|]. intros. apply bump_e_nonneg. Qed.
  Lemma G_chasles a b c : 0 < a -> a <= b -> b <= c -> G a c = G a b + G b c.
  Proof.
    intros. unfold G. symmetry. apply (RInt_Chasles (V := R_CompleteNormedModule)); apply bump_e_ex; lra.
  Qed.
  Lemma G_mono a a' b b' : 0 < a' -> a' <= a -> a <= b -> b <= b' -> G a b <= G a' b'.
  Proof.
    intros. rewrite (G_chasles a' a b'), (G_chasles a b b') by lra.
    pose proof (G_nonneg a' a ltac:(lra) ltac:(lra)). pose proof (G_nonneg b b' ltac:(lra) ltac:(lra)). lra.
  Qed.
  Lemma G_bound a b : 0 < a -> a <= b -> G a b <= / (2 * (2 - e)) + 2 / e.
  Proof.
    intros Ha Hab. pose proof (Rmin_l a 1). pose proof (Rmin_r a 1). pose proof (Rmax_l b 1). pose proof (Rmax_r b 1).
    assert (0 < Rmin a 1) by (apply Rmin_pos; lra).
    apply Rle_trans with (G (Rmin a 1) (Rmax b 1)); [apply G_mono; lra|]. rewrite (G_chasles _ 1) by lra.
    apply Rplus_le_compat; [apply (bump_e_near (Rmin a 1)); [lra|apply G_int; lra]|apply (bump_e_far (Rmax b 1)); [lra|apply G_int; lra]].
  Qed.

  Lemma bump_e_limit : exists c, 0 < c /\ forall eps, 0 < eps -> exists d M, 0 < d /\ d < M /\
    forall a b, 0 < a -> a < d -> M < b -> c - eps < G a b <= c.
  Proof.
    destruct (completeness (fun v => exists a b, 0 < a /\ a <= b /\ v = G a b)) as (c & Hub & Hlub).
    - exists (/ (2 * (2 - e)) + 2 / e). intros v (a & b & Ha & Hab & ->). apply G_bound; auto.
    - exists (G 1 2). exists 1, 2. split; [lra|split; [lra|reflexivity]].
    - exists c. split.
      + apply Rlt_le_trans with (G 1 2); [|apply Hub; exists 1, 2; split; [lra|split; [lra|reflexivity]]].
        apply RInt_gt_0; [lra| |intros; apply bump_e_continuous; lra]. intros t Ht. unfold bump_e. apply Rdiv_lt_0_compat; [|apply exp_pos].
        rewrite one_minus_cos. pose proof PI2_3_2. assert (0 < sin (t / 2)) by (apply sin_gt_0; lra).
        apply Rmult_lt_0_compat; [lra|]. apply Rmult_lt_0_compat; auto.
      + intros eps Heps.
        destruct (Classical_Prop.classic (exists a b, 0 < a /\ a <= b /\ c - eps < G a b)) as [(d & M & Hd & HdM & HG)|Hno].
        * exists d, (M + 1). split; [auto|split; [lra|]]. intros a b Ha Had HMb. split.
          -- eapply Rlt_le_trans; [exact HG|]. apply G_mono; lra.
          -- apply Hub. exists a, b. split; [auto|split; [lra|reflexivity]].
        * exfalso. assert (c <= c - eps); [|lra]. apply Hlub. intros v (a & b & Ha & Hab & ->).
          destruct (Rle_lt_dec (G a b) (c - eps)); auto. exfalso. apply Hno. exists a, b. auto.
  Qed.

  (** Scaling *)
  Lemma wave_e_int u a b : u <> 0 -> 0 < a -> a <= b -> is_RInt (wave_e e u) a b (rpow (Rabs u) e * G (Rabs u * a) (Rabs u * b)).
  Proof.
    intros Hu Ha Hab. set (k := Rabs u). assert (Hk : 0 < k) by (apply Rabs_pos_lt; auto).
    assert (k * a <= k * b) by (apply Rmult_le_compat_l; lra). assert (0 < k * a) by (apply Rmult_lt_0_compat; auto).
    pose proof (G_int (k * a) (k * b) ltac:(auto) ltac:(auto)) as HG.
    assert (HG' : is_RInt (bump_e e) (k * a + 0) (k * b + 0) (G (k * a) (k * b))) by (rewrite !Rplus_0_r; exact HG).
    pose proof (is_RInt_comp_lin (V := R_NormedModule) (bump_e e) k 0 a b _ HG') as H1.
    apply (is_RInt_scal_R _ (rpow k e)) in H1. unfold scal in H1; cbn in H1; unfold mult in H1; cbn in H1.
    eapply is_RInt_ext; [|exact H1]. intros t Ht. rewrite Rmin_left, Rmax_right in Ht by auto.
    change (@eq R (rpow k e * (k * bump_e e (k * t + 0))) (wave_e e u t)). rewrite Rplus_0_r. unfold bump_e, wave_e.
    assert (E : cos (k * t) = cos (u * t)).
    { unfold k, Rabs. destruct (Rcase_abs u); [|reflexivity]. replace (- u * t) with (- (u * t)) by ring. apply cos_neg. }
    rewrite E. unfold rpow. destruct (Rle_dec k 0); [lra|].
    rewrite ln_mult by lra. replace ((1 + e) * (ln k + ln t)) with (e * ln k + (ln k + (1 + e) * ln t)) by ring.
    rewrite !exp_plus, exp_ln by auto. field. pose proof (exp_pos (e * ln k)). pose proof (exp_pos ((1 + e) * ln t)). repeat split; lra.
  Qed.

  Theorem wave_e_integral : exists c, 0 < c /\ forall u, is_RInt_gen (wave_e e u) (at_right 0) (Rbar_locally p_infty) (c * rpow (Rabs u) e).
  Proof.
    destruct bump_e_limit as (c & Hc & HG). exists c. split; auto. intros u P [eps HP]. pose proof (cond_pos eps) as Heps.
    destruct (Req_dec u 0) as [->|Hu].
    - apply (Filter_prod _ _ _ (fun _ => True) (fun _ => True)); [apply filter_true|apply filter_true|].
      intros a b _ _. cbn [fst snd]. exists 0. split.
      + apply (is_RInt_ext (V := R_NormedModule) (fun _ => 0 * 1));
          [intros t _; change (@eq R (0 * 1) (wave_e e 0 t)); unfold wave_e; rewrite (Rmult_0_l t), cos_0; unfold Rdiv; ring|].
        pose proof (is_RInt_scal_R (fun _ => 1) 0 a b (b - a) (is_RInt_one a b)) as H0. rewrite Rmult_0_l in H0. exact H0.
      + apply HP. rewrite Rabs_R0, rpow_0, Rmult_0_r. apply ball_center.
    - set (k := Rabs u). assert (Hk : 0 < k) by (apply Rabs_pos_lt; auto). assert (Hr : 0 < rpow k e) by (apply rpow_pos; auto).
      destruct (HG (eps / rpow k e)) as (d & M & Hd & HdM & HB); [apply Rdiv_lt_0_compat; auto|].
      apply (Filter_prod _ _ _ (fun a => 0 < a /\ a < d / k) (fun b => M / k < b)).
      + assert (Hdk : 0 < d / k) by (apply Rdiv_lt_0_compat; auto).
        exists (mkposreal _ Hdk). intros a Ha Hpos. cbn in Ha. unfold ball in Ha; cbn in Ha. unfold AbsRing_ball, abs, minus, plus, opp in Ha; cbn in Ha.
        rewrite Ropp_0, Rplus_0_r, Rabs_pos_eq in Ha by lra. split; auto.
      + exists (M / k). auto.
      + intros a b (Ha & Had) Hb. cbn [fst snd].
        assert (Hka : k * a < d) by (apply (Rmult_lt_compat_l k) in Had; auto; replace (k * (d / k)) with d in Had by (field; lra); auto).
        assert (Hkb : M < k * b) by (apply (Rmult_lt_compat_l k) in Hb; auto; replace (k * (M / k)) with M in Hb by (field; lra); auto).
        assert (Hab : a <= b) by (apply (Rmult_le_reg_l k); lra).
        exists (rpow k e * G (k * a) (k * b)). split; [apply wave_e_int; auto|]. apply HP.
        specialize (HB (k * a) (k * b) ltac:(apply Rmult_lt_0_compat; auto) Hka Hkb).
        change (Rabs (rpow k e * G (k * a) (k * b) - c * rpow k e) < eps).
        replace (rpow k e * G (k * a) (k * b) - c * rpow k e) with (- (rpow k e * (c - G (k * a) (k * b)))) by ring.
        rewrite Rabs_Ropp, Rabs_pos_eq by (apply Rmult_le_pos; lra).
        apply Rlt_le_trans with (rpow k e * (eps / rpow k e)); [apply Rmult_lt_compat_l; lra|]. right. field. lra.
  Qed.
End Exponent.
