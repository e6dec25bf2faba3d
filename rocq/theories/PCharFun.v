(** C85: for samples of numbers and exponent 1 the statistics are the weighted distances between characteristic functions by which
    docs/theory.rst:10-36 and 229-250 define them: distance_covariance_sqr is the integral over the plane of
    |phi_xy(s,t) - phi_x(s) phi_y(t)|^2 / (c_1 c_1 s^2 t^2), and energy_distance the integral over the line of
    |phi_x(t) - phi_y(t)|^2 / (c_1 t^2), with c_1 = pi and the empirical characteristic functions.

    [C], [Cmod], [Cminus] and [Cmult] are Coquelicot's complex numbers. *)
From Coq Require Import Reals Lra Lia List Arith Bool ZArith.
From Coquelicot Require Import Coquelicot.
From Verif Require Import Num Numpy MUtils MDistances MInternals MDcor MEnergy Sums Spec Centering Tab Samples Api RefDist RefDcor
  Psd PowerKernel Nonneg SpecFacts RefApi Empirical EnergyMath PEmpirical Expect PUnbiased Consist PopMath PopIndep
  RefEnergy PEnergy PSubadd PCdf Fejer Witness.
Import ListNotations.
Local Open Scope R_scope.

(** ** Specification *)

(** The mean of e^(i t x) and of e^(i (s x + t y)) over the observations *)
Definition charfun (n : nat) (x : nat -> R) (t : R) : C :=
  (rsum n (fun i => cos (t * x i)) / INR n, rsum n (fun i => sin (t * x i)) / INR n).
Definition joint_charfun (n : nat) (x y : nat -> R) (s t : R) : C :=
  (rsum n (fun i => cos (s * x i + t * y i)) / INR n, rsum n (fun i => sin (s * x i + t * y i)) / INR n).

(** [v] is the improper Riemann integral of [f] over the line without the origin: the limit of the integral over
    -b < t < -a and a < t < b when a falls to 0 and b grows to infinity. (For the functions below, which are not negative, there
    is no other meaning the integral could have.) *)
Definition line_integral (f : R -> R) (v : R) : Prop :=
  is_RInt_gen (fun t => f t + f (- t)) (at_right 0) (Rbar_locally p_infty) v.

(** ** Integrals over the half line *)
Definition half (f : R -> R) (v : R) : Prop := is_RInt_gen f (at_right 0) (Rbar_locally p_infty) v.

Lemma half_ext f g v : (forall t, 0 < t -> f t = g t) -> half f v -> half g v.
Proof.
  intros H. unfold half. apply (is_RInt_gen_ext (V := R_NormedModule)).
  apply (Filter_prod _ _ _ (fun a => 0 < a) (fun b => 0 < b)).
  - exists (mkposreal 1 Rlt_0_1). intros a _ Ha. exact Ha.
  - exists 0. auto.
  - intros a b Ha Hb t [Ht _]. cbn [fst snd] in Ht. apply H. eapply Rlt_trans; [|exact Ht]. apply Rmin_pos; auto.
Qed.
Lemma half_plus f g u v : half f u -> half g v -> half (fun t => f t + g t) (u + v).
Proof. exact (is_RInt_gen_plus (V := R_NormedModule) f g u v). Qed.
Lemma half_scal f k v : half f v -> half (fun t => k * f t) (k * v).
Proof. exact (is_RInt_gen_scal (V := R_NormedModule) f k v). Qed.
Lemma half_zero : half (fun _ => 0) 0.
Proof.
  apply (half_ext (fun t => 0 * wave 0 t)); [intros; ring|]. pose proof (half_scal (wave 0) 0 _ (wave_integral 0)) as H.
  rewrite Rmult_0_l in H. exact H.
Qed.
Lemma half_rsum n (f : nat -> R -> R) v : (forall k, (k < n)%nat -> half (f k) (v k)) -> half (fun t => rsum n (fun k => f k t)) (rsum n v).
Proof.
  induction n as [|n IH]; intros H; cbn [rsum]; [apply half_zero|]. apply half_plus; [apply IH; intros; apply H; lia|apply H; lia].
Qed.

(** A form in waves *)
Lemma half_form M (w d : nat -> nat -> R) :
  half (fun t => rsum2 M M (fun k l => w k l * wave (d k l) t)) (PI / 2 * rsum2 M M (fun k l => w k l * Rabs (d k l))).
Proof.
  unfold rsum2. rewrite <- rsum_scal_l. apply half_rsum. intros k Hk. rewrite <- rsum_scal_l. apply half_rsum. intros l Hl.
  replace (PI / 2 * (w k l * Rabs (d k l))) with (w k l * (PI / 2 * Rabs (d k l))) by ring. apply half_scal. apply wave_integral.
Qed.

(** ** Squared moduli *)
Lemma Cmod_square a b : Cmod (a, b) ^ 2 = a * a + b * b.
Proof.
  unfold Cmod. cbn [fst snd]. assert (0 <= a ^ 2 + b ^ 2) by (pose proof (pow2_ge_0 a); pose proof (pow2_ge_0 b); lra).
  replace (sqrt (a ^ 2 + b ^ 2) ^ 2) with (sqrt (a ^ 2 + b ^ 2) * sqrt (a ^ 2 + b ^ 2)) by ring. rewrite sqrt_sqrt by auto. ring.
Qed.

Lemma modulus_form M (c th : nat -> R) :
  Cmod (rsum M (fun k => c k * cos (th k)), rsum M (fun k => c k * sin (th k))) ^ 2
  = rsum2 M M (fun k l => c k * c l * cos (th k - th l)).
Proof.
  rewrite Cmod_square, !rsum_mult, <- rsum2_plus. apply rsum2_ext. intros k l _ _. rewrite cos_minus. ring.
Qed.

(** ** Energy distance *)
Section Energy.
  Context (n m : nat) (x y : nat -> R).
  Hypothesis (Hn : (1 <= n)%nat) (Hm : (1 <= m)%nat).

  (** The points of both samples with signed weights *)
  Let c (k : nat) : R := if Nat.ltb k n then / INR n else - / INR m.
  Let z (k : nat) : R := if Nat.ltb k n then x k else y (k - n)%nat.

  Lemma signed_sum (g : R -> R) : rsum (n + m) (fun k => c k * g (z k)) = rsum n (fun i => g (x i)) / INR n - rsum m (fun j => g (y j)) / INR m.
  Proof.
    rewrite rsum_app. unfold c, z.
    rewrite (rsum_ext n _ (fun i => / INR n * g (x i))) by (intros i Hi; destruct (Nat.ltb_spec i n); [reflexivity|lia]).
    rewrite (rsum_ext m _ (fun j => - / INR m * g (y j))).
    2:{ intros j Hj. destruct (Nat.ltb_spec (n + j) n); [lia|]. replace (n + j - n)%nat with j by lia. reflexivity. }
    rewrite !rsum_scal_l. unfold Rdiv. ring.
  Qed.

  Lemma signed_zero : rsum (n + m) c = 0.
  Proof.
    pose proof (INR_pos n Hn). pose proof (INR_pos m Hm). pose proof (signed_sum (fun _ => 1)) as H1. cbv beta in H1. rewrite !rsum_const in H1.
    rewrite (rsum_ext _ c (fun k => c k * 1)) by (intros; ring). rewrite H1. field. lra.
  Qed.

  Lemma signed_form (g : R -> R -> R) : rsum2 (n + m) (n + m) (fun k l => c k * c l * g (z k) (z l))
    = rsum2 n n (fun i j => g (x i) (x j)) / (INR n * INR n) - rsum2 n m (fun i j => g (x i) (y j)) / (INR n * INR m)
      - rsum2 n m (fun i j => g (y j) (x i)) / (INR n * INR m) + rsum2 m m (fun i j => g (y i) (y j)) / (INR m * INR m).
  Proof.
    pose proof (INR_pos n Hn). pose proof (INR_pos m Hm). unfold rsum2 at 1.
    rewrite (rsum_ext (n + m) _ (fun k => c k * (rsum n (fun i => g (z k) (x i)) / INR n - rsum m (fun j => g (z k) (y j)) / INR m))).
    2:{ intros k Hk. rewrite <- (signed_sum (g (z k))), <- rsum_scal_l. apply rsum_ext. intros. ring. }
    rewrite (signed_sum (fun u => rsum n (fun i => g u (x i)) / INR n - rsum m (fun j => g u (y j)) / INR m)).
    rewrite !rsum_minus, !rsum_div.
    replace (rsum2 n m (fun i j => g (y j) (x i))) with (rsum m (fun j => rsum n (fun i => g (y j) (x i)))) by apply rsum_swap.
    unfold rsum2. field. lra.
  Qed.

  Lemma energy_waves t : 0 < t -> Cmod (Cminus (charfun n x t) (charfun m y t)) ^ 2 / t ^ 2
    = - rsum2 (n + m) (n + m) (fun k l => c k * c l * wave (z k - z l) t).
  Proof.
    intros Ht.
    assert (E : Cminus (charfun n x t) (charfun m y t) = (rsum (n + m) (fun k => c k * cos (t * z k)), rsum (n + m) (fun k => c k * sin (t * z k)))).
    { rewrite (signed_sum (fun u => cos (t * u))), (signed_sum (fun u => sin (t * u))). reflexivity. }
    rewrite E, modulus_form.
    rewrite (rsum2_ext _ _ (fun k l => c k * c l * wave (z k - z l) t) (fun k l => (c k * c l - c k * c l * cos (t * z k - t * z l)) * / t ^ 2)).
    - rewrite rsum2_scal_r, rsum2_minus, <- rsum_mult, signed_zero. field. lra.
    - intros k l _ _. unfold wave. replace (t * z k - t * z l) with ((z k - z l) * t) by ring. unfold Rdiv. ring.
  Qed.

  Lemma energy_line : line_integral (fun t => Cmod (Cminus (charfun n x t) (charfun m y t)) ^ 2 / t ^ 2)
    (PI * (2 * (rsum2 n m (fun i j => Rabs (x i - y j)) / (INR n * INR m)) - rsum2 n n (fun i j => Rabs (x i - x j)) / (INR n * INR n)
           - rsum2 m m (fun i j => Rabs (y i - y j)) / (INR m * INR m))).
  Proof.
    pose proof (INR_pos n Hn) as Pn. pose proof (INR_pos m Hm) as Pm.
    pose proof (half_form (n + m) (fun k l => c k * c l) (fun k l => z k - z l)) as H. cbv beta in H.
    rewrite (signed_form (fun u v => Rabs (u - v))) in H.
    rewrite (rsum2_ext n m (fun i j => Rabs (y j - x i)) (fun i j => Rabs (x i - y j))) in H by (intros; apply Rabs_minus_sym).
    apply (half_scal _ (- 2)) in H.
    match type of H with half _ ?v => match goal with |- line_integral _ ?u => replace u with v by (field; lra) end end.
    revert H. apply half_ext. intros t Ht.
      assert (E : Cmod (Cminus (charfun n x (- t)) (charfun m y (- t))) ^ 2 = Cmod (Cminus (charfun n x t) (charfun m y t)) ^ 2).
      { assert (P : forall N u, charfun N u (- t) = (fst (charfun N u t), - snd (charfun N u t))).
        { intros N u. unfold charfun. cbn [fst snd]. f_equal.
          - f_equal. apply rsum_ext. intros. rewrite Ropp_mult_distr_l_reverse. apply cos_neg.
          - rewrite (rsum_ext N _ (fun i => (-1) * sin (t * u i))) by (intros; rewrite Ropp_mult_distr_l_reverse, sin_neg; ring).
            rewrite rsum_scal_l. unfold Rdiv. ring. }
        rewrite !P. unfold Cminus, Cplus, Copp. cbn [fst snd]. rewrite !Cmod_square. ring. }
      rewrite E. replace ((- t) ^ 2) with (t ^ 2) by ring. rewrite energy_waves by auto. ring.
  Qed.
End Energy.

Theorem C85_energy E x y n m : valid_env E -> two_samples n m 1 x y -> (1 <= n)%nat -> (1 <= m)%nat ->
  exists v, line_integral (fun t => Cmod (Cminus (charfun n (fun i => obs x i 0%nat) t) (charfun m (fun j => obs y j 0%nat) t)) ^ 2
                                    / (PI * t ^ 2)) v /\
  outcome (energy_distance E x y 1 None V) = Ok v.
Proof.
  intros HE H Hn Hm. eexists. split; [|rewrite (energy_V E HE x y n m 1) by (auto; lra); reflexivity].
  pose proof PI_RGT_0 as P0.
  pose proof (energy_line n m (fun i => obs x i 0%nat) (fun j => obs y j 0%nat) Hn Hm) as L. unfold line_integral in L.
  apply (half_scal _ (/ PI)) in L. rewrite <- Rmult_assoc, Rinv_l, Rmult_1_l in L by lra. unfold energy.
  rewrite (rsum2_ext n m _ (fun i j => Rabs (obs x i 0%nat - obs y j 0%nat))) by (intros; rewrite rpow_1, dist_1 by apply dist_nonneg; reflexivity).
  rewrite (rsum2_ext n n _ (fun i j => Rabs (obs x i 0%nat - obs x j 0%nat))) by (intros; rewrite rpow_1, dist_1 by apply dist_nonneg; reflexivity).
  rewrite (rsum2_ext m m _ (fun i j => Rabs (obs y i 0%nat - obs y j 0%nat))) by (intros; rewrite rpow_1, dist_1 by apply dist_nonneg; reflexivity).
  revert L. match goal with |- half _ ?u -> line_integral _ ?v => replace v with u; [|try reflexivity] end.
  apply half_ext. intros t Ht. replace ((- t) ^ 2) with (t ^ 2) by ring. field. lra.
Qed.

(** ** Distance covariance *)
Section Covariance.
  Context (n : nat) (X Y : nat -> nat -> R).
  Hypothesis Hn : (1 <= n)%nat.
  Let x (i : nat) := X i 0%nat.
  Let y (i : nat) := Y i 0%nat.
  Let P := (n * n)%nat.
  Let c := cell n (fun _ => / INR n).
  Let a (t : nat) : R := x (t / n)%nat.
  Let b (t : nat) : R := y (t mod n)%nat.
  Let HD : distribution n (fun _ => / INR n) := uniform_distribution n Hn.

  Lemma sum_a (g : R -> R) : rsum P (fun t => c t * g (a t)) = 0.
  Proof. exact (cell_vanishes_x n (fun _ => / INR n) X HD (fun u => g (u 0%nat))). Qed.
  Lemma sum_b (g : R -> R) : rsum P (fun t => c t * g (b t)) = 0.
  Proof. exact (cell_vanishes_y n (fun _ => / INR n) Y HD (fun u => g (u 0%nat))). Qed.
  Lemma form_a (g : R -> R -> R) : rsum2 P P (fun t u => c t * c u * g (a t) (a u)) = 0.
  Proof.
    unfold rsum2. apply rsum_zero. intros t Ht. rewrite (rsum_ext P _ (fun u => c t * (c u * g (a t) (a u)))) by (intros; ring).
    rewrite rsum_scal_l, sum_a. ring.
  Qed.
  Lemma form_b (g : R -> R -> R) : rsum2 P P (fun t u => c t * c u * g (b t) (b u)) = 0.
  Proof.
    unfold rsum2. apply rsum_zero. intros t Ht. rewrite (rsum_ext P _ (fun u => c t * (c u * g (b t) (b u)))) by (intros; ring).
    rewrite rsum_scal_l, sum_b. ring.
  Qed.

  (** The difference of the characteristic functions as one sum *)
  Definition gap (s t : R) : C := Cminus (joint_charfun n x y s t) (Cmult (charfun n x s) (charfun n y t)).

  Lemma gap_sum s t : gap s t = (rsum P (fun k => c k * cos (s * a k + t * b k)), rsum P (fun k => c k * sin (s * a k + t * b k))).
  Proof.
    pose proof (INR_pos n Hn). unfold a, b, c, P.
    rewrite (cell_sum n (fun _ => / INR n) (fun i j => cos (s * x i + t * y j))), (cell_sum n (fun _ => / INR n) (fun i j => sin (s * x i + t * y j))).
    unfold gap, Cminus, Cplus, Copp, Cmult, joint_charfun, charfun. cbn [fst snd]. f_equal.
    - rewrite (rsum2_ext n n _ (fun i j => (/ INR n * / INR n) * (cos (s * x i) * cos (t * y j) - sin (s * x i) * sin (t * y j))))
        by (intros; rewrite cos_plus; ring).
      rewrite rsum2_scal_l, rsum2_minus, <- !rsum_mult, rsum_scal_l. field. lra.
    - rewrite (rsum2_ext n n _ (fun i j => (/ INR n * / INR n) * (sin (s * x i) * cos (t * y j) + cos (s * x i) * sin (t * y j))))
        by (intros; rewrite sin_plus; ring).
      rewrite rsum2_scal_l, rsum2_plus, <- !rsum_mult, rsum_scal_l. field. lra.
  Qed.

  (** The inner integral *)
  Definition inner (s : R) : R := PI * rsum2 P P (fun k l => c k * c l * Rabs (b k - b l) * wave (a k - a l) s).

  Lemma gap_sym s t : Cmod (gap s t) ^ 2 + Cmod (gap s (- t)) ^ 2 = - 2 * rsum2 P P (fun k l => c k * c l * cos (s * (a k - a l)) * (1 - cos ((b k - b l) * t))).
  Proof.
    rewrite !gap_sum, !modulus_form, <- rsum2_plus.
    rewrite (rsum2_ext P P (fun k l => c k * c l * cos (s * (a k - a l)) * (1 - cos ((b k - b l) * t)))
      (fun k l => c k * c l * cos (s * (a k - a l)) - c k * c l * (cos (s * (a k - a l)) * cos ((b k - b l) * t)))) by (intros; ring).
    rewrite rsum2_minus, (form_a (fun u v => cos (s * (u - v)))).
    rewrite (rsum2_ext P P _ (fun k l => 2 * (c k * c l * (cos (s * (a k - a l)) * cos ((b k - b l) * t))))).
    - rewrite rsum2_scal_l. ring.
    - intros k l _ _. replace (s * a k + t * b k - (s * a l + t * b l)) with (s * (a k - a l) + (b k - b l) * t) by ring.
      replace (s * a k + - t * b k - (s * a l + - t * b l)) with (s * (a k - a l) - (b k - b l) * t) by ring.
      rewrite cos_plus, cos_minus. ring.
  Qed.

  Lemma inner_line s : s <> 0 -> line_integral (fun t => Cmod (gap s t) ^ 2 / (s ^ 2 * t ^ 2)) (inner s).
  Proof.
    intros Hs. pose proof (half_form P (fun k l => c k * c l * cos (s * (a k - a l))) (fun k l => b k - b l)) as H. cbv beta in H.
    apply (half_scal _ (- 2 / s ^ 2)) in H. unfold line_integral.
    replace (inner s) with (- 2 / s ^ 2 * (PI / 2 * rsum2 P P (fun k l => c k * c l * cos (s * (a k - a l)) * Rabs (b k - b l)))).
    - revert H. apply half_ext. intros t Ht. replace ((- t) ^ 2) with (t ^ 2) by ring.
      rewrite <- Rdiv_plus_distr, gap_sym.
      rewrite (rsum2_ext P P (fun k l => c k * c l * cos (s * (a k - a l)) * wave (b k - b l) t)
        (fun k l => c k * c l * cos (s * (a k - a l)) * (1 - cos ((b k - b l) * t)) * / t ^ 2)) by (intros; unfold wave; unfold Rdiv; ring).
      rewrite rsum2_scal_r. field. split; auto. lra.
    - unfold inner.
      rewrite (rsum2_ext P P (fun k l => c k * c l * Rabs (b k - b l) * wave (a k - a l) s)
        (fun k l => (c k * c l * Rabs (b k - b l) - c k * c l * cos (s * (a k - a l)) * Rabs (b k - b l)) * / s ^ 2)).
      + rewrite rsum2_scal_r, rsum2_minus, (form_b (fun u v => Rabs (u - v))). field. auto.
      + intros k l _ _. unfold wave. replace ((a k - a l) * s) with (s * (a k - a l)) by ring. unfold Rdiv. ring.
  Qed.

  Lemma outer_line : line_integral inner (PI ^ 2 * dcov2 n (dmat 1 1 X) (dmat 1 1 Y)).
  Proof.
    pose proof (half_form P (fun k l => c k * c l * Rabs (b k - b l)) (fun k l => a k - a l)) as H. cbv beta in H.
    apply (half_scal _ (2 * PI)) in H. unfold line_integral.
    replace (PI ^ 2 * dcov2 n (dmat 1 1 X) (dmat 1 1 Y)) with (2 * PI * (PI / 2 * rsum2 P P (fun k l => c k * c l * Rabs (b k - b l) * Rabs (a k - a l)))).
    - revert H. apply half_ext. intros s Hs. unfold inner.
      rewrite (rsum2_ext P P (fun k l => c k * c l * Rabs (b k - b l) * wave (a k - a l) (- s))
        (fun k l => c k * c l * Rabs (b k - b l) * wave (a k - a l) s)).
      + ring.
      + intros k l _ _. f_equal. unfold wave. rewrite Ropp_mult_distr_r_reverse, cos_neg. replace ((- s) ^ 2) with (s ^ 2) by ring. reflexivity.
    - rewrite dcov2_uniform by (auto; intros; apply dmat_sym_all). rewrite cell_population by (intros; apply dmat_sym_all).
      rewrite (rsum2_ext P P (fun k l => c k * c l * Rabs (b k - b l) * Rabs (a k - a l))
        (fun t u => cell n (fun _ => / INR n) t * cell n (fun _ => / INR n) u * (dmat 1 1 X (t / n)%nat (u / n)%nat * dmat 1 1 Y (t mod n)%nat (u mod n)%nat))).
      + unfold P. field.
      + intros k l _ _. unfold dmat. rewrite !rpow_1, !dist_1 by apply dist_nonneg. unfold c, a, b, x, y. ring.
  Qed.
End Covariance.

Theorem C85_covariance E x y n m cm : valid_env E -> paired n x y -> univariate x -> univariate y -> accepts m cm x y 1 ->
  exists (I : R -> R) v,
    (forall s, s <> 0 ->
      line_integral (fun t => Cmod (Cminus (joint_charfun n (fun i => obs x i 0%nat) (fun i => obs y i 0%nat) s t)
                                           (Cmult (charfun n (fun i => obs x i 0%nat) s) (charfun n (fun i => obs y i 0%nat) t))) ^ 2
                              / (PI * s ^ 2 * (PI * t ^ 2))) (I s)) /\
    line_integral I v /\
    outcome (distance_covariance_sqr E x y 1 (MethodEnum m) cm) = Ok v.
Proof.
  intros HE Hp Ux Uy Ha. pose proof Hp as (_ & _ & _ & _ & Hn). pose proof PI_RGT_0 as P0.
  exists (fun s => / PI ^ 2 * inner n (obs x) (obs y) s). eexists. split; [|split].
  - intros s Hs. pose proof (inner_line n (obs x) (obs y) Hn s Hs) as H. apply (half_scal _ (/ PI ^ 2)) in H.
    revert H. apply half_ext. intros t Ht. unfold gap. replace ((- t) ^ 2) with (t ^ 2) by ring. field. repeat split; lra.
  - pose proof (outer_line n (obs x) (obs y) Hn) as H. apply (half_scal _ (/ PI ^ 2)) in H.
    revert H. unfold line_integral. apply half_ext. intros s Hs. ring.
  - change (outcome _) with (call DcovSqr E x y 1 m cm). rewrite (call_ok DcovSqr E x y n) by (auto; lra). cbn [value]. f_equal.
    unfold distances. unfold univariate in Ux, Uy. rewrite Ux, Uy. field. lra.
Qed.

(** Hypotheses met: the samples of [C84_samples]; a sample whose characteristic function is not that of another *)
Example C85_meets : valid_env (env_R true) /\ two_samples 3 2 1 cdf_x cdf_y /\ paired 3 cdf_x cdf_x /\ univariate cdf_x
  /\ accepts MAuto CAuto cdf_x cdf_x 1
  /\ Cmod (Cminus (charfun 1 (fun _ => 0) PI) (charfun 1 (fun _ => 1) PI)) ^ 2 = 4.
Proof.
  pose proof C84_samples as (HE & H2 & _ & _ & H3 & H4 & H5). repeat (split; auto).
  unfold charfun, Cminus, Cplus, Copp. cbn [rsum fst snd INR]. rewrite Cmod_square, Rmult_0_r, Rmult_1_r, cos_0, sin_0, cos_PI, sin_PI. field.
Qed.
