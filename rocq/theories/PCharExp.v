(** C85 for every exponent in (0, 2): the statistics are the weighted distances between characteristic functions with the weight
    1/|t|^(1 + e) (docs/theory.rst:10-36 and 229-250, Szekely, Rizzo and Bakirov for the exponents), up to a constant that depends on
    the exponent only. *)
From Coq Require Import Reals Lra Lia List Arith Bool ZArith.
From Coquelicot Require Import Coquelicot.
From Verif Require Import Num Numpy MUtils MDistances MInternals MDcor MEnergy Sums Spec Centering Tab Samples Api RefDist RefDcor
  Psd PowerKernel Nonneg SpecFacts RefApi Empirical EnergyMath PEmpirical Expect PUnbiased Consist PopMath PopIndep
  RefEnergy PEnergy PSubadd PCdf Fejer Stable PCharFun Witness.
Import ListNotations.
Local Open Scope R_scope.

(** The weight |t|^(1 + e) *)
Definition weight (e t : R) : R := rpow (Rabs t) (1 + e).

Lemma weight_pos e t : t <> 0 -> 0 < weight e t.
Proof. intros H. apply rpow_pos. apply Rabs_pos_lt; auto. Qed.
Lemma weight_opp e t : weight e (- t) = weight e t.
Proof. unfold weight. rewrite Rabs_Ropp. reflexivity. Qed.
Lemma wave_weight e u t : 0 < t -> wave_e e u t = (1 - cos (u * t)) / weight e t.
Proof. intros H. unfold wave_e, weight, rpow. rewrite Rabs_pos_eq by lra. destruct (Rle_dec t 0); [lra|reflexivity]. Qed.

Section Exponent.
  Context (e cc : R).
  Hypothesis HW : forall u, half (wave_e e u) (cc * rpow (Rabs u) e).

  Lemma half_form_e M (w d : nat -> nat -> R) :
    half (fun t => rsum2 M M (fun k l => w k l * wave_e e (d k l) t)) (cc * rsum2 M M (fun k l => w k l * rpow (Rabs (d k l)) e)).
  Proof.
    unfold rsum2. rewrite <- rsum_scal_l. apply half_rsum. intros k Hk. rewrite <- rsum_scal_l. apply half_rsum. intros l Hl.
    replace (cc * (w k l * rpow (Rabs (d k l)) e)) with (w k l * (cc * rpow (Rabs (d k l)) e)) by ring. apply half_scal. apply HW.
  Qed.

  Lemma dist_e u v p : rpow (dist 1 u v) p = rpow (Rabs (u 0%nat - v 0%nat)) p.
  Proof. rewrite dist_1. reflexivity. Qed.

  Section Energy.
    Context (n m : nat) (x y : nat -> R).
    Hypothesis (Hn : (1 <= n)%nat) (Hm : (1 <= m)%nat).

    (** The points of both samples with signed weights *)
    Let c (k : nat) : R := if Nat.ltb k n then / INR n else - / INR m.
    Let z (k : nat) : R := if Nat.ltb k n then x k else y (k - n)%nat.

    Lemma signed_sum_e (g : R -> R) : rsum (n + m) (fun k => c k * g (z k)) = rsum n (fun i => g (x i)) / INR n - rsum m (fun j => g (y j)) / INR m.
    Proof.
      rewrite rsum_app. unfold c, z.
      rewrite (rsum_ext n _ (fun i => / INR n * g (x i))) by (intros i Hi; destruct (Nat.ltb_spec i n); [reflexivity|lia]).
      rewrite (rsum_ext m _ (fun j => - / INR m * g (y j))).
      2:{ intros j Hj. destruct (Nat.ltb_spec (n + j) n); [lia|]. replace (n + j - n)%nat with j by lia. reflexivity. }
      rewrite !rsum_scal_l. unfold Rdiv. ring.
    Qed.

    Lemma signed_zero_e : rsum (n + m) c = 0.
    Proof.
      pose proof (INR_pos n Hn). pose proof (INR_pos m Hm). pose proof (signed_sum_e (fun _ => 1)) as H1. cbv beta in H1. rewrite !rsum_const in H1.
      rewrite (rsum_ext _ c (fun k => c k * 1)) by (intros; ring). rewrite H1. field. lra.
    Qed.

    Lemma signed_form_e (g : R -> R -> R) : rsum2 (n + m) (n + m) (fun k l => c k * c l * g (z k) (z l))
      = rsum2 n n (fun i j => g (x i) (x j)) / (INR n * INR n) - rsum2 n m (fun i j => g (x i) (y j)) / (INR n * INR m)
        - rsum2 n m (fun i j => g (y j) (x i)) / (INR n * INR m) + rsum2 m m (fun i j => g (y i) (y j)) / (INR m * INR m).
    Proof.
      pose proof (INR_pos n Hn). pose proof (INR_pos m Hm). unfold rsum2 at 1.
      rewrite (rsum_ext (n + m) _ (fun k => c k * (rsum n (fun i => g (z k) (x i)) / INR n - rsum m (fun j => g (z k) (y j)) / INR m))).
      2:{ intros k Hk. rewrite <- (signed_sum_e (g (z k))), <- rsum_scal_l. apply rsum_ext. intros. ring. }
      rewrite (signed_sum_e (fun u => rsum n (fun i => g u (x i)) / INR n - rsum m (fun j => g u (y j)) / INR m)).
      rewrite !rsum_minus, !rsum_div.
      replace (rsum2 n m (fun i j => g (y j) (x i))) with (rsum m (fun j => rsum n (fun i => g (y j) (x i)))) by apply rsum_swap.
      unfold rsum2. field. lra.
    Qed.

    Lemma energy_waves_e t : 0 < t -> Cmod (Cminus (charfun n x t) (charfun m y t)) ^ 2 / weight e t
      = - rsum2 (n + m) (n + m) (fun k l => c k * c l * wave_e e (z k - z l) t).
    Proof.
      intros Ht.
      assert (E : Cminus (charfun n x t) (charfun m y t) = (rsum (n + m) (fun k => c k * cos (t * z k)), rsum (n + m) (fun k => c k * sin (t * z k)))).
      { rewrite (signed_sum_e (fun u => cos (t * u))), (signed_sum_e (fun u => sin (t * u))). reflexivity. }
      rewrite E, modulus_form.
      rewrite (rsum2_ext _ _ (fun k l => c k * c l * wave_e e (z k - z l) t) (fun k l => (c k * c l - c k * c l * cos (t * z k - t * z l)) * / weight e t)).
      - rewrite rsum2_scal_r, rsum2_minus, <- rsum_mult, signed_zero_e. field. apply Rgt_not_eq, weight_pos. lra.
      - intros k l _ _. rewrite wave_weight by auto. replace (t * z k - t * z l) with ((z k - z l) * t) by ring. unfold Rdiv. ring.
    Qed.

    Lemma energy_line_e : line_integral (fun t => Cmod (Cminus (charfun n x t) (charfun m y t)) ^ 2 / weight e t)
      (2 * cc * (2 * (rsum2 n m (fun i j => rpow (Rabs (x i - y j)) e) / (INR n * INR m)) - rsum2 n n (fun i j => rpow (Rabs (x i - x j)) e) / (INR n * INR n)
             - rsum2 m m (fun i j => rpow (Rabs (y i - y j)) e) / (INR m * INR m))).
    Proof.
      pose proof (INR_pos n Hn) as Pn. pose proof (INR_pos m Hm) as Pm.
      pose proof (half_form_e (n + m) (fun k l => c k * c l) (fun k l => z k - z l)) as H. cbv beta in H.
      rewrite (signed_form_e (fun u v => rpow (Rabs (u - v)) e)) in H.
      rewrite (rsum2_ext n m (fun i j => rpow (Rabs (y j - x i)) e) (fun i j => rpow (Rabs (x i - y j)) e)) in H by (intros; f_equal; apply Rabs_minus_sym).
      apply (half_scal _ (- 2)) in H.
      match type of H with half _ ?v => match goal with |- line_integral _ ?u => replace u with v by (field; lra) end end.
      revert H. apply half_ext. intros t Ht.
        assert (E : Cmod (Cminus (charfun n x (- t)) (charfun m y (- t))) ^ 2 = Cmod (Cminus (charfun n x t) (charfun m y t)) ^ 2).
        { assert (P : forall N u, charfun N u (- t) = (fst (charfun N u t), - snd (charfun N u t))).
          { intros N u. unfold charfun. cbn [fst snd]. f_equal.
            - f_equal. apply rsum_ext. intros. rewrite Ropp_mult_distr_l_reverse. apply cos_neg.
            - rewrite (rsum_ext N _ (fun i => (-1) * sin (t * u i))) by (intros; rewrite Ropp_mult_distr_l_reverse, sin_neg; ring).
              rewrite rsum_scal_l. unfold Rdiv. ring. }
          rewrite !P. unfold Cminus, Cplus, Copp. cbn [fst snd]. rewrite !Cmod_square. ring. }
        rewrite E. rewrite weight_opp, energy_waves_e by auto. ring.
    Qed.
  End Energy.

  Section Covariance.
    Context (n : nat) (X Y : nat -> nat -> R).
    Hypothesis Hn : (1 <= n)%nat.
    Let x (i : nat) := X i 0%nat.
    Let y (i : nat) := Y i 0%nat.
    Let P := (n * n)%nat.
    Let c := cell n (fun _ => / INR n).
    Let a (t : nat) : R := x (t / n)%nat.
    Let b (t : nat) : R := y (t mod n)%nat.
    Let HD : distribution n (fun _ => / INR n) := uniform_distribution n Hn.

    Lemma sum_a_e (g : R -> R) : rsum P (fun t => c t * g (a t)) = 0.
    Proof. exact (cell_vanishes_x n (fun _ => / INR n) X HD (fun u => g (u 0%nat))). Qed.
    Lemma sum_b_e (g : R -> R) : rsum P (fun t => c t * g (b t)) = 0.
    Proof. exact (cell_vanishes_y n (fun _ => / INR n) Y HD (fun u => g (u 0%nat))). Qed.
    Lemma form_a_e (g : R -> R -> R) : rsum2 P P (fun t u => c t * c u * g (a t) (a u)) = 0.
    Proof.
      unfold rsum2. apply rsum_zero. intros t Ht. rewrite (rsum_ext P _ (fun u => c t * (c u * g (a t) (a u)))) by (intros; ring).
      rewrite rsum_scal_l, sum_a_e. ring.
    Qed.
    Lemma form_b_e (g : R -> R -> R) : rsum2 P P (fun t u => c t * c u * g (b t) (b u)) = 0.
    Proof.
      unfold rsum2. apply rsum_zero. intros t Ht. rewrite (rsum_ext P _ (fun u => c t * (c u * g (b t) (b u)))) by (intros; ring).
      rewrite rsum_scal_l, sum_b_e. ring.
    Qed.

    (** The difference of the characteristic functions as one sum *)
    Definition gap_e (s t : R) : C := Cminus (joint_charfun n x y s t) (Cmult (charfun n x s) (charfun n y t)).

    Lemma gap_sum_e s t : gap_e s t = (rsum P (fun k => c k * cos (s * a k + t * b k)), rsum P (fun k => c k * sin (s * a k + t * b k))).
    Proof.
      pose proof (INR_pos n Hn). unfold a, b, c, P.
      rewrite (cell_sum n (fun _ => / INR n) (fun i j => cos (s * x i + t * y j))), (cell_sum n (fun _ => / INR n) (fun i j => sin (s * x i + t * y j))).
      unfold gap_e, Cminus, Cplus, Copp, Cmult, joint_charfun, charfun. cbn [fst snd]. f_equal.
      - rewrite (rsum2_ext n n _ (fun i j => (/ INR n * / INR n) * (cos (s * x i) * cos (t * y j) - sin (s * x i) * sin (t * y j))))
          by (intros; rewrite cos_plus; ring).
        rewrite rsum2_scal_l, rsum2_minus, <- !rsum_mult, rsum_scal_l. field. lra.
      - rewrite (rsum2_ext n n _ (fun i j => (/ INR n * / INR n) * (sin (s * x i) * cos (t * y j) + cos (s * x i) * sin (t * y j))))
          by (intros; rewrite sin_plus; ring).
        rewrite rsum2_scal_l, rsum2_plus, <- !rsum_mult, rsum_scal_l. field. lra.
    Qed.

    (** The inner integral *)
    Definition inner_e (s : R) : R := 2 * cc * rsum2 P P (fun k l => c k * c l * rpow (Rabs (b k - b l)) e * ((1 - cos ((a k - a l) * s)) / weight e s)).

    Lemma gap_sym_e s t : Cmod (gap_e s t) ^ 2 + Cmod (gap_e s (- t)) ^ 2 = - 2 * rsum2 P P (fun k l => c k * c l * cos (s * (a k - a l)) * (1 - cos ((b k - b l) * t))).
    Proof.
      rewrite !gap_sum_e, !modulus_form, <- rsum2_plus.
      rewrite (rsum2_ext P P (fun k l => c k * c l * cos (s * (a k - a l)) * (1 - cos ((b k - b l) * t)))
        (fun k l => c k * c l * cos (s * (a k - a l)) - c k * c l * (cos (s * (a k - a l)) * cos ((b k - b l) * t)))) by (intros; ring).
      rewrite rsum2_minus, (form_a_e (fun u v => cos (s * (u - v)))).
      rewrite (rsum2_ext P P _ (fun k l => 2 * (c k * c l * (cos (s * (a k - a l)) * cos ((b k - b l) * t))))).
      - rewrite rsum2_scal_l. ring.
      - intros k l _ _. replace (s * a k + t * b k - (s * a l + t * b l)) with (s * (a k - a l) + (b k - b l) * t) by ring.
        replace (s * a k + - t * b k - (s * a l + - t * b l)) with (s * (a k - a l) - (b k - b l) * t) by ring.
        rewrite cos_plus, cos_minus. ring.
    Qed.

    Lemma inner_line_e s : s <> 0 -> line_integral (fun t => Cmod (gap_e s t) ^ 2 / (weight e s * weight e t)) (inner_e s).
    Proof.
      intros Hs. pose proof (half_form_e P (fun k l => c k * c l * cos (s * (a k - a l))) (fun k l => b k - b l)) as H. cbv beta in H.
      apply (half_scal _ (- 2 / weight e s)) in H. unfold line_integral.
      replace (inner_e s) with (- 2 / weight e s * (cc * rsum2 P P (fun k l => c k * c l * cos (s * (a k - a l)) * rpow (Rabs (b k - b l)) e))).
      - revert H. apply half_ext. intros t Ht. rewrite weight_opp. pose proof (weight_pos e s Hs). pose proof (weight_pos e t ltac:(lra)).
        rewrite <- Rdiv_plus_distr, gap_sym_e.
        rewrite (rsum2_ext P P (fun k l => c k * c l * cos (s * (a k - a l)) * wave_e e (b k - b l) t)
          (fun k l => c k * c l * cos (s * (a k - a l)) * (1 - cos ((b k - b l) * t)) * / weight e t)) by (intros; rewrite wave_weight by auto; unfold Rdiv; ring).
        rewrite rsum2_scal_r. field. split; lra.
      - unfold inner_e.
        rewrite (rsum2_ext P P (fun k l => c k * c l * rpow (Rabs (b k - b l)) e * ((1 - cos ((a k - a l) * s)) / weight e s))
          (fun k l => (c k * c l * rpow (Rabs (b k - b l)) e - c k * c l * cos (s * (a k - a l)) * rpow (Rabs (b k - b l)) e) * / weight e s)).
        + rewrite rsum2_scal_r, rsum2_minus, (form_b_e (fun u v => rpow (Rabs (u - v)) e)). field. apply Rgt_not_eq, weight_pos; auto.
        + intros k l _ _. replace ((a k - a l) * s) with (s * (a k - a l)) by ring. unfold Rdiv. ring.
    Qed.

    Lemma outer_line_e : line_integral inner_e ((2 * cc) ^ 2 * dcov2 n (dmat e 1 X) (dmat e 1 Y)).
    Proof.
      pose proof (half_form_e P (fun k l => c k * c l * rpow (Rabs (b k - b l)) e) (fun k l => a k - a l)) as H. cbv beta in H.
      apply (half_scal _ (4 * cc)) in H. unfold line_integral.
      replace ((2 * cc) ^ 2 * dcov2 n (dmat e 1 X) (dmat e 1 Y)) with (4 * cc * (cc * rsum2 P P (fun k l => c k * c l * rpow (Rabs (b k - b l)) e * rpow (Rabs (a k - a l)) e))).
      - revert H. apply half_ext. intros s Hs. unfold inner_e.
        rewrite (rsum2_ext P P (fun k l => c k * c l * rpow (Rabs (b k - b l)) e * wave_e e (a k - a l) s)
          (fun k l => c k * c l * rpow (Rabs (b k - b l)) e * ((1 - cos ((a k - a l) * s)) / weight e s))) by (intros; rewrite wave_weight by auto; reflexivity).
        rewrite (rsum2_ext P P (fun k l => c k * c l * rpow (Rabs (b k - b l)) e * ((1 - cos ((a k - a l) * - s)) / weight e (- s)))
          (fun k l => c k * c l * rpow (Rabs (b k - b l)) e * ((1 - cos ((a k - a l) * s)) / weight e s))).
        + ring.
        + intros k l _ _. f_equal. rewrite Ropp_mult_distr_r_reverse, cos_neg, weight_opp. reflexivity.
      - rewrite dcov2_uniform by (auto; intros; apply dmat_sym_all). rewrite cell_population by (intros; apply dmat_sym_all).
        rewrite (rsum2_ext P P (fun k l => c k * c l * rpow (Rabs (b k - b l)) e * rpow (Rabs (a k - a l)) e)
          (fun t u => cell n (fun _ => / INR n) t * cell n (fun _ => / INR n) u * (dmat e 1 X (t / n)%nat (u / n)%nat * dmat e 1 Y (t mod n)%nat (u mod n)%nat))).
        + unfold P. ring.
        + intros k l _ _. unfold dmat. rewrite !dist_e. unfold c, a, b, x, y. ring.
    Qed.
  End Covariance.
End Exponent.

(** The constant is the same for the energy distance and for the distance covariance, and for all samples. *)
Theorem C85_exponents E e : valid_env E -> 0 < e < 2 -> exists k, 0 < k /\
  (forall x y n m, two_samples n m 1 x y -> (1 <= n)%nat -> (1 <= m)%nat ->
   exists v, line_integral (fun t => Cmod (Cminus (charfun n (fun i => obs x i 0%nat) t) (charfun m (fun j => obs y j 0%nat) t)) ^ 2
                                     / (k * weight e t)) v /\
   outcome (energy_distance E x y e None V) = Ok v) /\
  (forall x y n m cm, paired n x y -> univariate x -> univariate y -> accepts m cm x y e ->
   exists (I : R -> R) v,
     (forall s, s <> 0 ->
       line_integral (fun t => Cmod (Cminus (joint_charfun n (fun i => obs x i 0%nat) (fun i => obs y i 0%nat) s t)
                                            (Cmult (charfun n (fun i => obs x i 0%nat) s) (charfun n (fun i => obs y i 0%nat) t))) ^ 2
                               / (k * weight e s * (k * weight e t))) (I s)) /\
     line_integral I v /\
     outcome (distance_covariance_sqr E x y e (MethodEnum m) cm) = Ok v).
Proof.
  intros HE He. destruct (wave_e_integral e He) as (c & Hc & HW). exists (2 * c). split; [lra|]. split.
  - intros x y n m H Hn Hm. eexists. split; [|rewrite (energy_V E HE x y n m 1) by (auto; lra); reflexivity].
    pose proof (energy_line_e e c HW n m (fun i => obs x i 0%nat) (fun j => obs y j 0%nat) Hn Hm) as L. unfold line_integral in L.
    apply (half_scal _ (/ (2 * c))) in L. rewrite <- Rmult_assoc, Rinv_l, Rmult_1_l in L by lra. unfold energy.
    rewrite (rsum2_ext n m _ (fun i j => rpow (Rabs (obs x i 0%nat - obs y j 0%nat)) e)) by (intros; apply dist_e).
    rewrite (rsum2_ext n n _ (fun i j => rpow (Rabs (obs x i 0%nat - obs x j 0%nat)) e)) by (intros; apply dist_e).
    rewrite (rsum2_ext m m _ (fun i j => rpow (Rabs (obs y i 0%nat - obs y j 0%nat)) e)) by (intros; apply dist_e).
    revert L. match goal with |- half _ ?u -> line_integral _ ?v => replace v with u; [|try reflexivity] end.
    apply half_ext. intros t Ht. rewrite weight_opp. pose proof (weight_pos e t ltac:(lra)). field. lra.
  - intros x y n m cm Hp Ux Uy Ha. pose proof Hp as (_ & _ & _ & _ & Hn).
    exists (fun s => / (2 * c) ^ 2 * inner_e e c n (obs x) (obs y) s). eexists. split; [|split].
    + intros s Hs. pose proof (inner_line_e e c HW n (obs x) (obs y) Hn s Hs) as H. apply (half_scal _ (/ (2 * c) ^ 2)) in H.
      revert H. apply half_ext. intros t Ht. unfold gap_e. rewrite weight_opp.
      pose proof (weight_pos e t ltac:(lra)). pose proof (weight_pos e s Hs). field. repeat split; lra.
    + pose proof (outer_line_e e c HW n (obs x) (obs y) Hn) as H. apply (half_scal _ (/ (2 * c) ^ 2)) in H.
      revert H. unfold line_integral. apply half_ext. intros s Hs. ring.
    + change (outcome _) with (call DcovSqr E x y e m cm). rewrite (call_ok DcovSqr E x y n) by (auto; lra). cbn [value]. f_equal.
      unfold distances. unfold univariate in Ux, Uy. rewrite Ux, Uy. field. lra.
Qed.

(** The weight is not trivial: t^(3/2) for the exponent 1/2, at t = 4 *)
Example C85_weight : weight (1 / 2) 4 = 8 /\ weight (1 / 2) (- 4) = 8.
Proof.
  assert (H : weight (1 / 2) 4 = 8); [|split; auto; replace (-4) with (Ropp 4) by lra; rewrite weight_opp; auto].
  unfold weight, rpow. rewrite Rabs_pos_eq by lra. destruct (Rle_dec 4 0); [lra|].
  replace 4 with (2 * 2) by ring. rewrite ln_mult by lra. replace ((1 + 1 / 2) * (ln 2 + ln 2)) with (ln 2 + (ln 2 + ln 2)) by field.
  rewrite !exp_plus, exp_ln by lra. ring.
Qed.
