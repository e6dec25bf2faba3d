(** Powers [q^b], [0 < b < 1], as mixtures of [1 - exp (- t q)]: if a finite signed family of
    weights has total zero and gives a nonnegative value to every [exp (- t q)], it gives a
    nonpositive value to [q^b], and zero only when it gives zero to every [exp (- t q)]. *)
From Coq Require Import Reals Lra Lia List Arith Bool.
From Coquelicot Require Import Coquelicot.
From Verif Require Import Sums.
Local Open Scope R_scope.

(** The integrand. *)
Definition kf (b q t : R) : R := (1 - exp (- (t * q))) * Rpower t (- 1 - b).

Lemma ex_RInt_pos (f : R -> R) a b : 0 < a -> 0 < b -> (forall t, 0 < t -> continuous f t) -> ex_RInt f a b.
Proof.
  intros Ha Hb H. apply (ex_RInt_continuous f). intros z Hz. apply H.
  destruct (Rle_dec a b); rewrite ?Rmin_left, ?Rmin_right in Hz by lra; lra.
Qed.

Lemma Rpower_continuous c t : 0 < t -> continuous (fun u => Rpower u c) t.
Proof.
  intros Ht. apply (ex_derive_continuous (fun u => Rpower u c)). unfold Rpower. auto_derive. auto.
Qed.

Lemma kf_continuous b q t : 0 < t -> continuous (kf b q) t.
Proof.
  intros Ht. apply (ex_derive_continuous (kf b q)). unfold kf, Rpower. auto_derive. auto.
Qed.

Lemma kf_ex b q u v : 0 < u -> 0 < v -> ex_RInt (kf b q) u v.
Proof. intros. apply ex_RInt_pos; auto. intros. apply kf_continuous; auto. Qed.

Lemma exp_le_1 x : 0 <= x -> exp (- x) <= 1.
Proof.
  intros H. rewrite <- exp_0. destruct (Req_dec x 0) as [E|E].
  - rewrite E, Ropp_0. lra.
  - left. apply exp_increasing. lra.
Qed.

Lemma kf_nonneg b q t : 0 <= q -> 0 < t -> 0 <= kf b q t.
Proof.
  intros Hq Ht. unfold kf. apply Rmult_le_pos.
  - enough (exp (- (t * q)) <= 1) by lra. apply exp_le_1. apply Rmult_le_pos; lra.
  - left. apply exp_pos.
Qed.

(** Scaling. *)
Lemma kf_scale b q t : 0 < q -> 0 < t -> kf b q t = Rpower q b * (q * kf b 1 (q * t)).
Proof.
  intros Hq Ht. unfold kf. rewrite Rmult_1_r, (Rmult_comm q t).
  rewrite <- (Rpower_mult_distr t q) by auto.
  replace (Rpower q b * (q * ((1 - exp (- (t * q))) * (Rpower t (-1 - b) * Rpower q (-1 - b)))))
    with ((1 - exp (- (t * q))) * Rpower t (-1 - b) * (Rpower q b * Rpower q 1 * Rpower q (-1 - b)))
    by (rewrite (Rpower_1 q) by auto; ring).
  rewrite <- !Rpower_plus. replace (b + 1 + (-1 - b)) with 0 by ring. rewrite Rpower_O by auto. ring.
Qed.

Definition J (b u v : R) : R := RInt (kf b 1) u v.

Lemma kf_int_scale b q u v : 0 < q -> 0 < u -> 0 < v ->
  RInt (kf b q) u v = Rpower q b * J b (q * u) (q * v).
Proof.
  intros Hq Hu Hv. unfold J.
  assert (Hqu : 0 < q * u) by (apply Rmult_lt_0_compat; auto).
  assert (Hqv : 0 < q * v) by (apply Rmult_lt_0_compat; auto).
  assert (Hex : ex_RInt (kf b 1) (q * u + 0) (q * v + 0)) by (apply kf_ex; lra).
  pose proof (RInt_comp_lin (kf b 1) q 0 u v Hex) as H. rewrite !Rplus_0_r in H. rewrite <- H.
  rewrite (RInt_ext (kf b q) (fun t => scal (Rpower q b) (scal q (kf b 1 (q * t + 0))))).
  - rewrite (RInt_scal (fun t => scal q (kf b 1 (q * t + 0)))).
    + reflexivity.
    + apply (ex_RInt_comp_lin (kf b 1) q 0 u v). exact Hex.
  - intros t Ht. unfold scal; cbn; unfold mult; cbn. rewrite Rplus_0_r. apply kf_scale; auto.
    destruct (Rle_dec u v); rewrite ?Rmin_left, ?Rmin_right in Ht by lra; lra.
Qed.

Lemma kf_int_zero b u v : RInt (kf b 0) u v = 0.
Proof.
  rewrite (RInt_ext _ (fun _ => 0)).
  - rewrite RInt_const. change ((v - u) * 0 = 0). ring.
  - intros t _. unfold kf. rewrite Rmult_0_r, Ropp_0, exp_0. change ((1 - 1) * Rpower t (- 1 - b) = 0). ring.
Qed.

(** [J] grows with its interval and is bounded. *)
Lemma RInt_widen (f : R -> R) u v u' v' : 0 < u' -> u' <= u -> u <= v -> v <= v' ->
  (forall t, 0 < t -> continuous f t) -> (forall t, 0 < t -> 0 <= f t) ->
  RInt f u v <= RInt f u' v'.
Proof.
  intros H1 H2 H3 H4 Hc Hp.
  assert (E1 : ex_RInt f u' u) by (apply ex_RInt_pos; auto; lra).
  assert (E2 : ex_RInt f u v) by (apply ex_RInt_pos; auto; lra).
  assert (E3 : ex_RInt f v v') by (apply ex_RInt_pos; auto; lra).
  assert (E4 : ex_RInt f u' v) by (apply ex_RInt_pos; auto; lra).
  pose proof (RInt_Chasles f u' u v E1 E2) as C1. pose proof (RInt_Chasles f u' v v' E4 E3) as C2.
  change (RInt f u' u + RInt f u v = RInt f u' v) in C1.
  change (RInt f u' v + RInt f v v' = RInt f u' v') in C2.
  assert (0 <= RInt f u' u) by (apply RInt_ge_0; auto; intros; apply Hp; lra).
  assert (0 <= RInt f v v') by (apply RInt_ge_0; auto; intros; apply Hp; lra).
  lra.
Qed.

Lemma J_widen b u v u' v' : 0 < u' -> u' <= u -> u <= v -> v <= v' -> J b u v <= J b u' v'.
Proof.
  intros. apply RInt_widen; auto; intros; [apply kf_continuous|apply kf_nonneg]; auto; lra.
Qed.

Lemma one_minus_exp_le t : 1 - exp (- t) <= t.
Proof. pose proof (exp_ineq1_le (- t)). lra. Qed.

Lemma Rpower_int c u v : 0 < u -> 0 < v -> c <> 0 ->
  RInt (fun t => Rpower t (c - 1)) u v = (Rpower v c - Rpower u c) / c.
Proof.
  intros Hu Hv Hc.
  assert (Hp : forall t, Rmin u v <= t <= Rmax u v -> 0 < t).
  { intros t Ht. destruct (Rle_dec u v); rewrite ?Rmin_left, ?Rmin_right in Ht by lra; lra. }
  assert (H : is_RInt (fun t => Rpower t (c - 1)) u v (minus (Rpower v c / c) (Rpower u c / c))).
  { apply (is_RInt_derive (fun t => Rpower t c / c)).
    - intros t Ht. specialize (Hp t Ht). unfold Rpower. auto_derive; auto.
      replace ((c - 1) * ln t) with (c * ln t + (- ln t)) by ring.
      rewrite exp_plus, exp_Ropp, exp_ln by auto. field. lra.
    - intros t Ht. apply Rpower_continuous. auto. }
  rewrite (is_RInt_unique (fun t => Rpower t (c - 1)) u v _ H).
  change (Rpower v c / c - Rpower u c / c = (Rpower v c - Rpower u c) / c). field. auto.
Qed.

Lemma J_bound b u v : 0 < b < 1 -> 0 < u <= 1 -> 1 <= v -> J b u v <= / (1 - b) + / b.
Proof.
  intros Hb Hu Hv. unfold J.
  assert (E1 : ex_RInt (kf b 1) u 1) by (apply kf_ex; lra).
  assert (E2 : ex_RInt (kf b 1) 1 v) by (apply kf_ex; lra).
  rewrite <- (RInt_Chasles (kf b 1) u 1 v E1 E2).
  change (RInt (kf b 1) u 1 + RInt (kf b 1) 1 v <= / (1 - b) + / b). apply Rplus_le_compat.
  - apply (Rle_trans _ (RInt (fun t => Rpower t ((1 - b) - 1)) u 1)).
    + apply RInt_le; auto; [lra| |].
      * apply ex_RInt_pos; try lra. intros. apply Rpower_continuous; auto.
      * intros t Ht. unfold kf. rewrite Rmult_1_r.
        replace (1 - b - 1) with (1 + (-1 - b)) by ring. rewrite Rpower_plus, Rpower_1 by lra.
        apply Rmult_le_compat_r; [left; apply exp_pos|]. apply one_minus_exp_le.
    + rewrite Rpower_int by lra. unfold Rdiv.
      rewrite <- (Rmult_1_l (/ (1 - b))) at 2. apply Rmult_le_compat_r.
      * left. apply Rinv_0_lt_compat. lra.
      * replace (Rpower 1 (1 - b)) with 1 by (unfold Rpower; rewrite ln_1, Rmult_0_r, exp_0; auto).
        pose proof (exp_pos ((1 - b) * ln u)). unfold Rpower. lra.
  - apply (Rle_trans _ (RInt (fun t => Rpower t (- b - 1)) 1 v)).
    + apply RInt_le; auto.
      * apply ex_RInt_pos; try lra. intros. apply Rpower_continuous; auto.
      * intros t Ht. unfold kf. replace (- b - 1) with (-1 - b) by ring.
        rewrite <- (Rmult_1_l (Rpower t (-1 - b))) at 2.
        apply Rmult_le_compat_r; [left; apply exp_pos|]. pose proof (exp_pos (- (t * 1))). lra.
    + rewrite Rpower_int by lra.
      replace (Rpower 1 (- b)) with 1 by (unfold Rpower; rewrite ln_1, Rmult_0_r, exp_0; auto).
      replace ((Rpower v (- b) - 1) / - b) with (/ b - Rpower v (- b) / b) by (field; lra).
      assert (0 < Rpower v (- b) / b); [|lra].
      apply Rdiv_lt_0_compat; [apply exp_pos|lra].
Qed.

(** The constant [C = \int_0^infinity (1 - exp (- t)) t^(-1-b) dt]. *)
Lemma J_sup b : 0 < b < 1 -> exists C, 0 < C /\
  forall eta, 0 < eta -> exists u0 v0, 0 < u0 <= 1 /\ 1 <= v0 /\
    forall u v, 0 < u <= u0 -> v0 <= v -> Rabs (J b u v - C) <= eta.
Proof.
  intros Hb.
  destruct (completeness (fun z => exists u v, 0 < u <= 1 /\ 1 <= v /\ z = J b u v)) as [C [Hub Hlub]].
  - exists (/ (1 - b) + / b). intros z (u & v & Hu & Hv & ->). apply J_bound; auto.
  - exists (J b 1 1), 1, 1. repeat split; lra.
  - assert (Hle : forall u v, 0 < u <= 1 -> 1 <= v -> J b u v <= C).
    { intros u v Hu Hv. apply Hub. exists u, v. auto. }
    exists C. split.
    + apply Rlt_le_trans with (J b 1 2); [|apply Hle; lra].
      apply RInt_gt_0; [lra| |].
      * intros t Ht. unfold kf. apply Rmult_lt_0_compat; [|apply exp_pos].
        assert (exp (- (t * 1)) < exp 0) by (apply exp_increasing; lra). rewrite exp_0 in H. lra.
      * intros t Ht. apply kf_continuous. lra.
    + intros eta He.
      assert (Hex : exists u0 v0, 0 < u0 <= 1 /\ 1 <= v0 /\ C - eta < J b u0 v0).
      { destruct (Classical_Prop.classic (exists u0 v0, 0 < u0 <= 1 /\ 1 <= v0 /\ C - eta < J b u0 v0))
          as [H|H]; auto.
        exfalso. assert (C <= C - eta); [|lra]. apply Hlub. intros z (u & v & Hu & Hv & ->).
        apply Rnot_lt_le. intros Hlt. apply H. exists u, v. auto. }
      destruct Hex as (u0 & v0 & Hu0 & Hv0 & Hlt). exists u0, v0. repeat split; try lra.
      intros u v Hu Hv. assert (J b u0 v0 <= J b u v) by (apply J_widen; lra).
      assert (J b u v <= C) by (apply Hle; lra). apply Rabs_le. lra.
Qed.

Lemma rsum_Rabs n f : Rabs (rsum n f) <= rsum n (fun k => Rabs (f k)).
Proof.
  induction n; cbn [rsum]; [rewrite Rabs_R0; lra|].
  eapply Rle_trans; [apply Rabs_triang|]. lra.
Qed.

(** Integrals of finite sums. *)
Lemma RInt_rsum N (P : nat -> R) (f : nat -> R -> R) u v :
  (forall k, (k < N)%nat -> ex_RInt (f k) u v) ->
  is_RInt (fun t => rsum N (fun k => P k * f k t)) u v (rsum N (fun k => P k * RInt (f k) u v)).
Proof.
  induction N; intros H; cbn [rsum].
  - pose proof (is_RInt_const u v 0) as Hc. unfold scal in Hc; cbn in Hc; unfold mult in Hc; cbn in Hc.
    rewrite Rmult_0_r in Hc. exact Hc.
  - apply (is_RInt_plus (fun t => rsum N (fun k => P k * f k t)) (fun t => P N * f N t)).
    + apply IHN. intros; apply H; lia.
    + apply (is_RInt_scal (f N)). exact (RInt_correct (f N) u v (H N ltac:(lia))).
Qed.

Definition pw (q b : R) : R := if Req_EM_T q 0 then 0 else Rpower q b.

Lemma pw_nonneg q b : 0 <= pw q b.
Proof. unfold pw. destruct (Req_EM_T q 0); [lra|]. left. apply exp_pos. Qed.

Section Mix.
Context (N : nat) (P q : nat -> R) (b : R).
Hypothesis Hb : 0 < b < 1.
Hypothesis Hq : forall k, (k < N)%nat -> 0 <= q k.
Hypothesis HP : rsum N P = 0.

Let g (t : R) : R := rsum N (fun k => P k * exp (- (t * q k))).
Hypothesis Hg : forall t, 0 < t -> 0 <= g t.

Lemma g_continuous t : continuous g t.
Proof.
  unfold g. clear. induction N; cbn [rsum].
  - apply continuous_const.
  - apply (continuous_plus (fun t => rsum n (fun k => P k * exp (- (t * q k))))
                           (fun t => P n * exp (- (t * q n)))); auto.
    apply (ex_derive_continuous (fun t => P n * exp (- (t * q n)))). auto_derive. auto.
Qed.

Let w (t : R) : R := g t * Rpower t (- 1 - b).

Lemma w_continuous t : 0 < t -> continuous w t.
Proof.
  intros Ht. apply (continuous_mult g (fun t => Rpower t (-1 - b))).
  - apply g_continuous.
  - apply Rpower_continuous. auto.
Qed.

Lemma w_nonneg t : 0 < t -> 0 <= w t.
Proof. intros Ht. apply Rmult_le_pos; [auto|left; apply exp_pos]. Qed.

Lemma mix_integral u v : 0 < u -> 0 < v ->
  rsum N (fun k => P k * RInt (kf b (q k)) u v) = - RInt w u v.
Proof.
  intros Hu Hv.
  pose proof (RInt_rsum N P (fun k => kf b (q k)) u v (fun k _ => kf_ex b (q k) u v Hu Hv)) as H.
  rewrite <- (is_RInt_unique (fun t => rsum N (fun k => P k * kf b (q k) t)) u v _ H).
  rewrite (RInt_ext _ (fun t => opp (w t))).
  - rewrite (RInt_opp w); [reflexivity|]. apply ex_RInt_pos; auto. apply w_continuous.
  - intros t _. unfold w, g, kf, opp; cbn.
    rewrite (rsum_ext N _ (fun k => (P k - P k * exp (- (t * q k))) * Rpower t (-1 - b)))
      by (intros; ring).
    rewrite rsum_scal_r, rsum_minus. rewrite HP. ring.
Qed.

Lemma pos_bounds : exists lo hi, 0 < lo /\ 0 < hi /\
  forall k, (k < N)%nat -> q k <> 0 -> lo <= q k <= hi.
Proof.
  clear - Hq. induction N.
  - exists 1, 1. repeat split; try lra; lia.
  - destruct IHn as (lo & hi & Hlo & Hhi & H); [intros; apply Hq; lia|].
    destruct (Req_dec (q n) 0) as [E|E].
    + exists lo, hi. repeat split; auto; (destruct (Nat.eq_dec k n); [subst; contradiction|]);
        apply H; auto; lia.
    + assert (0 < q n) by (pose proof (Hq n ltac:(lia)); lra).
      exists (Rmin lo (q n)), (Rmax hi (q n)). split; [apply Rmin_pos; auto|].
      split; [apply Rlt_le_trans with hi; auto; apply Rmax_l|].
      intros k Hk Ek. destruct (Nat.eq_dec k n) as [->|Hne].
      * split; [apply Rmin_r|apply Rmax_r].
      * destruct (H k ltac:(lia) Ek). split.
        -- apply Rle_trans with lo; auto. apply Rmin_l.
        -- apply Rle_trans with hi; auto. apply Rmax_l.
Qed.

Lemma mix_main : exists C, 0 < C /\ forall c d, 0 < c -> c <= d ->
  C * rsum N (fun k => P k * pw (q k) b) <= - RInt w c d.
Proof.
  destruct (J_sup b Hb) as (C & HC & HJ). exists C. split; auto. intros c d Hc Hd.
  destruct pos_bounds as (lo & hi & Hlo & Hhi & Hlh).
  set (S := rsum N (fun k => Rabs (P k) * pw (q k) b)).
  assert (HS : 0 <= S).
  { apply rsum_nonneg. intros. apply Rmult_le_pos; [apply Rabs_pos|apply pw_nonneg]. }
  apply le_epsilon. intros eps He.
  assert (Heta : 0 < eps / (S + 1)) by (apply Rdiv_lt_0_compat; lra).
  destruct (HJ _ Heta) as (u0 & v0 & Hu0 & Hv0 & HJ').
  set (u := Rmin c (u0 / hi)). set (v := Rmax d (v0 / lo)).
  assert (Hu : 0 < u).
  { apply Rmin_pos; auto. apply Rdiv_lt_0_compat; lra. }
  assert (Huc : u <= c) by apply Rmin_l. assert (Hvd : d <= v) by apply Rmax_l.
  assert (Hv : 0 < v) by lra.
  assert (HW : RInt w c d <= RInt w u v).
  { apply RInt_widen; auto; [apply w_continuous|apply w_nonneg]. }
  pose proof (mix_integral u v Hu Hv) as HM.
  assert (HD : Rabs (rsum N (fun k => P k * RInt (kf b (q k)) u v)
                     - C * rsum N (fun k => P k * pw (q k) b)) <= eps / (S + 1) * S).
  { unfold S. rewrite <- !rsum_scal_l, <- rsum_minus.
    eapply Rle_trans; [apply rsum_Rabs|]. apply rsum_le. intros k Hk.
    unfold pw. destruct (Req_EM_T (q k) 0) as [E|E].
    - rewrite E, kf_int_zero. rewrite !Rmult_0_r, Rminus_0_r, Rabs_R0. lra.
    - destruct (Hlh k Hk E) as [Hl Hh].
      rewrite kf_int_scale by lra.
      replace (P k * (Rpower (q k) b * J b (q k * u) (q k * v)) - C * (P k * Rpower (q k) b))
        with (P k * Rpower (q k) b * (J b (q k * u) (q k * v) - C)) by ring.
      rewrite Rabs_mult, Rabs_mult, (Rabs_pos_eq (Rpower (q k) b)) by (left; apply exp_pos).
      rewrite (Rmult_comm (eps / (S + 1))). apply Rmult_le_compat_l.
      + apply Rmult_le_pos; [apply Rabs_pos|left; apply exp_pos].
      + apply HJ'.
        * split; [apply Rmult_lt_0_compat; lra|].
          apply Rle_trans with (hi * (u0 / hi)); [|right; field; lra].
          apply Rmult_le_compat; try lra. apply Rmin_r.
        * apply Rle_trans with (lo * (v0 / lo)); [right; field; lra|].
          apply Rmult_le_compat; try lra; [|apply Rmax_r].
          left. apply Rdiv_lt_0_compat; lra. }
  assert (HE : eps / (S + 1) * S <= eps).
  { replace (eps / (S + 1) * S) with (eps * (S / (S + 1))) by (field; lra).
    rewrite <- (Rmult_1_r eps) at 2. apply Rmult_le_compat_l; [lra|].
    apply (Rmult_le_reg_r (S + 1)); [lra|]. unfold Rdiv. rewrite Rmult_assoc, Rinv_l by lra. lra. }
  rewrite HM in HD. apply Rabs_le_between in HD. lra.
Qed.

Theorem mix_nonpos : rsum N (fun k => P k * pw (q k) b) <= 0.
Proof.
  destruct mix_main as (C & HC & H). specialize (H 1 1 Rlt_0_1 (Rle_refl 1)).
  rewrite RInt_point in H. unfold zero in H; cbn in H. rewrite Ropp_0 in H.
  apply (Rmult_le_reg_l C); auto. lra.
Qed.

Theorem mix_zero : rsum N (fun k => P k * pw (q k) b) = 0 -> forall t, 0 < t -> g t = 0.
Proof.
  intros H0 t Ht. destruct (Rle_lt_or_eq_dec _ _ (Hg t Ht)) as [Hpos|He]; auto. exfalso.
  assert (Hc : continuity_pt g t) by (apply continuity_pt_filterlim, g_continuous).
  destruct (Hc (g t / 2)) as (del & Hdel & Hnear); [lra|].
  cbn in Hnear. unfold R_dist in Hnear.
  set (d := Rmin (del / 2) (t / 2)).
  assert (Hd : 0 < d) by (apply Rmin_pos; lra).
  assert (Hd1 : d <= del / 2) by apply Rmin_l. assert (Hd2 : d <= t / 2) by apply Rmin_r.
  assert (Hgp : forall s, t <= s <= t + d -> 0 < g s).
  { intros s Hs. destruct (Req_dec s t) as [->|Hne]; auto.
    assert (HH : Rabs (g s - g t) < g t / 2).
    { apply Hnear. split; [split; [exact I|auto]|]. rewrite Rabs_pos_eq; lra. }
    apply Rabs_def2 in HH. lra. }
  destruct mix_main as (C & HC & H). specialize (H t (t + d) Ht ltac:(lra)). rewrite H0 in H.
  assert (0 < RInt w t (t + d)); [|lra].
  apply RInt_gt_0; [lra| |].
  - intros s Hs. apply Rmult_lt_0_compat; [apply Hgp; lra|apply exp_pos].
  - intros s Hs. apply w_continuous. lra.
Qed.
End Mix.
