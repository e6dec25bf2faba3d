(** Partial distance covariance and correlation: C22, C23. *)
From Coq Require Import Reals Lra Lia List Arith Bool ZArith.
From Verif Require Import Num Numpy MUtils MDistances MInternals MDcor MPartial Sums Spec Centering Tab Samples Api RefDist
  RefDcor RefCenter SpecFacts Invariance RefApi Witness.
Import ListNotations.
Local Open Scope R_scope.

(** Three samples of the same size, at least 4. *)
Definition triple (n : nat) (x y z : array R) : Prop :=
  wf x /\ wf y /\ wf z /\ shape0 x = n /\ shape0 y = n /\ shape0 z = n /\ (4 <= n)%nat.

(** <x, y>: the bias-corrected squared distance covariance (Spec.v). *)
Definition ip (n : nat) (x y : array R) : R := udcov2 n (distances 1 x) (distances 1 y).

(** The residual covariance from the inner products. *)
Definition pcov (n : nat) (x y z : array R) : R :=
  if Req_EM_T (ip n z z) 0 then ip n x y else ip n x y - ip n x z * ip n y z / ip n z z.

Lemma ip_uprod n x y : ip n x y = uprod n (ucenter n (distances 1 x)) (ucenter n (distances 1 y)).
Proof. reflexivity. Qed.
Lemma ip_sym n x y : ip n x y = ip n y x.
Proof. apply udcov2_sym. Qed.
Lemma ip_nonneg n x : (4 <= n)%nat -> 0 <= ip n x x.
Proof. intros. rewrite ip_uprod. apply uprod_nonneg; auto. Qed.
Lemma ip_cs n x y : ip n x y * ip n x y <= ip n x x * ip n y y.
Proof. rewrite !ip_uprod. apply uprod_cs. Qed.

Section Values.
  Variables (E : Env R) (x y z : array R) (n : nat).
  Hypothesis HE : valid_env E.
  Hypothesis Ht : triple n x y z.

  (** ** C22 *)

  (** [<x, y>] is what u_distance_covariance_sqr returns. *)
  Theorem C22_inner_product : outcome (u_distance_covariance_sqr E x y 1 (MethodEnum MAuto) CAuto) = Ok (ip n x y).
  Proof.
    destruct Ht as (Wx & Wy & Wz & Sx & Sy & Sz & Hn). apply (call_ok UDcovSqr E x y n); auto using auto_accepts; [|lra].
    unfold paired. repeat split; auto; lia.
  Qed.

  Theorem C22_value : outcome (partial_distance_covariance E x y z) = Ok (pcov n x y z).
  Proof.
    destruct Ht as (Wx & Wy & Wz & Sx & Sy & Sz & Hn). pose proof HE as [EN _ _].
    assert (nunit (e_num E) = 1) as H1 by (rewrite EN; reflexivity).
    unfold partial_distance_covariance. rewrite H1, !outcome_bind, (dmg_u E x n) by (auto; lra || lia). cbn [rbind].
    rewrite !outcome_bind, (dmg_u E y n) by (auto; lra || lia). cbn [rbind].
    rewrite !outcome_bind, (dmg_u E z n) by (auto; lra || lia). cbn [rbind].
    set (a := ucenter n (distances 1 x)). set (b := ucenter n (distances 1 y)). set (c := ucenter n (distances 1 z)).
    destruct (u_compl_tab E EN n c Hn) as (q & Hq & Hv).
    rewrite outcome_bind. cbn [outcome lift snd]. rewrite Hq. cbn [rbind].
    rewrite outcome_bind. cbn [outcome lift snd]. rewrite Hv. cbn [rbind].
    rewrite outcome_bind. cbn [outcome lift snd]. rewrite Hv. cbn [rbind].
    cbn [outcome lift snd]. rewrite u_product_tab by auto. f_equal. apply (uprod_residual n a b c Hn).
  Qed.
End Values.

Lemma triple_sym n x y z : triple n x y z -> triple n y x z.
Proof. unfold triple. tauto. Qed.

Lemma pcov_sym n x y z : pcov n x y z = pcov n y x z.
Proof. unfold pcov. rewrite (ip_sym n x y). destruct (Req_EM_T _ _); auto. f_equal. f_equal. ring. Qed.

Theorem C22_symmetric E x y z n : valid_env E -> triple n x y z ->
  outcome (partial_distance_covariance E x y z) = outcome (partial_distance_covariance E y x z).
Proof. intros HE Ht. rewrite !(C22_value E _ _ _ n) by auto using triple_sym. f_equal. apply pcov_sym. Qed.

(** 0 when one of the first two samples is [z] (or a sample with the same distances). *)
Lemma ip_iso n x x' y : isometric x x' -> shape0 x = n -> ip n x' y = ip n x y.
Proof.
  intros Hi Hx. apply udcov2_ext; auto. intros i j Hii Hj. apply isometric_distances; auto; rewrite Hx; auto.
Qed.

Theorem C22_zero E x y z n : valid_env E -> triple n x y z ->
  (isometric z x -> outcome (partial_distance_covariance E x y z) = Ok 0) /\
  (isometric z y -> outcome (partial_distance_covariance E x y z) = Ok 0).
Proof.
  intros HE Ht. pose proof Ht as (_ & _ & _ & _ & _ & Sz & Hn).
  assert (forall x y, isometric z x -> pcov n x y z = 0) as H0.
  { intros x' y' Hi. unfold pcov. rewrite !(ip_iso n z x') by auto.
    destruct (Req_EM_T (ip n z z) 0) as [Hz|Hz].
    - pose proof (ip_cs n z y') as Hc. rewrite Hz, Rmult_0_l in Hc. nra.
    - rewrite (ip_sym n z y'). field. auto. }
  rewrite (C22_value E x y z n) by auto. split; intros Hi; f_equal; [apply H0; auto|].
  rewrite pcov_sym. apply H0; auto.
Qed.

(** For a constant [z] it is the bias-corrected distance covariance of [x] and [y]. *)
Lemma ip_constant n x z : (4 <= n)%nat -> shape0 z = n -> constant z -> ip n x z = 0.
Proof.
  intros Hn Sz Hc.
  assert (forall i j, (i < n)%nat -> (j < n)%nat -> distances 1 z i j = 0) as Hd.
  { intros i j Hi Hj. apply dmat_zero_iff. apply Hc; rewrite Sz; auto. }
  rewrite ip_sym, ip_uprod. apply uprod_zero_l. intros i j Hi Hj.
  rewrite (ucenter_ext n _ (fun _ _ => 0 * 0)) by (auto; intros; rewrite Hd by auto; ring).
  rewrite (ucenter_scal n 0 (fun _ _ => 0)). ring.
Qed.

Theorem C22_constant E x y z n : valid_env E -> triple n x y z -> constant z ->
  outcome (partial_distance_covariance E x y z) = outcome (u_distance_covariance_sqr E x y 1 (MethodEnum MAuto) CAuto).
Proof.
  intros HE Ht Hc. rewrite (C22_value E x y z n), (C22_inner_product E x y z n) by auto. f_equal.
  pose proof Ht as (_ & _ & _ & _ & _ & Sz & Hn).
  unfold pcov. rewrite (ip_constant n z z) by auto. destruct (Req_EM_T 0 0); [reflexivity|contradiction].
Qed.

(** Isometries of any of the three samples change nothing; scaling [z] neither. *)
Theorem C22_isometric E x y z x' y' z' n : valid_env E -> triple n x y z -> triple n x' y' z' ->
  isometric x x' -> isometric y y' -> isometric z z' ->
  outcome (partial_distance_covariance E x' y' z') = outcome (partial_distance_covariance E x y z).
Proof.
  intros HE Ht Ht' Hx Hy Hz. rewrite !(C22_value E _ _ _ n) by auto. f_equal.
  destruct Ht as (_ & _ & _ & Sx & Sy & Sz & _). unfold pcov.
  assert (forall u u' v v', isometric u u' -> isometric v v' -> shape0 u = n -> shape0 v = n -> ip n u' v' = ip n u v) as H.
  { intros. rewrite (ip_iso n u u'), (ip_sym n u v'), (ip_iso n v v') by auto. apply ip_sym. }
  rewrite (H x x' y y'), (H x x' z z'), (H y y' z z'), (H z z' z z') by auto. reflexivity.
Qed.

Theorem C22_scaled_z E x y z z' n s : valid_env E -> triple n x y z -> scaled s z z' -> s <> 0 ->
  outcome (partial_distance_covariance E x y z') = outcome (partial_distance_covariance E x y z).
Proof.
  intros HE Ht Hs H0. pose proof Ht as (Wx & Wy & Wz & Sx & Sy & Sz & Hn).
  pose proof Hs as [(_ & _ & _ & Sz' & Wz') _].
  assert (triple n x y z') as Ht' by (unfold triple; rewrite Sz'; auto 8).
  rewrite !(C22_value E _ _ _ n) by auto. f_equal.
  set (k := rpow (Rabs s) 1). assert (0 < k) as Hk by (apply rpow_pos, Rabs_pos_lt; auto).
  assert (forall u, ip n u z' = k * ip n u z) as H1.
  { intros u. unfold ip.
    rewrite (udcov2_ext n (distances 1 u) (distances 1 z') (fun i j => 1 * distances 1 u i j) (fun i j => k * distances 1 z i j)).
    - rewrite udcov2_scal. ring.
    - intros. ring.
    - intros. apply (scaled_distances s); auto; rewrite Sz; auto. }
  assert (ip n z' z' = k * k * ip n z z) as H2 by (rewrite H1, ip_sym, H1; ring).
  unfold pcov. rewrite H2, !H1.
  destruct (Req_EM_T (ip n z z) 0) as [Hz|Hz].
  - rewrite Hz, Rmult_0_r. destruct (Req_EM_T 0 0); [reflexivity|contradiction].
  - destruct (Req_EM_T (k * k * ip n z z) 0) as [Hz'|Hz'].
    + exfalso. apply Hz. apply Rmult_integral in Hz'. destruct Hz' as [Hz'|]; auto. nra.
    + field. split; auto. lra.
Qed.

Example C22_meets : triple 5 xs ys zs /\ exists v, outcome (partial_distance_covariance (env_R true) xs ys zs) = Ok v.
Proof.
  assert (triple 5 xs ys zs) as H.
  { pose proof xs_ys as (A & B & C & D & _). pose proof xs_zs as (_ & F & _ & G & _). unfold triple. auto 8. }
  split; auto. eexists. apply (C22_value _ _ _ _ 5); auto using env_R_valid.
Qed.

(** ** C23 *)

Lemma corr_r ab aa bb : 0 <= aa -> 0 <= bb -> ab * ab <= aa * bb ->
  (if Reqb (aa * bb) 0 then aa * bb else ab / sqrt (aa * bb)) = corr ab aa bb /\ -1 <= corr ab aa bb <= 1.
Proof.
  intros Ha Hb Hc. split; [|apply corr_range; auto]. unfold corr.
  destruct (Reqb_spec (aa * bb) 0) as [H|H]; destruct (Req_EM_T (aa * bb) 0); try contradiction; auto.
Qed.

Lemma clip1_id E v : e_num E = RNum -> -1 <= v <= 1 -> clip1 E v = v.
Proof.
  intros EN [H1 H2]. unfold clip1. rewrite EN. cbn [nltb nofZ RNum].
  destruct (Rltb_spec v (-1)); [lra|]. destruct (Rltb_spec 1 v); [lra|]. reflexivity.
Qed.

Lemma clipped_correlation_value E ab aa bb : e_num E = RNum -> 0 <= aa -> 0 <= bb -> ab * ab <= aa * bb ->
  clipped_correlation E ab aa bb = corr ab aa bb.
Proof.
  intros EN Ha Hb Hc. unfold clipped_correlation. rewrite EN, sqrt_clamp_R. cbn [nmul neqb nzero ndiv RNum].
  destruct (corr_r ab aa bb Ha Hb Hc) as [-> H]. apply clip1_id; auto.
Qed.

(** The formula of the code is the cosine of the residuals. *)
Lemma partial_formula ab ac bc aa bb cc : 0 <= aa -> 0 <= bb -> 0 <= cc ->
  ab * ab <= aa * bb -> ac * ac <= aa * cc -> bc * bc <= bb * cc ->
  let r_xy := corr ab aa bb in let r_xz := corr ac aa cc in let r_yz := corr bc bb cc in
  let denom := sqrt (1 - r_xz * r_xz) * sqrt (1 - r_yz * r_yz) in
  (if Reqb denom 0 then denom else (r_xy - r_xz * r_yz) / denom)
  = corr (pinner ab ac bc cc) (pinner aa ac ac cc) (pinner bb bc bc cc).
Proof.
  intros Ha Hb Hc Hab Hac Hbc. cbv zeta.
  assert (forall v p q, p * q = 0 -> corr v p q = 0) as Hcorr0
    by (intros v p q H; unfold corr; destruct (Req_EM_T (p * q) 0); [reflexivity|contradiction]).
  assert (forall v p q, v = 0 -> corr v p q = 0) as Hcorr1
    by (intros v p q ->; unfold corr; destruct (Req_EM_T (p * q) 0); [reflexivity|unfold Rdiv; ring]).
  assert (forall u v w, u * u <= v * w -> v = 0 -> u = 0) as Hz by (intros u v w H ->; nra).
  assert (forall s, (if Reqb s 0 then s else 0 / s) = 0) as Hs
    by (intros s; destruct (Reqb_spec s 0); [auto|unfold Rdiv; ring]).
  destruct (Req_EM_T aa 0) as [Za|Za].
  { assert (ab = 0) by (apply (Hz ab aa bb); auto). assert (ac = 0) by (apply (Hz ac aa cc); auto). subst aa ab ac.
    rewrite !(Hcorr1 0) by auto. match goal with |- (if _ then _ else ?num / _) = _ => replace num with 0 by ring end. rewrite Hs. symmetry. apply Hcorr1.
    unfold pinner. destruct (Req_EM_T cc 0); auto. field. auto. }
  destruct (Req_EM_T bb 0) as [Zb|Zb].
  { assert (ab = 0) by (apply (Hz ab bb aa); auto; nra). assert (bc = 0) by (apply (Hz bc bb cc); auto). subst bb ab bc.
    rewrite !(Hcorr1 0) by auto. match goal with |- (if _ then _ else ?num / _) = _ => replace num with 0 by ring end. rewrite Hs. symmetry. apply Hcorr1.
    unfold pinner. destruct (Req_EM_T cc 0); auto. field. auto. }
  destruct (Req_EM_T cc 0) as [Zc|Zc].
  { assert (ac = 0) by (apply (Hz ac cc aa); auto; nra). assert (bc = 0) by (apply (Hz bc cc bb); auto; nra). subst cc ac bc.
    rewrite !(Hcorr1 0) by auto. rewrite !Rmult_0_l, !Rminus_0_r, sqrt_1, Rmult_1_l.
    destruct (Reqb_spec 1 0); [lra|]. unfold pinner. destruct (Req_EM_T 0 0); [field|contradiction]. }
  set (al := sqrt aa). set (be := sqrt bb). set (ga := sqrt cc).
  assert (0 < al) as Pa by (apply sqrt_lt_R0; lra). assert (0 < be) as Pb by (apply sqrt_lt_R0; lra).
  assert (0 < ga) as Pc by (apply sqrt_lt_R0; lra).
  assert (aa = al * al) as Ea by (symmetry; apply sqrt_sqrt; auto).
  assert (bb = be * be) as Eb by (symmetry; apply sqrt_sqrt; auto).
  assert (cc = ga * ga) as Ec by (symmetry; apply sqrt_sqrt; auto).
  assert (forall u v w s t, v = s * s -> w = t * t -> 0 < s -> 0 < t -> corr u v w = u / (s * t)) as Hcv.
  { intros u v w s t -> -> Ps Pt. unfold corr. destruct (Req_EM_T (s * s * (t * t)) 0) as [H|H]; [exfalso; assert (0 < s * s * (t * t)) by (repeat apply Rmult_lt_0_compat; auto); lra|].
    replace (s * s * (t * t)) with ((s * t) * (s * t)) by ring. rewrite sqrt_square; [reflexivity|nra]. }
  rewrite (Hcv ab aa bb al be), (Hcv ac aa cc al ga), (Hcv bc bb cc be ga) by auto.
  set (u := ac / (al * ga)). set (v := bc / (be * ga)).
  assert (ac = u * (al * ga)) as Eac by (unfold u; field; lra).
  assert (bc = v * (be * ga)) as Ebc by (unfold v; field; lra).
  assert (u * u <= 1) as Hu.
  { rewrite Eac, Ea, Ec in Hac. assert (0 < (al * ga) * (al * ga)) by (apply Rmult_lt_0_compat; nra). nra. }
  assert (v * v <= 1) as Hv.
  { rewrite Ebc, Eb, Ec in Hbc. assert (0 < (be * ga) * (be * ga)) by (apply Rmult_lt_0_compat; nra). nra. }
  assert (pinner aa ac ac cc = aa * (1 - u * u)) as ->.
  { unfold pinner. destruct (Req_EM_T cc 0); [contradiction|]. rewrite Eac, Ea, Ec. field. lra. }
  assert (pinner bb bc bc cc = bb * (1 - v * v)) as ->.
  { unfold pinner. destruct (Req_EM_T cc 0); [contradiction|]. rewrite Ebc, Eb, Ec. field. lra. }
  assert (pinner ab ac bc cc = (ab / (al * be) - u * v) * (al * be)) as ->.
  { unfold pinner. destruct (Req_EM_T cc 0); [contradiction|]. rewrite Eac, Ebc, Ec. field. lra. }
  set (s := sqrt (1 - u * u)). set (t := sqrt (1 - v * v)).
  assert (s * s = 1 - u * u) as Es by (apply sqrt_sqrt; lra).
  assert (t * t = 1 - v * v) as Et by (apply sqrt_sqrt; lra).
  assert (0 <= s) as Ps by apply sqrt_pos. assert (0 <= t) as Pt by apply sqrt_pos.
  destruct (Reqb_spec (s * t) 0) as [Hst|Hst].
  - rewrite Hst. symmetry. apply Hcorr0. rewrite <- Es, <- Et.
    replace (aa * (s * s) * (bb * (t * t))) with (aa * bb * ((s * t) * (s * t))) by ring. rewrite Hst. ring.
  - assert (0 < s) by (destruct Ps as [|Ps]; auto; rewrite <- Ps in Hst; lra).
    assert (0 < t) by (destruct Pt as [|Pt]; auto; rewrite <- Pt in Hst; lra).
    rewrite (Hcv _ (aa * (1 - u * u)) (bb * (1 - v * v)) (al * s) (be * t)); try nra.
    field. lra.
Qed.

(** The value: the correlation of the residuals, i.e. [corr] (Spec.v: [cov / sqrt (vx vy)], 0 when a variance
    vanishes) of the three partial covariances. *)
Theorem C23_value E x y z n : valid_env E -> triple n x y z ->
  outcome (partial_distance_correlation E x y z) = Ok (corr (pcov n x y z) (pcov n x x z) (pcov n y y z)).
Proof.
  intros HE Ht. pose proof Ht as (Wx & Wy & Wz & Sx & Sy & Sz & Hn). pose proof HE as [EN _ _].
  assert (nunit (e_num E) = 1) as H1 by (rewrite EN; reflexivity).
  unfold partial_distance_correlation. rewrite H1, !outcome_bind, (dmg_u E x n) by (auto; lra || lia). cbn [rbind].
  rewrite !outcome_bind, (dmg_u E y n) by (auto; lra || lia). cbn [rbind].
  rewrite !outcome_bind, (dmg_u E z n) by (auto; lra || lia). cbn [rbind].
  do 6 (rewrite outcome_bind; cbn [outcome lift snd]; rewrite u_product_tab by auto; cbn [rbind]).
  rewrite <- !ip_uprod. cbv zeta.
  pose proof (ip_nonneg n x Hn). pose proof (ip_nonneg n y Hn). pose proof (ip_nonneg n z Hn).
  rewrite !clipped_correlation_value by (auto using ip_cs). rewrite EN, !sqrt_clamp_R.
  cbn [outcome ret snd nsub nmul neqb ndiv nzero RNum]. f_equal.
  rewrite partial_formula by auto using ip_cs. reflexivity.
Qed.

Theorem C23_range E x y z n : valid_env E -> triple n x y z ->
  exists v, outcome (partial_distance_correlation E x y z) = Ok v /\ -1 <= v <= 1.
Proof.
  intros HE Ht. eexists. split; [apply C23_value; eauto|]. apply corr_range.
  destruct Ht as (_ & _ & _ & _ & _ & _ & Hn).
  change (pcov n x y z) with (pinner (ip n x y) (ip n x z) (ip n y z) (ip n z z)).
  change (pcov n x x z) with (pinner (ip n x x) (ip n x z) (ip n x z) (ip n z z)).
  change (pcov n y y z) with (pinner (ip n y y) (ip n y z) (ip n y z) (ip n z z)).
  rewrite !ip_uprod, <- !uprod_residual by auto. apply uprod_cs.
Qed.

Theorem C23_symmetric E x y z n : valid_env E -> triple n x y z ->
  outcome (partial_distance_correlation E x y z) = outcome (partial_distance_correlation E y x z).
Proof.
  intros HE Ht. rewrite !(C23_value E _ _ _ n) by auto using triple_sym. f_equal. rewrite pcov_sym. apply corr_sym.
Qed.

(** In terms of the public functions only: with [cov = partial_distance_covariance]. *)
Theorem C23_cosine E x y z n : valid_env E -> triple n x y z ->
  exists r c vx vy,
    outcome (partial_distance_correlation E x y z) = Ok r /\
    outcome (partial_distance_covariance E x y z) = Ok c /\
    outcome (partial_distance_covariance E x x z) = Ok vx /\
    outcome (partial_distance_covariance E y y z) = Ok vy /\
    0 <= vx /\ 0 <= vy /\
    (vx * vy <> 0 -> r = c / sqrt (vx * vy)) /\ (vx * vy = 0 -> r = 0).
Proof.
  intros HE Ht. pose proof Ht as (Wx & Wy & Wz & Sx & Sy & Sz & Hn).
  assert (triple n x x z) by (unfold triple; auto 8). assert (triple n y y z) by (unfold triple; auto 8).
  do 4 eexists. split; [apply C23_value; eauto|]. split; [apply C22_value; eauto|].
  split; [apply C22_value; eauto|]. split; [apply C22_value; eauto|].
  assert (forall u, 0 <= pcov n u u z) as Hpos.
  { intros u. change (pcov n u u z) with (pinner (ip n u u) (ip n u z) (ip n u z) (ip n z z)).
    rewrite !ip_uprod, <- uprod_residual by auto. apply uprod_nonneg; auto. }
  split; [apply Hpos|]. split; [apply Hpos|]. unfold corr.
  split; intros H'; destruct (Req_EM_T _ _); try contradiction; reflexivity.
Qed.

(** With a constant [z], and with [z] one of the samples. *)
Theorem C23_constant E x y z n : valid_env E -> triple n x y z -> constant z ->
  outcome (partial_distance_correlation E x y z) = outcome (u_distance_correlation_sqr E x y 1 (MethodEnum MAuto) CAuto).
Proof.
  intros HE Ht Hc. rewrite (C23_value E x y z n) by auto. pose proof Ht as (Wx & Wy & Wz & Sx & Sy & Sz & Hn).
  symmetry. etransitivity; [apply (call_ok UDcorSqr E x y n); auto using auto_accepts; [|lra]|].
  - unfold paired. repeat split; auto; lia.
  - cbn [value]. f_equal. unfold pcov. rewrite !(ip_constant n z z) by auto.
    destruct (Req_EM_T 0 0); [reflexivity|contradiction].
Qed.

Theorem C23_same_as_z E x y z n : valid_env E -> triple n x y z -> isometric z x \/ isometric z y ->
  outcome (partial_distance_correlation E x y z) = Ok 0.
Proof.
  intros HE Ht Hi. rewrite (C23_value E x y z n) by auto. f_equal.
  assert (pcov n x y z = 0) as ->.
  { destruct (C22_zero E x y z n HE Ht) as [H1 H2]. pose proof (C22_value E x y z n HE Ht) as H3.
    destruct Hi as [Hi|Hi]; [specialize (H1 Hi); rewrite H1 in H3|specialize (H2 Hi); rewrite H2 in H3]; congruence. }
  unfold corr. destruct (Req_EM_T _ _); auto. unfold Rdiv. ring.
Qed.

Example C23_meets : exists v, outcome (partial_distance_correlation (env_R true) xs ys zs) = Ok v /\ -1 <= v <= 1.
Proof. apply (C23_range _ _ _ _ 5); [apply env_R_valid|apply C22_meets]. Qed.
