(** The distance correlation t-test: C33. *)
From Coq Require Import Reals Lra Lia List Arith Bool ZArith.
From Verif Require Import Num Numpy MUtils MDistances MInternals MDcor MHypothesis MIndependence Sums Spec Centering Tab Samples Api RefDist RefDcor
  SpecFacts RefApi Witness PDcov.
Import ListNotations.
Local Open Scope R_scope.

(** The bias-corrected distance correlation of two samples. *)
Definition bcdcor (E : Env R) (x y : array R) : res R := outcome (u_distance_correlation_sqr E x y 1 (MethodEnum MAuto) CAuto).

(** v = n(n-3)/2 *)
Definition pairs_v (n : nat) : R := INR n * (INR n - 3) / 2.

Definition t_of (n : nat) (r : R) : R := sqrt (pairs_v n - 1) * r / sqrt (1 - r * r).

Lemma pairs_v_large n : (4 <= n)%nat -> 2 <= pairs_v n.
Proof. intros H. apply le_INR in H. replace (INR 4) with 4 in H by (cbn; lra). unfold pairs_v. nra. Qed.

Lemma t_v_pairs E n : e_num E = RNum -> t_v E n = pairs_v n.
Proof. intros EN. unfold t_v. rewrite EN. cbn. rewrite mult_IZR, minus_IZR, <- INR_IZR_INZ. reflexivity. Qed.

Lemma one_minus_pos r : -1 < r < 1 -> 0 < 1 - r * r.
Proof. intros. nra. Qed.

Lemma t_statistic_eval E x y r : valid_env E -> bcdcor E x y = Ok r -> -1 < r < 1 ->
  outcome (distance_correlation_t_statistic E x y) = Ok (t_of (shape0 x) r).
Proof.
  intros [EN _ _] Hr H. unfold bcdcor in Hr. unfold distance_correlation_t_statistic. rewrite EN at 1. change (nunit RNum) with 1. rewrite outcome_bind, Hr. cbv zeta.
  rewrite t_v_pairs by auto. rewrite EN. cbn [outcome ret snd]. f_equal. unfold t_of, sqrt_clamp. cbn. unfold Rltb.
  pose proof (one_minus_pos r H). destruct (Rlt_dec (1 - r * r) 0); [lra|reflexivity].
Qed.

Theorem C33_statistic E x y n : valid_env E -> paired n x y -> (4 <= n)%nat ->
  exists r, bcdcor E x y = Ok r /\ -1 <= r <= 1 /\
    (-1 < r < 1 -> outcome (distance_correlation_t_statistic E x y)
                   = Ok (sqrt (INR n * (INR n - 3) / 2 - 1) * r / sqrt (1 - r * r))).
Proof.
  intros HE Hp Hn. destruct (C08_u_dcor_range E x y n 1 MAuto CAuto HE Hp Hn) as (r & Hr & Hb); [lra|apply auto_accepts|].
  exists r. split; [exact Hr|]. split; [exact Hb|]. intros H. rewrite (t_statistic_eval E x y r) by auto.
  destruct Hp as (_ & _ & -> & _). reflexivity.
Qed.

Lemma t_of_sign n r : (4 <= n)%nat -> -1 < r < 1 -> (0 < t_of n r <-> 0 < r) /\ (t_of n r < 0 <-> r < 0).
Proof.
  intros Hn Hr. pose proof (one_minus_pos r Hr) as H1. pose proof (pairs_v_large n Hn) as H2.
  assert (0 < sqrt (pairs_v n - 1)) as Hs by (apply sqrt_lt_R0; lra). apply sqrt_lt_R0 in H1.
  assert (0 < sqrt (pairs_v n - 1) / sqrt (1 - r * r)) as Hc by (apply Rdiv_lt_0_compat; auto).
  assert (t_of n r = sqrt (pairs_v n - 1) / sqrt (1 - r * r) * r) as -> by (unfold t_of; field; lra).
  set (c := _ / _) in *. clearbody c. split; split; intros; nra.
Qed.

(** The sign of the statistic is that of the correlation. *)
Theorem C33_sign E x y n : valid_env E -> paired n x y -> (4 <= n)%nat ->
  forall r t, bcdcor E x y = Ok r -> -1 < r < 1 -> outcome (distance_correlation_t_statistic E x y) = Ok t ->
  (0 < t <-> 0 < r) /\ (t < 0 <-> r < 0).
Proof.
  intros HE Hp Hn r t Hr Hb Ht. rewrite (t_statistic_eval E x y r) in Ht by auto. injection Ht as <-.
  destruct Hp as (_ & _ & -> & _). apply t_of_sign; auto.
Qed.

Lemma t_of_increasing n r r' : (4 <= n)%nat -> -1 < r -> r < r' -> r' < 1 -> t_of n r < t_of n r'.
Proof.
  intros Hn H1 H2 H3. pose proof (pairs_v_large n Hn) as Hv.
  assert (0 < sqrt (pairs_v n - 1)) as Hs by (apply sqrt_lt_R0; lra).
  pose proof (sqrt_lt_R0 _ (one_minus_pos r ltac:(lra))) as P1. pose proof (sqrt_lt_R0 _ (one_minus_pos r' ltac:(lra))) as P2.
  unfold t_of. set (s := sqrt (1 - r * r)) in *. set (s' := sqrt (1 - r' * r')) in *.
  assert (s * s = 1 - r * r) as E1 by (apply sqrt_sqrt; nra). assert (s' * s' = 1 - r' * r') as E2 by (apply sqrt_sqrt; nra).
  assert (r / s < r' / s') as H.
  { apply Rmult_lt_reg_r with (s * s'); [apply Rmult_lt_0_compat; auto|]. field_simplify; try lra.
    (* r s' < r' s *) clearbody s s'.
    destruct (Rle_or_lt 0 r) as [Hr|Hr].
    - assert (0 < r') by lra. assert (s' < s) by (apply Rnot_le_lt; intros Hc; nra). nra.
    - destruct (Rle_or_lt r' 0) as [Hr'|Hr'].
      + assert (s < s') by (apply Rnot_le_lt; intros Hc; nra). nra.
      + nra. }
  unfold Rdiv in *. rewrite !Rmult_assoc. apply Rmult_lt_compat_l; auto.
Qed.

(** For samples of the same size the statistic is strictly increasing in the correlation. *)
Theorem C33_increasing E x y x' y' n : valid_env E -> paired n x y -> paired n x' y' -> (4 <= n)%nat ->
  forall r r' t t', bcdcor E x y = Ok r -> bcdcor E x' y' = Ok r' -> -1 < r -> r < r' -> r' < 1 ->
  outcome (distance_correlation_t_statistic E x y) = Ok t -> outcome (distance_correlation_t_statistic E x' y') = Ok t' -> t < t'.
Proof.
  intros HE Hp Hp' Hn r r' t t' Hr Hr' H1 H2 H3 Ht Ht'.
  rewrite (t_statistic_eval E x y r) in Ht by (auto; lra). rewrite (t_statistic_eval E x' y' r') in Ht' by (auto; lra).
  injection Ht as <-. injection Ht' as <-. destruct Hp as (_ & _ & -> & _). destruct Hp' as (_ & _ & -> & _).
  apply t_of_increasing; auto.
Qed.

(** What is used of scipy's [t.cdf]: it is a distribution function for each number of degrees of freedom. *)
Definition cdf_contract (E : Env R) : Prop := forall df, 0 < df ->
  (forall t, 0 <= e_tcdf E t df <= 1) /\ (forall t t', t <= t' -> e_tcdf E t df <= e_tcdf E t' df).

Theorem C33_p_value E x y n : valid_env E -> cdf_contract E -> paired n x y -> (4 <= n)%nat ->
  exists t p, outcome (distance_correlation_t_statistic E x y) = Ok t /\
    outcome (distance_correlation_t_test E x y) = Ok (mkTest p t) /\
    p = 1 - e_tcdf E t (INR n * (INR n - 3) / 2 - 1) /\ 0 <= p <= 1.
Proof.
  intros HE Hc Hp Hn. destruct (C33_statistic E x y n HE Hp Hn) as (r & Hr & _). pose proof HE as [EN _ _].
  assert (exists t, outcome (distance_correlation_t_statistic E x y) = Ok t) as [t Ht].
  { unfold bcdcor in Hr. eexists. unfold distance_correlation_t_statistic. rewrite EN at 1. change (nunit RNum) with 1.
    rewrite outcome_bind, Hr. reflexivity. }
  unfold distance_correlation_t_test. rewrite outcome_bind, Ht. rewrite t_v_pairs, EN by auto. cbn.
  destruct Hp as (_ & _ & -> & _). eexists _, _. repeat split; try reflexivity;
    destruct (Hc (pairs_v n - 1)) as [H _]; try (pose proof (pairs_v_large n Hn); lra); destruct (H t); lra.
Qed.

Theorem C33_p_decreasing E x y x' y' n : valid_env E -> cdf_contract E -> paired n x y -> paired n x' y' -> (4 <= n)%nat ->
  forall r r' t t', bcdcor E x y = Ok r -> bcdcor E x' y' = Ok r' -> -1 < r -> r < r' -> r' < 1 ->
  outcome (distance_correlation_t_test E x y) = Ok t -> outcome (distance_correlation_t_test E x' y') = Ok t' ->
  pvalue t' <= pvalue t.
Proof.
  intros HE Hc Hp Hp' Hn r r' u u' Hr Hr' H1 H2 H3 Hu Hu'.
  destruct (C33_p_value E x y n HE Hc Hp Hn) as (t & p & Ht & Htt & -> & _).
  destruct (C33_p_value E x' y' n HE Hc Hp' Hn) as (t' & p' & Ht' & Htt' & -> & _).
  rewrite Htt in Hu. rewrite Htt' in Hu'. injection Hu as <-. injection Hu' as <-. cbn [pvalue].
  pose proof (C33_increasing E x y x' y' n HE Hp Hp' Hn r r' t t' Hr Hr' H1 H2 H3 Ht Ht').
  destruct (Hc (INR n * (INR n - 3) / 2 - 1)) as [_ Hm]; [pose proof (pairs_v_large n Hn); unfold pairs_v in *; lra|].
  specialize (Hm t t'). lra.
Qed.

(** Extended reals: correlation 1 gives plus infinity, correlation -1 minus infinity. *)
Theorem C33_infinite E (x y : array xR) n : e_num E = XNum -> shape0 x = n -> (4 <= n)%nat ->
  (outcome (u_distance_correlation_sqr E x y (Fin 1) (MethodEnum MAuto) CAuto) = Ok (Fin 1) ->
     outcome (distance_correlation_t_statistic E x y) = Ok PInf) /\
  (outcome (u_distance_correlation_sqr E x y (Fin 1) (MethodEnum MAuto) CAuto) = Ok (Fin (-1)) ->
     outcome (distance_correlation_t_statistic E x y) = Ok NInf).
Proof.
  intros EN Hs Hn. pose proof (pairs_v_large n Hn) as Hv.
  assert (nsqrt XNum (nsub XNum (t_v E n) (Fin 1)) = Fin (sqrt (pairs_v n - 1))) as Hq.
  { unfold t_v. rewrite EN. cbn. unfold Reqb. destruct (Req_EM_T 2 0); [lra|].
    cbn. unfold Rltb. rewrite mult_IZR, minus_IZR, <- INR_IZR_INZ. fold (pairs_v n). destruct (Rlt_dec (pairs_v n + - (1)) 0); [lra|reflexivity]. }
  assert (0 < sqrt (pairs_v n - 1)) as Hp by (apply sqrt_lt_R0; lra).
  split; intros Hr; unfold distance_correlation_t_statistic; rewrite EN at 1; change (nunit XNum) with (Fin 1);
    rewrite outcome_bind, Hr, Hs; cbv zeta; rewrite EN; change (nunit XNum) with (Fin 1); rewrite Hq; cbn [outcome ret snd]; f_equal;
    unfold sqrt_clamp; cbn; unfold xltb; cbn.
  - replace (1 + - (1 * 1)) with 0 by ring. unfold Rleb, Reqb. destruct (Rle_dec 0 0); [|lra]. destruct (Req_EM_T 0 0); [|lra]. cbn.
    unfold Rltb. destruct (Rlt_dec 0 0); [lra|]. cbn. rewrite sqrt_0. unfold Reqb. destruct (Req_EM_T 0 0); [|lra].
    unfold Rltb. destruct (Rlt_dec 0 _); [reflexivity|lra].
  - replace (1 + - (-1 * -1)) with 0 by ring. unfold Rleb, Reqb. destruct (Rle_dec 0 0); [|lra]. destruct (Req_EM_T 0 0); [|lra]. cbn.
    unfold Rltb. destruct (Rlt_dec 0 0); [lra|]. cbn. rewrite sqrt_0. unfold Reqb. destruct (Req_EM_T 0 0); [|lra].
    unfold Rltb. destruct (Rlt_dec 0 _); [lra|]. destruct (Rlt_dec _ 0); [reflexivity|lra].
Qed.

(** The distances of [xs] and [ys] and their bias-corrected covariances. *)
Definition dx (i j : nat) : R := IZR (nth j (nth i [[0;2;1;2;2];[2;0;1;0;4];[1;1;0;1;3];[2;0;1;0;4];[2;4;3;4;0]] [])%Z 0%Z).
Definition dy (i j : nat) : R := IZR (nth j (nth i [[0;2;2;7;1];[2;0;0;5;1];[2;0;0;5;1];[7;5;5;0;6];[1;1;1;6;0]] [])%Z 0%Z).

Lemma xs_dist i j : (i < 5)%nat -> (j < 5)%nat -> distances 1 xs i j = dx i j.
Proof.
  intros Hi Hj. rewrite distances_1 by reflexivity. unfold obs, dx; cbn [adata xs nth].
  destruct i as [|[|[|[|[|i]]]]]; try lia; destruct j as [|[|[|[|[|j]]]]]; try lia; cbn;
    match goal with |- Rabs ?a = _ => (rewrite (Rabs_right a) by lra) || (rewrite (Rabs_left a) by lra) end; lra.
Qed.
Lemma ys_dist i j : (i < 5)%nat -> (j < 5)%nat -> distances 1 ys i j = dy i j.
Proof.
  intros Hi Hj. rewrite distances_1 by reflexivity. unfold obs, dy; cbn [adata ys nth].
  destruct i as [|[|[|[|[|i]]]]]; try lia; destruct j as [|[|[|[|[|j]]]]]; try lia; cbn;
    match goal with |- Rabs ?a = _ => (rewrite (Rabs_right a) by lra) || (rewrite (Rabs_left a) by lra) end; lra.
Qed.

Lemma xs_ys_cov : udcov2 5 dx dy = 8 / 15 /\ udcov2 5 dx dx = 16 / 15 /\ udcov2 5 dy dy = 2 / 5.
Proof.
  assert (forall a, rsum2 5 5 a = a 0%nat 0%nat + a 0%nat 1%nat + a 0%nat 2%nat + a 0%nat 3%nat + a 0%nat 4%nat + a 1%nat 0%nat + a 1%nat 1%nat + a 1%nat 2%nat + a 1%nat 3%nat + a 1%nat 4%nat + a 2%nat 0%nat + a 2%nat 1%nat + a 2%nat 2%nat + a 2%nat 3%nat + a 2%nat 4%nat + a 3%nat 0%nat + a 3%nat 1%nat + a 3%nat 2%nat + a 3%nat 3%nat + a 3%nat 4%nat + a 4%nat 0%nat + a 4%nat 1%nat + a 4%nat 2%nat + a 4%nat 3%nat + a 4%nat 4%nat) as H2
    by (intros; unfold rsum2; cbn [rsum]; ring).
  assert (forall f : nat -> R, rsum 5 f = f 0%nat + f 1%nat + f 2%nat + f 3%nat + f 4%nat) as H1 by (intros; cbn; ring).
  repeat split; unfold udcov2, uprod; rewrite H2; unfold ucenter; cbn [Nat.eqb]; rewrite !H2, !H1; unfold dx, dy; cbn; lra.
Qed.

Lemma xs_ys_bcdcor b : bcdcor (env_R b) xs ys = Ok (8 / 15 / sqrt (16 / 15 * (2 / 5))).
Proof.
  unfold bcdcor. rewrite (u_dcor_sqr_ok (env_R b) (env_R_valid b) xs ys 5) by (apply xs_ys || apply auto_accepts || lra || lia).
  f_equal. unfold udcor2. destruct xs_ys_cov as (H1 & H2 & H3).
  rewrite (udcov2_ext 5 _ _ dx dy), (udcov2_ext 5 (distances 1 xs) _ dx dx), (udcov2_ext 5 (distances 1 ys) _ dy dy)
    by (auto using xs_dist, ys_dist). rewrite H1, H2, H3. unfold corr. destruct (Req_EM_T _ _); [lra|reflexivity].
Qed.

(** The correlation of [xs] and [ys] lies strictly between 0 and 1. *)
Example C33_meets : exists r, bcdcor (env_R true) xs ys = Ok r /\ 0 < r < 1 /\ cdf_contract (env_R true).
Proof.
  eexists. split; [apply xs_ys_bcdcor|]. split; [|intros df _; cbn; split; intros; lra].
  assert (8 / 15 < sqrt (16 / 15 * (2 / 5))) as H by (apply Rsqr_incrst_0; [rewrite Rsqr_sqrt by lra; unfold Rsqr; lra|lra|apply sqrt_pos]).
  split; [apply Rdiv_lt_0_compat; lra|]. apply (Rmult_lt_reg_r (sqrt (16 / 15 * (2 / 5)))); [lra|]. field_simplify; lra.
Qed.
