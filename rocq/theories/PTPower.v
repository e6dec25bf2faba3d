(** The t-test of independence finds every dependence: the p-value part of C75.

    [drawn ns dt n p X s]: [n] observations, the i-th being the atom [s i] of [X] (PUnbiased.v); [probability K w n]: over [n]
    independent draws of atoms with weights [w] (Consist.v). *)
From Coq Require Import Reals Lra Lia List Arith Bool ZArith.
From Verif Require Import Num Numpy MUtils MDistances MMergesort MInternals MDcor MEnergy MHypothesis MHomogeneity MIndependence
  Sums Spec Centering Tab Samples Api RefDist RefDcor RefCenter RefApi SpecFacts Invariance RefEnergy RefTests RefHomogeneity Exchange PermMean
  Expect Consist PopMath PopIndep Nonneg EnergyMath Witness PEnergy PTests PValidity PTTest PPermMean PUnbiased PConsist PPower.
Import List ListNotations.
Local Open Scope R_scope.

(** What is used of scipy's [t.cdf] besides [cdf_contract]: one bound on the upper tail for all numbers of degrees of freedom from 1 up.
    Student's distributions meet it, their tails being below that of one degree of freedom. *)
Definition common_tail (E : Env R) : Prop := forall alpha, 0 < alpha ->
  exists T, forall t df, T <= t -> 1 <= df -> 1 - e_tcdf E t df <= alpha.

(** [r]: the bias-corrected correlation. Below 1 the test returns [p]; at 1 the statistic is plus infinity and the p-value 0 (C33_infinite). *)
Theorem C75_t_test E K w X Y p q ns dt ns' dt' : valid_env E -> cdf_contract E -> common_tail E ->
  distribution K w -> ~ independent K w p q X Y ->
  exists r pv, (forall n s, (4 <= n)%nat -> bcdcor E (drawn ns dt n p X s) (drawn ns' dt' n q Y s) = Ok (r n s) /\ r n s <= 1 /\
      (-1 < r n s < 1 -> exists t,
        outcome (distance_correlation_t_test E (drawn ns dt n p X s) (drawn ns' dt' n q Y s)) = Ok (mkTest (pv n s) t))) /\
  forall alpha delta, 0 < alpha -> 0 < delta -> exists N, forall n, (N <= n)%nat ->
    1 - delta <= probability K w n (fun s => if Rle_dec 1 (r n s) then true else if Rlt_dec (-1) (r n s) then leb (pv n s) alpha else false).
Proof.
  intros HE Hc Htl HD Hi.
  destruct (C75_t_statistic E K w X Y p q ns dt ns' dt' HE HD Hi) as (r & t & Hr & Hb).
  exists r, (fun n s => 1 - e_tcdf E (t n s) (INR n * (INR n - 3) / 2 - 1)). split.
  - intros n s Hn. destruct (Hr n s Hn) as (R1 & R2 & R3). split; [auto|split; [auto|]]. intros R4. exists (t n s).
    destruct (C33_p_value E (drawn ns dt n p X s) (drawn ns' dt' n q Y s) n HE Hc) as (t' & p' & Ht & Hp & -> & _); [apply drawn_paired; lia|auto|].
    assert (t' = t n s) as -> by (rewrite (R3 R4) in Ht; congruence). exact Hp.
  - intros alpha delta Ha Hd. destruct (Htl alpha Ha) as (T & HT). destruct (Hb T delta Hd) as (N & HN).
    exists (4 + N)%nat. intros n Hn. eapply Rle_trans; [exact (HN n ltac:(lia))|].
    apply probability_le; auto. intros s _. destruct (Rle_dec 1 (r n s)); auto. destruct (Rlt_dec (-1) (r n s)); auto.
    unfold leb at 1. destruct (Rle_dec (t n s) T) as [|F]; cbn [negb]; [discriminate|]. intros _. unfold leb.
    destruct (Rle_dec _ alpha) as [|G]; auto. exfalso. apply G. apply HT; [lra|].
    pose proof (pairs_v_large n ltac:(lia)). unfold pairs_v in *. lra.
Qed.

(** An environment that meets the contracts, and a fair coin tested against itself at the level 5 %. *)
Definition heavy_cdf (t df : R) : R := if Rle_dec t 0 then 0 else t / (1 + t).
Definition env_tail : Env R := mkEnv R RNum argsort_R (fun n => repeat 7 n) (fun m => ([], [])) heavy_cdf true.

Lemma env_tail_valid : valid_env env_tail.
Proof. destruct (env_R_valid true) as [A B C]. split; [exact A|exact B|exact C]. Qed.

Lemma heavy_value t : 0 < t -> t / (1 + t) = 1 - / (1 + t).
Proof. intros. field. lra. Qed.

Lemma env_tail_cdf : cdf_contract env_tail.
Proof.
  intros df _. cbn [e_tcdf env_tail]. unfold heavy_cdf. split.
  - intros t. destruct (Rle_dec t 0); [lra|]. rewrite heavy_value by lra.
    assert (0 < / (1 + t)) by (apply Rinv_0_lt_compat; lra). assert (/ (1 + t) <= / 1) by (apply Rinv_le_contravar; lra). lra.
  - intros t t' H. destruct (Rle_dec t 0), (Rle_dec t' 0); try lra.
    + rewrite heavy_value by lra. assert (/ (1 + t') <= / 1) by (apply Rinv_le_contravar; lra). lra.
    + rewrite !heavy_value by lra. assert (/ (1 + t') <= / (1 + t)) by (apply Rinv_le_contravar; lra). lra.
Qed.

Lemma env_tail_common : common_tail env_tail.
Proof.
  intros alpha Ha. exists (/ alpha). intros t df Ht _. cbn [e_tcdf env_tail]. unfold heavy_cdf.
  assert (0 < / alpha) by (apply Rinv_0_lt_compat; lra).
  destruct (Rle_dec t 0); [lra|]. rewrite heavy_value by lra.
  assert (/ (1 + t) <= / / alpha) by (apply Rinv_le_contravar; lra). rewrite Rinv_inv in *. lra.
Qed.

Example C75_t_test_meets : exists r pv,
  (forall n s, (4 <= n)%nat -> bcdcor env_tail (drawn Numpy F64 n 1 coin s) (drawn Numpy F64 n 1 coin s) = Ok (r n s)) /\
  exists N, forall n, (N <= n)%nat -> 99 / 100 <= probability 2 (fun _ => 1 / 2) n
    (fun s => if Rle_dec 1 (r n s) then true else if Rlt_dec (-1) (r n s) then leb (pv n s) (1 / 20) else false).
Proof.
  destruct (C75_t_test env_tail 2 (fun _ => 1 / 2) coin coin 1 1 Numpy F64 Numpy F64) as (r & pv & H1 & H2);
    auto using env_tail_valid, env_tail_cdf, env_tail_common, coin_dependent.
  - split; [intros; lra|cbn; lra].
  - exists r, pv. split; [intros n s Hn; apply (H1 n s Hn)|]. destruct (H2 (1 / 20) (1 / 100)) as (N & HN); [lra|lra|].
    exists N. intros n Hn. specialize (HN n Hn). lra.
Qed.
