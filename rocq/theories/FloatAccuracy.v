(** Accuracy of the covariance formula in double precision. *)
From Coq Require Import Reals Lra Lia List Arith Bool ZArith Psatz.
From Flocq Require Import Core IEEE754.BinarySingleNaN.
From Verif Require Import Num Numpy MUtils MInternals MFloat Sums Tab RefFloat FloatError FloatSum.
Import ListNotations.
Local Open Scope R_scope.

Lemma near_ofZ z D : (1 <= z)%Z -> IZR z <= D -> D <= 2 ^ 900 ->
  is_finite (b64_ofZ z) = true /\ Rabs (B2R (b64_ofZ z) - IZR z) <= ulp1 * IZR z /\ 1 <= IZR z <= D.
Proof.
  intros Hz HD HM. assert (H1 : 1 <= IZR z) by (apply IZR_le; auto).
  assert (Nz : normal (IZR z)).
  { apply (normal_pos _ (IZR z)); [lra| |lra]. assert (/ IZR z <= 1) by (rewrite <- Rinv_1; apply Rinv_le; lra). lra. }
  destruct (normal_round _ Nz) as [R1 R2].
  pose proof (binary_normalize_correct 53 1024 b64_prec b64_emax mode_NE z 0 false) as H. cbv zeta in H.
  assert (F2R (Float radix2 z 0) = IZR z) as E by (unfold F2R; cbn [Fnum Fexp]; apply Rmult_1_r).
  rewrite E, Rlt_bool_true in H by exact R2. destruct H as (C1 & C2 & _).
  split; [exact C2|]. split; [|lra]. unfold b64_ofZ. rewrite C1. rewrite (Rabs_pos_eq (IZR z)) in R1 by lra. exact R1.
Qed.

Lemma pow2_le k l : (k <= l)%nat -> 2 ^ k <= 2 ^ l.
Proof. intros. apply Rle_pow; [lra|auto]. Qed.

(** The three denominators. *)
Definition den1 (n : nat) (bc : bool) : R := if bc then INR n - 3 else INR n.
Definition den2 (n : nat) (bc : bool) : R := if bc then (INR n - 2) * (INR n - 3) else INR n ^ 2.
Definition den3 (n : nat) (bc : bool) : R := if bc then (INR n - 1) * (INR n - 2) * (INR n - 3) else INR n ^ 3.

Section Formula.
  Context (lib : flib) (GL : good_lib lib) (E : Env b64) (EN : e_num E = B64Num lib).
  Context (n : nat) (Hn : (4 <= n)%nat) (Hbig : INR n <= 2 ^ 39) (bc : bool).

  Lemma dens_pos : 1 <= den1 n bc /\ 1 <= den2 n bc /\ 1 <= den3 n bc.
  Proof.
    assert (4 <= INR n) by (replace 4 with (INR 4) by (cbn; ring); apply le_INR; auto).
    assert (Q : forall p q, 1 <= p -> 1 <= q -> 1 <= p * q) by (intros p q Hp Hq; replace 1 with (1 * 1) by ring; apply Rmult_le_compat; lra).
    unfold den1, den2, den3. destruct bc; (split; [lra|split]).
    - apply Q; lra.
    - apply Q; [apply Q|]; lra.
    - cbn [pow]. rewrite Rmult_1_r. apply Q; lra.
    - cbn [pow]. rewrite Rmult_1_r. apply Q; [lra|]. apply Q; lra.
  Qed.
  Lemma dens_le : INR n <= 2 ^ 53 /\ den1 n bc <= 2 ^ 53 /\ den2 n bc <= 2 ^ 106 /\ den3 n bc <= 2 ^ 159.
  Proof.
    assert (H4 : 4 <= INR n) by (replace 4 with (INR 4) by (cbn; ring); apply le_INR; auto).
    assert (H : INR n <= 2 ^ 53) by (eapply Rle_trans; [exact Hbig|apply pow2_le; lia]).
    assert (Q2 : forall p q, 0 <= p <= INR n -> 0 <= q <= INR n -> p * q <= 2 ^ 106).
    { intros p q Hp Hq. change 106%nat with (53 + 53)%nat. rewrite pow_add. apply Rmult_le_compat; lra. }
    assert (Q3 : forall p q r, 0 <= p <= INR n -> 0 <= q <= INR n -> 0 <= r <= INR n -> p * q * r <= 2 ^ 159).
    { intros p q r Hp Hq Hr. change 159%nat with (106 + 53)%nat. rewrite pow_add. apply Rmult_le_compat; try lra.
      - apply Rmult_le_pos; lra.
      - apply Q2; lra. }
    unfold den1, den2, den3. split; [lra|]. destruct bc; (split; [lra|split]).
    - apply Q2; lra.
    - apply Q3; lra.
    - rewrite <- Rsqr_pow2. unfold Rsqr. apply Q2; lra.
    - replace (INR n ^ 3) with (INR n * INR n * INR n) by ring. apply Q3; lra.
  Qed.

  (** From sums with relative error [k0] roundings, between 2^-q and 2^q. *)
  Lemma from_terms_near k0 q0 k mp aa at_ ba bt P ras A rbs B : (q0 <= 300)%nat -> few (n + 12 + 2 * k0) ->
    near k0 (2 ^ q0) mp P -> Forall2 (near k0 (2 ^ q0)) aa ras -> near k0 (2 ^ q0) at_ A ->
    Forall2 (near k0 (2 ^ q0)) ba rbs -> near k0 (2 ^ q0) bt B -> length aa = n -> length ba = n ->
    let f1 := P / INR n / den1 n bc in
    let f2 := np_sum RNum (map2 Rmult (map (fun v => v / INR n) ras) rbs) / den2 n bc in
    let f3 := A / INR n * B / den3 n bc in
    exists v, dcov_from_terms E k mp aa at_ ba bt n bc = Ok v /\ absn (n + 10 + 2 * k0) v (f1 - 2 * f2 + f3) (f1 + 2 * f2 + f3).
  Proof.
    intros Hq0 fw HP HA1 HA2 HB1 HB2 La Lb f1 f2 f3.
    destruct dens_pos as (D1 & D2 & D3). destruct dens_le as (Dn & D1' & D2' & D3').
    assert (n1 : (1 <= Z.of_nat n)%Z) by lia.
    assert (Ofn : INR n = IZR (Z.of_nat n)) by apply INR_IZR_INZ.
    assert (O1 : den1 n bc = IZR (if bc then Z.of_nat n - 3 else Z.of_nat n)).
    { unfold den1. rewrite Ofn. destruct bc; rewrite ?minus_IZR; reflexivity. }
    assert (O2 : den2 n bc = IZR (if bc then (Z.of_nat n - 2) * (Z.of_nat n - 3) else Z.of_nat n ^ 2)).
    { unfold den2. rewrite Ofn. destruct bc; rewrite ?mult_IZR, ?minus_IZR, ?(pow_IZR _ 2); reflexivity. }
    assert (O3 : den3 n bc = IZR (if bc then (Z.of_nat n - 1) * (Z.of_nat n - 2) * (Z.of_nat n - 3) else Z.of_nat n ^ 3)).
    { unfold den3. rewrite Ofn. destruct bc; rewrite ?mult_IZR, ?minus_IZR, ?(pow_IZR _ 3); reflexivity. }
    assert (P900 : forall j, (j <= 900)%nat -> 2 ^ j <= 2 ^ 900) by (intros; apply pow2_le; auto).
    assert (Ndiv : forall kk j a r z (D : R) q, near kk (2 ^ j) a r -> 1 <= D -> D = IZR z -> D <= 2 ^ q -> (j + q <= 900)%nat -> few (3 + kk) ->
      near (3 + kk) (2 ^ (j + q)) (b64_div a (b64_ofZ z)) (r / D)).
    { intros kk j a r z D q Ha HD1 HD Hq Hjq Hf.
      destruct (near_ofZ z (2 ^ q)) as (Z1 & Z2 & Z3); [apply le_IZR; lra|lra|apply P900; lia|].
      rewrite pow_add. apply near_div; auto; try (rewrite HD; auto; fail). rewrite <- pow_add. apply P900. auto. }
    assert (Nmul : forall kk j a r l q b s, near kk (2 ^ j) a r -> near l (2 ^ q) b s -> (j + q <= 900)%nat -> few (S (kk + l)) ->
      near (S (kk + l)) (2 ^ (j + q)) (b64_mul a b) (r * s)).
    { intros. rewrite pow_add. apply near_mul; auto. rewrite <- pow_add. auto. }
    assert (N2 : near 0 (2 ^ 1) (b64_ofZ 2) 2).
    { destruct (rep_ofZ 2 ltac:(lia)) as (F2 & R2 & _). repeat split; auto; try (cbn; lra). rewrite R2, Rminus_eq_0, Rabs_R0, gam_0. lra. }
    (* first *)
    assert (N1 : near (6 + k0) (2 ^ (q0 + 53 + 53)) (b64_div (b64_div mp (b64_ofZ (Z.of_nat n))) (b64_ofZ (if bc then Z.of_nat n - 3 else Z.of_nat n))) f1).
    { unfold f1. apply (Ndiv (3 + k0)%nat (q0 + 53)%nat _ _ _ _ 53%nat); auto; try lia; [|apply (few_le _ _ fw); lia].
      apply (Ndiv k0 q0 _ _ _ _ 53%nat); auto; try lia; try lra; [rewrite Ofn; apply IZR_le; lia|apply (few_le _ _ fw); lia]. }
    (* second *)
    set (quots := map (fun v => b64_div v (b64_ofZ (Z.of_nat n))) aa).
    set (rprods := map2 Rmult (map (fun v => v / INR n) ras) rbs).
    assert (Nq : Forall2 (near (3 + k0) (2 ^ (q0 + 53))) quots (map (fun v => v / INR n) ras)).
    { unfold quots. clear - HA1 Ndiv Dn n1 Ofn fw Hq0. induction HA1 as [|a r aa ras Ha HA IH]; cbn [map]; constructor; auto.
      apply (Ndiv k0 q0 _ _ _ _ 53%nat); auto; try lia; try lra; [rewrite Ofn; apply IZR_le; lia|apply (few_le _ _ fw); lia]. }
    assert (Lq : length quots = n) by (unfold quots; rewrite map_length; auto).
    assert (Np := near2_combine _ _ _ _ _ _ Nq _ _ HB1).
    assert (Lp : length (combine quots ba) = n) by (rewrite combine_length; lia).
    assert (Nsum : near (4 + 2 * k0 + n) (2 ^ (53 + (q0 + 53 + q0))) (ndot (B64Num lib) quots ba) (np_sum RNum rprods)).
    { eapply near_weaken; [apply (near_dot_of (3 + k0) k0 (2 ^ (q0 + 53)) (2 ^ q0) (2 ^ (53 + (q0 + 53 + q0))) (combine quots ba)) with (qs := combine (map (fun v => v / INR n) ras) rbs)|].
      - apply ndot_of; auto. lia.
      - exact Np.
      - rewrite Lp. apply (few_le _ _ fw). lia.
      - eapply Rle_trans; [apply (near2_bound _ _ _ _ _ _ Np)|]. rewrite Lp, <- pow_add, (pow_add 2 53). apply Rmult_le_compat_r; auto. apply pow_le. lra.
      - rewrite <- pow_add. apply pow2_le. lia.
      - apply pow_R1_Rle. lra.
      - apply P900. lia.
      - rewrite Lp. lia. }
    assert (Nsec : near (8 + 2 * k0 + n) (2 ^ (1 + (53 + (q0 + 53 + q0) + 106))) (b64_mul (b64_ofZ 2) (b64_div (ndot (B64Num lib) quots ba) (b64_ofZ (if bc then (Z.of_nat n - 2) * (Z.of_nat n - 3) else Z.of_nat n ^ 2)))) (2 * f2)).
    { apply (Nmul 0%nat 1%nat _ _ (7 + 2 * k0 + n)%nat (53 + (q0 + 53 + q0) + 106)%nat); auto; try lia; [|apply (few_le _ _ fw); lia].
      apply (Ndiv (4 + 2 * k0 + n)%nat (53 + (q0 + 53 + q0))%nat _ _ _ _ 106%nat); auto; try lia. apply (few_le _ _ fw). lia. }
    (* third *)
    assert (N3 : near (7 + 2 * k0) (2 ^ (q0 + 53 + q0 + 159)) (b64_div (b64_mul (b64_div at_ (b64_ofZ (Z.of_nat n))) bt)
        (b64_ofZ (if bc then (Z.of_nat n - 1) * (Z.of_nat n - 2) * (Z.of_nat n - 3) else Z.of_nat n ^ 3))) f3).
    { unfold f3. apply (Ndiv (4 + 2 * k0)%nat (q0 + 53 + q0)%nat _ _ _ _ 159%nat); auto; try lia; [|apply (few_le _ _ fw); lia].
      replace (4 + 2 * k0)%nat with (S (3 + k0 + k0)) by lia; apply (Nmul (3 + k0)%nat (q0 + 53)%nat _ _ k0 q0); auto; try lia; [|apply (few_le _ _ fw); lia].
      apply (Ndiv k0 q0 _ _ _ _ 53%nat); auto; try lia; try lra; [rewrite Ofn; apply IZR_le; lia|apply (few_le _ _ fw); lia]. }
    eexists. split.
    - unfold dcov_from_terms. rewrite EN. cbn [ndiv nofZ nmul nsub nadd B64Num]. unfold np_dot. rewrite map_length, La, Lb, Nat.eqb_refl.
      cbn [rbind].
      match goal with |- (if ?z then _ else _) = _ => assert (z = false) as -> end.
      { destruct k, bc; auto; rewrite ?orb_false_iff; repeat split; apply Z.eqb_neq; nia. }
      fold quots. reflexivity.
    - assert (S1 : f1 <= 2 ^ (q0 + 53 + 53)) by apply N1. assert (S2 : 2 * f2 <= 2 ^ (1 + (53 + (q0 + 53 + q0) + 106))) by apply Nsec. assert (S3 : f3 <= 2 ^ (q0 + 53 + q0 + 159)) by apply N3.
      assert (P1 : 0 <= f1) by apply N1. assert (P2 : 0 <= 2 * f2) by apply Nsec. assert (P3 : 0 <= f3) by apply N3.
      assert (Q : 2 ^ (q0 + 53 + 53) <= 2 ^ 820 /\ 2 ^ (1 + (53 + (q0 + 53 + q0) + 106)) <= 2 ^ 820 /\ 2 ^ (q0 + 53 + q0 + 159) <= 2 ^ 820 /\ 2 ^ 820 * 4 <= 2 ^ 900).
      { repeat split; try (apply pow2_le; lia). replace 4 with (2 ^ 2) by (cbn; ring). rewrite <- pow_add. apply pow2_le. lia. }
      assert (0 < 2 ^ 820) by (apply pow_lt; lra).
      replace (n + 10 + 2 * k0)%nat with (S (S (8 + 2 * k0 + n))) by lia. apply absn_add.
      + apply absn_sub.
        * eapply absn_weaken; [eapply near_absn; [exact N1|apply P900; lia]|lia].
        * eapply near_absn; [exact Nsec|apply P900; lia].
        * apply (few_le _ _ fw). lia.
        * lra.
      + eapply absn_weaken; [eapply near_absn; [exact N3|apply P900; lia]|lia].
      + apply (few_le _ _ fw). lia.
      + lra.
  Qed.
End Formula.
