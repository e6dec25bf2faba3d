(** The AVL algorithm on arbitrary doubles: absolute error of its sums, compared with the run in exact arithmetic. *)
From Coq Require Import Reals Lra Lia List Arith Bool ZArith Psatz Permutation.
From Flocq Require Import Core Relative IEEE754.BinarySingleNaN.
From Verif Require Import Num Numpy MUtils MInternals MMergesort MAvl MFloat Sums Tab RefFloat FloatError FloatSum FloatAccuracy FloatAvl AvlGeneric RefInteger.
Import ListNotations.
Local Open Scope R_scope.

(** [a] approximates [r], |r| <= M, with the error of [k] roundings of numbers of size [M]. *)
Definition lowM (M : R) : Prop := M = 0 \/ bpow radix2 (-900) <= M.
Definition apx (k : nat) (M : R) (a : b64) (r : R) : Prop := absn k a r M /\ lowM M.
Definition apxs (k : nat) (M : R) : list b64 -> list R -> Prop := Forall2 (apx k M).
Notation BB := (2 ^ 900).

Lemma lowM_nonneg M : lowM M -> 0 <= M.
Proof. intros [->|H]; [lra|]. pose proof (bpow_gt_0 radix2 (-900)). lra. Qed.
Lemma lowM_add M M' : lowM M -> lowM M' -> lowM (M + M').
Proof.
  intros H H'. pose proof (lowM_nonneg _ H). pose proof (lowM_nonneg _ H'). destruct H as [->|H]; [rewrite Rplus_0_l; auto|].
  right. lra.
Qed.
Lemma lowM_mul c M : 1 <= c -> lowM M -> lowM (c * M).
Proof. intros Hc [->|H]; [left; ring|right]. pose proof (bpow_gt_0 radix2 (-900)). nra. Qed.
Lemma lowM_le M M' : lowM M -> M <= M' -> M <> 0 -> lowM M'.
Proof. intros [->|H] HM HN; [congruence|right; lra]. Qed.
Lemma apx_nonneg k M a r : apx k M a r -> 0 <= M.
Proof. intros [_ H]. apply lowM_nonneg; auto. Qed.
Lemma apx_weaken k l M M' a r : apx k M a r -> (k <= l)%nat -> M <= M' -> lowM M' -> M' <= BB -> apx l M' a r.
Proof.
  intros [H Hl] Hk HM HL HB. split; auto. apply (absn_weaken _ _ _ _ _ H) in Hk. destruct Hk as (F & E & A & _).
  repeat split; auto; [|lra]. eapply Rle_trans; [exact E|]. apply Rmult_le_compat_l; auto. apply gam_nonneg.
Qed.
Lemma apx_k k l M a r : apx k M a r -> (k <= l)%nat -> apx l M a r.
Proof. intros [H Hl] Hk. split; auto. eapply absn_weaken; eauto. Qed.
Lemma apx_zero k M : lowM M -> M <= BB -> apx k M (B754_zero false) 0.
Proof.
  intros H HB. pose proof (lowM_nonneg _ H). split; auto. split; [auto|]. cbn. rewrite Rminus_0_r, Rabs_R0. pose proof (gam_nonneg k).
  split; [apply Rmult_le_pos; auto|lra].
Qed.
Lemma apx_exact k M a : is_finite a = true -> Rabs (B2R a) <= M -> lowM M -> M <= BB -> apx k M a (B2R a).
Proof.
  intros F H HL HB. split; auto. repeat split; auto. rewrite Rminus_eq_0, Rabs_R0. apply Rmult_le_pos; [apply gam_nonneg|apply lowM_nonneg; auto].
Qed.
Lemma apx_ofZ k M z : (Z.abs z <= 2 ^ 53)%Z -> IZR (Z.abs z) <= M -> 1 <= M -> M <= BB -> apx k M (b64_ofZ z) (IZR z).
Proof.
  intros Hz HM H1 HB. destruct (rep_ofZ z Hz) as (F & Rz & _). rewrite <- Rz. apply apx_exact; auto.
  - rewrite Rz, <- abs_IZR. auto.
  - right. eapply Rle_trans; [|exact H1]. change 1 with (bpow radix2 0). apply bpow_le. lia.
Qed.

Lemma apx_add k M M' a b r s : apx k M a r -> apx k M' b s -> few k -> M + M' <= BB -> apx (S k) (M + M') (b64_add a b) (r + s).
Proof. intros [H L] [H' L'] Hf HB. split; [apply absn_add; auto|apply lowM_add; auto]. Qed.
Lemma apx_sub k M M' a b r s : apx k M a r -> apx k M' b s -> few k -> M + M' <= BB -> apx (S k) (M + M') (b64_sub a b) (r - s).
Proof. intros [H L] [H' L'] Hf HB. split; [apply absn_sub; auto|apply lowM_add; auto]. Qed.

Lemma round_abs z M : Rabs z <= M -> bpow radix2 (-900) <= M -> Rabs (b64_round z - z) <= ulp1 * M.
Proof.
  intros Hz HM. pose proof ulp1_pos.
  destruct (Rle_or_lt (bpow radix2 (-1022)) (Rabs z)) as [Hb|Hs].
  - eapply Rle_trans; [apply (relative_error_N_FLT radix2 (3 - 1024 - 53) 53 eq_refl (fun x => negb (Z.even x)) z); exact Hb|].
    unfold ulp1. change (bpow radix2 (- (53) + 1)) with (bpow radix2 (-52)).
    assert (/ 2 * bpow radix2 (-52) = / 2 ^ 53) as ->.
    { change (bpow radix2 (-52)) with (/ IZR (2 ^ 52)). rewrite (pow_IZR 2 53). change (2 ^ Z.of_nat 53)%Z with (2 * 2 ^ 52)%Z. rewrite mult_IZR. field. apply IZR_neq. discriminate. }
    apply Rmult_le_compat_l; auto. left. apply Rinv_0_lt_compat, pow_lt. lra.
  - eapply Rle_trans; [apply error_le_half_ulp; apply FLT_exp_valid; reflexivity|].
    rewrite (ulp_FLT_small radix2 (3 - 1024 - 53) 53 (prec_gt_0_ := b64_prec)); [|eapply Rlt_le_trans; [exact Hs|]; apply bpow_le; lia].
    apply Rle_trans with (ulp1 * bpow radix2 (-900)); [|apply Rmult_le_compat_l; lra].
    unfold ulp1. replace (/ 2 ^ 53) with (bpow radix2 (-53)).
    + rewrite <- bpow_plus. apply Rle_trans with (1 * bpow radix2 (3 - 1024 - 53)); [apply Rmult_le_compat_r; [apply bpow_ge_0|lra]|].
      rewrite Rmult_1_l. apply bpow_le. lia.
    + change (bpow radix2 (-53)) with (/ IZR (2 ^ 53)). rewrite (pow_IZR 2 53). reflexivity.
Qed.

Lemma apx_mul k l M M' a b r s : apx k M a r -> apx l M' b s -> few (S (k + l)) -> M * M' <= BB -> lowM (M * M') ->
  apx (S (k + l)) (M * M') (b64_mul a b) (r * s).
Proof.
  intros [(Fa & Ea & Ra & _) La] [(Fb & Eb & Rb & _) Lb] Hf HB HL.
  pose proof (lowM_nonneg _ La) as M0. pose proof (lowM_nonneg _ Lb) as M0'. pose proof (Rabs_pos r). pose proof (Rabs_pos s).
  assert (MM : 0 <= M * M') by (apply Rmult_le_pos; auto).
  assert (Rrs : Rabs (r * s) <= M * M') by (rewrite Rabs_mult; apply Rmult_le_compat; auto).
  pose proof (gam_nonneg k) as Gk. pose proof (gam_nonneg l) as Gl.
  assert (Err : Rabs (B2R a * B2R b - r * s) <= gam (k + l) * (M * M')).
  { replace (B2R a * B2R b - r * s) with ((B2R a - r) * (B2R b - s) + (B2R a - r) * s + r * (B2R b - s)) by ring.
    eapply Rle_trans; [apply Rabs_triang|]. eapply Rle_trans; [apply Rplus_le_compat_r, Rabs_triang|]. rewrite !Rabs_mult.
    assert (Rabs (B2R a - r) * Rabs (B2R b - s) <= (gam k * M) * (gam l * M')) by (apply Rmult_le_compat; auto using Rabs_pos).
    assert (Rabs (B2R a - r) * Rabs s <= (gam k * M) * M') by (apply Rmult_le_compat; auto using Rabs_pos).
    assert (Rabs r * Rabs (B2R b - s) <= M * (gam l * M')) by (apply Rmult_le_compat; auto using Rabs_pos).
    assert (gam (k + l) = gam k + gam l + gam k * gam l) as -> by (pose proof (gam_add k l); lra). lra. }
  assert (fkl : few (k + l)) by (apply (few_le _ _ Hf); lia). pose proof (few_gam _ fkl) as G4. pose proof (gam_nonneg (k + l)) as G0.
  assert (Hz : Rabs (B2R a * B2R b) <= (1 + gam (k + l)) * (M * M')).
  { replace (B2R a * B2R b) with ((B2R a * B2R b - r * s) + r * s) by ring. eapply Rle_trans; [apply Rabs_triang|]. lra. }
  assert (HR : Rabs (b64_round (B2R a * B2R b) - B2R a * B2R b) <= ulp1 * ((1 + gam (k + l)) * (M * M'))).
  { destruct HL as [HL0|HL].
    - rewrite HL0, Rmult_0_r in Hz. assert (B2R a * B2R b = 0) as -> by (apply Rabs_eq_R0; pose proof (Rabs_pos (B2R a * B2R b)); lra).
      rewrite round_0 by apply valid_rnd_N. rewrite Rminus_0_r, Rabs_R0, HL0. pose proof ulp1_pos. apply Rmult_le_pos; [lra|]. apply Rmult_le_pos; lra.
    - apply round_abs; auto. nra. }
  assert (Hov : Rabs (b64_round (B2R a * B2R b)) < bpow radix2 1024).
  { replace (b64_round (B2R a * B2R b)) with ((b64_round (B2R a * B2R b) - B2R a * B2R b) + B2R a * B2R b) by ring.
    eapply Rle_lt_trans; [apply Rabs_triang|]. pose proof ulp1_small. pose proof ulp1_pos.
    assert ((1 + gam (k + l)) * (M * M') <= 2 * (M * M')) by (apply Rmult_le_compat_r; lra).
    assert (0 <= (1 + gam (k + l)) * (M * M')) by (apply Rmult_le_pos; lra).
    assert (ulp1 * ((1 + gam (k + l)) * (M * M')) <= 1 * ((1 + gam (k + l)) * (M * M'))) by (apply Rmult_le_compat_r; lra).
    apply Rle_lt_trans with (4 * 2 ^ 900); [lra|].
    rewrite (pow_IZR 2 900), <- mult_IZR. change (bpow radix2 1024) with (IZR (2 ^ 1024)). apply IZR_lt. vm_compute. reflexivity. }
  pose proof (Bmult_correct 53 1024 b64_prec b64_emax mode_NE a b) as HC. rewrite Rlt_bool_true in HC by exact Hov. destruct HC as (C1 & C2 & _).
  fold (b64_mul a b) in C1, C2. split; auto. split; [rewrite C2, Fa, Fb; reflexivity|]. rewrite C1. split; [|auto].
  rewrite gam_S. replace (b64_round (B2R a * B2R b) - r * s) with ((b64_round (B2R a * B2R b) - B2R a * B2R b) + (B2R a * B2R b - r * s)) by ring.
  eapply Rle_trans; [apply Rabs_triang|]. lra.
Qed.

Lemma apx_fma k l j M M' A a b c r s t : apx k M a r -> apx l M' b s -> apx j A c t -> (k + l <= j)%nat -> few (S j) -> M * M' + A <= BB -> lowM (M * M') ->
  apx (S j) (M * M' + A) (b64_fma a b c) (r * s + t).
Proof.
  intros [(Fa & Ea & Ra & _) La] [(Fb & Eb & Rb & _) Lb] [(Fc & Ec & Rc & _) Lc] Hj Hf HB HL0.
  pose proof (lowM_nonneg _ La) as M0. pose proof (lowM_nonneg _ Lb) as M0'. pose proof (lowM_nonneg _ Lc) as A0. pose proof (Rabs_pos r). pose proof (Rabs_pos s).
  assert (MM : 0 <= M * M') by (apply Rmult_le_pos; auto).
  assert (Rrs : Rabs (r * s) <= M * M') by (rewrite Rabs_mult; apply Rmult_le_compat; auto).
  assert (HL : lowM (M * M' + A)) by (apply lowM_add; auto).
  assert (Rz : Rabs (r * s + t) <= M * M' + A) by (eapply Rle_trans; [apply Rabs_triang|]; lra).
  pose proof (gam_nonneg k) as Gk. pose proof (gam_nonneg l) as Gl.
  assert (Err : Rabs (B2R a * B2R b - r * s) <= gam (k + l) * (M * M')).
  { replace (B2R a * B2R b - r * s) with ((B2R a - r) * (B2R b - s) + (B2R a - r) * s + r * (B2R b - s)) by ring.
    eapply Rle_trans; [apply Rabs_triang|]. eapply Rle_trans; [apply Rplus_le_compat_r, Rabs_triang|]. rewrite !Rabs_mult.
    assert (Rabs (B2R a - r) * Rabs (B2R b - s) <= (gam k * M) * (gam l * M')) by (apply Rmult_le_compat; auto using Rabs_pos).
    assert (Rabs (B2R a - r) * Rabs s <= (gam k * M) * M') by (apply Rmult_le_compat; auto using Rabs_pos).
    assert (Rabs r * Rabs (B2R b - s) <= M * (gam l * M')) by (apply Rmult_le_compat; auto using Rabs_pos).
    assert (gam (k + l) = gam k + gam l + gam k * gam l) as -> by (pose proof (gam_add k l); lra). lra. }
  set (z := B2R a * B2R b + B2R c).
  assert (Err2 : Rabs (z - (r * s + t)) <= gam j * (M * M' + A)).
  { unfold z. replace (B2R a * B2R b + B2R c - (r * s + t)) with ((B2R a * B2R b - r * s) + (B2R c - t)) by ring. eapply Rle_trans; [apply Rabs_triang|].
    pose proof (gam_mono _ _ Hj). assert (gam (k + l) * (M * M') <= gam j * (M * M')) by (apply Rmult_le_compat_r; lra). lra. }
  clear Err. set (W := M * M' + A) in *. assert (W0 : 0 <= W) by (unfold W; lra).
  assert (fj : few j) by (apply (few_le _ _ Hf); lia). pose proof (few_gam _ fj) as G4. pose proof (gam_nonneg j) as G0.
  assert (Hz : Rabs z <= (1 + gam j) * W).
  { replace z with ((z - (r * s + t)) + (r * s + t)) by ring. eapply Rle_trans; [apply Rabs_triang|]. lra. }
  assert (HR : Rabs (b64_round z - z) <= ulp1 * ((1 + gam j) * W)).
  { destruct HL as [HL|HL].
    - rewrite HL, Rmult_0_r in Hz. assert (z = 0) as -> by (apply Rabs_eq_R0; pose proof (Rabs_pos z); lra).
      rewrite round_0 by apply valid_rnd_N. rewrite Rminus_0_r, Rabs_R0, HL. pose proof ulp1_pos. apply Rmult_le_pos; [lra|]. apply Rmult_le_pos; lra.
    - apply round_abs; auto. nra. }
  assert (Hov : Rabs (b64_round z) < bpow radix2 1024).
  { replace (b64_round z) with ((b64_round z - z) + z) by ring.
    eapply Rle_lt_trans; [apply Rabs_triang|]. pose proof ulp1_small. pose proof ulp1_pos.
    assert ((1 + gam j) * W <= 2 * W) by (apply Rmult_le_compat_r; lra).
    assert (0 <= (1 + gam j) * W) by (apply Rmult_le_pos; lra).
    assert (ulp1 * ((1 + gam j) * W) <= 1 * ((1 + gam j) * W)) by (apply Rmult_le_compat_r; lra).
    apply Rle_lt_trans with (4 * 2 ^ 900); [lra|].
    rewrite (pow_IZR 2 900), <- mult_IZR. change (bpow radix2 1024) with (IZR (2 ^ 1024)). apply IZR_lt. vm_compute. reflexivity. }
  pose proof (Bfma_correct 53 1024 b64_prec b64_emax mode_NE a b c Fa Fb Fc) as HC. cbv zeta in HC. fold z in HC. rewrite Rlt_bool_true in HC by exact Hov. destruct HC as (C1 & C2 & _).
  fold (b64_fma a b c) in C1, C2. split; auto. split; [exact C2|]. rewrite C1. split; [|auto].
  rewrite gam_S. replace (b64_round z - (r * s + t)) with ((b64_round z - z) + (z - (r * s + t))) by ring.
  eapply Rle_trans; [apply Rabs_triang|]. lra.
Qed.
Lemma apx_eqz k M a b r : eqz a b -> apx k M a r -> apx k M b r.
Proof. intros H [(F & E & N) L]. rewrite (eqz_finite _ _ H) in F. rewrite (eqz_B2R _ _ H) in E. repeat split; auto; apply N. Qed.

(** ** Lists *)

Lemma apxs_length k M l rs : apxs k M l rs -> length l = length rs.
Proof. induction 1; cbn; congruence. Qed.
Lemma apxs_weaken k l M M' v rs : apxs k M v rs -> (k <= l)%nat -> M <= M' -> lowM M' -> M' <= BB -> apxs l M' v rs.
Proof. intros H Hk HM HL HB. induction H; constructor; eauto using apx_weaken. Qed.
Lemma apxs_k k l M v rs : apxs k M v rs -> (k <= l)%nat -> apxs l M v rs.
Proof. intros H Hk. induction H; constructor; eauto using apx_k. Qed.
Notation fz := (B754_zero false : b64).
Lemma apxs_nth k M l rs i : apxs k M l rs -> lowM M -> M <= BB -> apx k M (nth i l fz) (nth i rs 0).
Proof. intros H HL HB. revert i. induction H; intros [|i]; cbn [nth]; auto using apx_zero. Qed.
Lemma apxs_take k M l rs idx : apxs k M l rs -> lowM M -> M <= BB -> apxs k M (take fz l idx) (take 0 rs idx).
Proof. intros H HL HB. unfold take. induction idx; cbn [map]; constructor; auto. apply apxs_nth; auto. Qed.
Lemma apxs_map k M k' M' f g l rs : (forall a x, apx k M a x -> apx k' M' (f a) (g x)) -> apxs k M l rs -> apxs k' M' (map f l) (map g rs).
Proof. intros Hf H. induction H; cbn [map]; constructor; auto. Qed.
Lemma apxs_map2 k M k' M' k2 M2 f g l rs l' rs' : (forall a b x y, apx k M a x -> apx k' M' b y -> apx k2 M2 (f a b) (g x y)) ->
  apxs k M l rs -> apxs k' M' l' rs' -> apxs k2 M2 (map2 f l l') (map2 g rs rs').
Proof.
  intros Hf H. revert l' rs'. unfold map2. induction H as [|a b u v Hab Huv IH]; intros p q H'; cbn [combine map]; [constructor|].
  destruct H'; cbn [combine map fst snd]; constructor; auto. apply IH. auto.
Qed.
Lemma apxs_map2_l {A} k M k' M' f g (ks : list A) l rs : (forall i a x, In i ks -> apx k M a x -> apx k' M' (f i a) (g i x)) ->
  apxs k M l rs -> apxs k' M' (map2 f ks l) (map2 g ks rs).
Proof.
  intros Hf H. revert ks Hf. unfold map2. induction H; intros [|i ks] Hf; cbn [combine map fst snd]; try constructor.
  - apply Hf; auto. left; auto.
  - apply IHForall2. intros. apply Hf; auto. right; auto.
Qed.
Lemma apxs_map_const {A A'} k M b z (l : list A) (l' : list A') : length l = length l' -> apx k M b z -> apxs k M (map (fun _ => b) l) (map (fun _ => z) l').
Proof. revert l'. induction l; intros [|]; cbn; intros H Hr; try discriminate; constructor; auto. apply IHl; auto. Qed.

Definition lenR {A} (l : list A) : R := INR (length l).
Lemma lenR_nonneg {A} (l : list A) : 0 <= lenR l. Proof. apply pos_INR. Qed.
Lemma lenR_cons {A} (a : A) l : lenR (a :: l) = 1 + lenR l.
Proof. unfold lenR. cbn [length]. rewrite S_INR. ring. Qed.

Lemma lenR_app {A} (l l' : list A) : lenR (l ++ l') = lenR l + lenR l'.
Proof. unfold lenR. rewrite app_length, plus_INR. reflexivity. Qed.

Lemma apxs_sum_of k M l v : sum_of l v -> forall rs, apxs k M l rs -> lenR l * M <= BB -> few (k + length l) ->
  apx (k + length l) (lenR l * M) v (np_sum RNum rs).
Proof.
  revert l v. apply (sum_induct (fun l v => forall rs, apxs k M l rs -> lenR l * M <= BB -> few (k + length l) -> apx (k + length l) (lenR l * M) v (np_sum RNum rs))).
  - intros rs H HB _. inversion H; subst. change (lenR []) with 0. rewrite Rmult_0_l. apply apx_zero; [left; auto|apply pow_le; lra].
  - intros a rs H _ _. inversion H as [|? r ? ? Ha Hn]; subst. inversion Hn; subst. rewrite sum_R_one. change (lenR [a]) with 1. rewrite Rmult_1_l. eapply apx_k; [exact Ha|lia].
  - intros l l' a b Nl Nl' IHa IHb rs H HB Hf. apply Forall2_app_inv_l in H. destruct H as (r1 & r2 & H1 & H2 & ->). rewrite app_length, lenR_app, Rmult_plus_distr_r in *.
    destruct l as [|u l]; [congruence|]. destruct l' as [|w l']; [congruence|].
    assert (M0 : 0 <= M) by (inversion H1 as [|? ? ? ? Hu]; subst; apply (apx_nonneg _ _ _ _ Hu)).
    assert (0 <= lenR (u :: l) * M /\ 0 <= lenR (w :: l') * M) by (split; apply Rmult_le_pos; auto using lenR_nonneg).
    set (p := length (u :: l)) in *. set (q := length (w :: l')) in *. assert (1 <= p /\ 1 <= q)%nat by (unfold p, q; cbn; lia).
    rewrite sum_R_app. replace (k + (p + q))%nat with (S (k + p + q - 1)) by lia. apply apx_add; [| |apply (few_le _ _ Hf); lia|lra].
    + eapply apx_k; [apply IHa; auto; [lra|apply (few_le _ _ Hf); fold p; lia]|fold p; lia].
    + eapply apx_k; [apply IHb; auto; [lra|apply (few_le _ _ Hf); fold q; lia]|fold q; lia].
  - intros l l' a Hp IH rs H. destruct (Permutation_Forall2' _ _ _ Hp _ H) as (rs' & P & H'). rewrite <- (sum_R_perm _ _ P). unfold lenR in *. rewrite <- (Permutation_length Hp). auto.
  - intros l a b He IH rs H HB Hf. eapply apx_eqz; eauto.
Qed.

Definition apxp (k l : nat) (M M' : R) (p : b64 * b64) (q : R * R) : Prop := apx k M (fst p) (fst q) /\ apx l M' (snd p) (snd q).
Lemma apxs_dot_of k l M M' ps v : 0 <= M -> 0 <= M' -> lowM (M * M') -> dot_of ps v -> forall qs, Forall2 (apxp k l M M') ps qs -> lenR ps * (M * M') <= BB -> few (S (k + l + length ps)) ->
  apx (S (k + l + length ps)) (lenR ps * (M * M')) v (np_sum RNum (map (fun q => fst q * snd q) qs)).
Proof.
  intros M0 M0' HL. assert (MM : 0 <= M * M') by (apply Rmult_le_pos; auto). revert ps v.
  apply (dot_induct (fun ps v => forall qs, Forall2 (apxp k l M M') ps qs -> lenR ps * (M * M') <= BB -> few (S (k + l + length ps)) ->
    apx (S (k + l + length ps)) (lenR ps * (M * M')) v (np_sum RNum (map (fun q => fst q * snd q) qs)))).
  - intros rs H HB _. inversion H; subst. change (lenR []) with 0. rewrite Rmult_0_l. apply apx_zero; [left; auto|apply pow_le; lra].
  - intros a b qs H HB Hf. inversion H as [|? q ? ? [Ha Hb] Hn]; subst. inversion Hn; subst. cbn [map fst snd] in *. rewrite sum_R_one.
    change (lenR [(a, b)]) with 1 in *. rewrite Rmult_1_l in *. cbn [length] in *. eapply apx_k; [apply (apx_mul k l); eauto; apply (few_le _ _ Hf); lia|lia].
  - intros a b ps c IH qs H HB Hf. inversion H as [|? q ? qs' [Ha Hb] Hn]; subst. cbn [map fst snd length] in *. rewrite sum_R_cons, lenR_cons, Rmult_plus_distr_r, Rmult_1_l in *.
    pose proof (lenR_nonneg ps). assert (0 <= lenR ps * (M * M')) by (apply Rmult_le_pos; auto).
    replace (S (k + l + S (length ps)))%nat with (S (S (k + l + length ps))) by lia.
    apply (apx_fma k l (S (k + l + length ps))); auto; [|lia|apply (few_le _ _ Hf); lia]. apply IH; auto; [lra|apply (few_le _ _ Hf); lia].
  - intros ps ps' a b Nl Nl' IHa IHb qs H HB Hf. apply Forall2_app_inv_l in H. destruct H as (r1 & r2 & H1 & H2 & ->). rewrite app_length, lenR_app, Rmult_plus_distr_r, map_app, sum_R_app in *.
    assert (0 <= lenR ps * (M * M') /\ 0 <= lenR ps' * (M * M')) by (split; apply Rmult_le_pos; auto using lenR_nonneg).
    assert (1 <= length ps /\ 1 <= length ps')%nat by (destruct ps; [congruence|]; destruct ps'; [congruence|]; cbn; lia).
    replace (S (k + l + (length ps + length ps'))) with (S (S (k + l + length ps + length ps' - 1))) by lia. apply apx_add; [| |apply (few_le _ _ Hf); lia|lra].
    + eapply apx_k; [apply IHa; auto; [lra|apply (few_le _ _ Hf); lia]|lia].
    + eapply apx_k; [apply IHb; auto; [lra|apply (few_le _ _ Hf); lia]|lia].
  - intros ps ps' a Hp IH qs H. destruct (Permutation_Forall2' _ _ _ Hp _ H) as (rs' & P & H'). rewrite <- (sum_R_perm _ _ (Permutation_map _ P)). unfold lenR in *. rewrite <- (Permutation_length Hp). auto.
  - intros ps a b He IH qs H HB Hf. eapply apx_eqz; eauto.
Qed.
Lemma apx_pairs k l M M' a p : apxs k M a p -> forall b q, apxs l M' b q -> Forall2 (apxp k l M M') (combine a b) (combine p q).
Proof. induction 1; intros b q Hb; [constructor|]. destruct Hb; cbn [combine]; constructor; auto. split; auto. Qed.

Section Sim.
  Context (lib : flib) (GL : good_lib lib).
  Notation NF := (B64Num lib).
  Notation NR := RNum.

  Lemma apxs_sum k M l rs : apxs k M l rs -> lenR l * M <= BB -> few (k + length l) ->
    apx (k + length l) (lenR l * M) (np_sum NF l) (np_sum NR rs).
  Proof. intros. apply apxs_sum_of; auto. apply np_sum_of; auto. Qed.
  Lemma apxs_cumsum_from k M l rs : apxs k M l rs -> lowM M -> forall j A a r, apx (k + j) A a r -> A + lenR l * M <= BB -> few (k + j + length l) ->
    A + lenR l * M <> 0 ->
    apxs (k + j + length l) (A + lenR l * M) (cumsum_from NF a l) (cumsum_from NR r rs).
  Proof.
    intros H LM. induction H as [|b y l rs Hb Hl IH]; intros j A a r Ha HA Hf Hnz; cbn [cumsum_from length] in *; constructor.
    - pose proof (lowM_nonneg _ LM) as M0. pose proof (lenR_nonneg l) as L0. rewrite lenR_cons in *. assert (0 <= lenR l * M) by (apply Rmult_le_pos; auto).
      assert (LA : lowM A) by apply Ha. pose proof (lowM_nonneg _ LA).
      eapply apx_weaken; [apply apx_add; [exact Ha|eapply apx_k; [exact Hb|lia]|apply (few_le _ _ Hf); lia|lra]|lia|lra| |lra].
      destruct (Req_dec (A + M) 0) as [HZ|HZ]; [|apply (lowM_le (A + M)); auto; [apply lowM_add; auto|lra]].
      assert (A = 0) by lra. assert (M = 0) by lra. subst. exfalso. apply Hnz. ring.
    - pose proof (lowM_nonneg _ LM) as M0. pose proof (lenR_nonneg l) as L0. rewrite lenR_cons in *. assert (0 <= lenR l * M) by (apply Rmult_le_pos; auto).
      replace (A + (1 + lenR l) * M) with (A + M + lenR l * M) in * by ring.
      replace (k + j + S (length l))%nat with (k + S j + length l)%nat in * by lia.
      apply IH; auto. replace (k + S j)%nat with (S (k + j)) by lia. apply apx_add; auto; [|apply (few_le _ _ Hf); lia|lra].
      eapply apx_k; eauto. lia.
  Qed.
  Lemma apxs_cumsum k M l rs : apxs k M l rs -> lowM M -> M <> 0 -> lenR l * M <= BB -> few (k + length l) ->
    apxs (k + length l) (lenR l * M) (np_cumsum NF l) (np_cumsum NR rs).
  Proof.
    intros H LM MN HB Hf. destruct l as [|a l]; [inversion H; constructor|].
    rewrite <- (Rplus_0_l (lenR (a :: l) * M)). replace (k + length (a :: l))%nat with (k + 0 + length (a :: l))%nat by lia.
    apply apxs_cumsum_from; auto; [|lra|rewrite Nat.add_0_r; auto|].
    - apply apx_zero; [left; auto|]. apply pow_le. lra.
    - rewrite lenR_cons. pose proof (lenR_nonneg l). rewrite Rplus_0_l. apply Rmult_integral_contrapositive. split; [lra|auto].
  Qed.

  Lemma rel_zget k M oob s rs p : apxs k M s rs -> rel (apx k M) (zget oob s p) (zget oob rs p).
  Proof.
    intros H. unfold zget. rewrite (apxs_length _ _ _ _ H). destruct (pyidx (length rs) p) as [i|]; cbn; auto.
    clear p. revert i. induction H; intros [|i]; cbn; auto.
  Qed.
  Lemma apxs_upd k M s rs i v z : apxs k M s rs -> apx k M v z -> apxs k M (upd s i v) (upd rs i z).
  Proof. intros H Hv. revert i. induction H; intros [|i]; cbn; constructor; auto. apply IHForall2. Qed.
  Lemma rel_zset k M oob s rs p v z : apxs k M s rs -> apx k M v z -> rel (apxs k M) (zset oob s p v) (zset oob rs p z).
  Proof.
    intros H Hv. unfold zset. rewrite (apxs_length _ _ _ _ H). destruct (pyidx (length rs) p) as [i|]; cbn; auto.
    apply apxs_upd; auto.
  Qed.
  Lemma rel_zgets k M oob s rs ps : apxs k M s rs -> rel (fun l l' => apxs k M l l' /\ length l = length ps) (zgets oob s ps) (zgets oob rs ps).
  Proof.
    intros H. induction ps as [|p ps IH]; cbn [zgets]; [split; [constructor|auto]|].
    apply (rel_bind (apx k M)); [apply rel_zget; auto|]. intros v z Hv.
    apply (rel_bind _ _ _ _ _ _ IH). intros l l' [Hl Hn]. cbn. split; [constructor; auto|auto].
  Qed.
  Lemma rel_zsets k M oob ps : forall s rs vs rvs, apxs k M s rs -> apxs k M vs rvs ->
    rel (apxs k M) (zsets oob s ps vs) (zsets oob rs ps rvs).
  Proof.
    induction ps as [|p ps IH]; intros s rs vs rvs Hs Hv; cbn [zsets]; auto.
    destruct Hv as [|v z vs rvs Hv Hvs]; [exact Hs|].
    apply (rel_bind (apxs k M)); [apply rel_zset; auto|]. intros s' rs' Hs'. apply IH; auto.
  Qed.

  Lemma rel_dyad_loop k M oob L ps y : (1 <= L)%nat -> lowM M -> M <> 0 -> forall c rc, apxs k M c rc -> forall j S s rs, apxs (k + j) S s rs -> lowM S ->
    INR L * (S + lenR c * M) <= BB -> few (k + j + length c + L) ->
    rel (fun p q => apxs (k + j + length c + L) (INR L * (S + lenR c * M)) (fst p) (fst q) /\ length (snd p) = length (snd q))
      (dyad_loop NF oob L ps y c s) (dyad_loop NR oob L ps y rc rs).
  Proof.
    intros HL LM MN. pose proof (lowM_nonneg _ LM) as M0. assert (L1 : 1 <= INR L) by (replace 1 with (INR 1) by reflexivity; apply le_INR; auto).
    induction y as [|yi y IH]; intros c rc Hc j S s rs Hs LS HB Hf; cbn [dyad_loop].
    - destruct Hc; split; try constructor; cbn; eapply apxs_length; eauto.
    - destruct Hc as [|ci ri c rc Hci Hc]; [split; [constructor|]; cbn; eapply apxs_length; eauto|].
      pose proof (lowM_nonneg _ LS) as S0. pose proof (lenR_nonneg c) as C0. rewrite lenR_cons in *. cbn [length] in *.
      assert (P : 0 <= lenR c * M) by (apply Rmult_le_pos; auto).
      assert (HT : S + (1 + lenR c) * M <= INR L * (S + (1 + lenR c) * M)) by (assert (0 <= S + (1 + lenR c) * M) by lra; nra).
      apply (rel_bind _ _ _ _ _ _ (rel_zgets (k + j) S oob s rs _ Hs)). intros sb rsb [Hsb Nsb].
      apply (rel_bind _ _ _ _ _ _ (rel_zgets (k + j) S oob s rs _ Hs)). intros sa rsa [Hsa _].
      assert (LSM : lowM (S + M)) by (apply lowM_add; auto).
      assert (fj : few (k + j)) by (apply (few_le _ _ Hf); lia).
      apply (rel_bind (apxs (k + (1 + j)) (S + M))).
      { apply rel_zsets; [eapply apxs_weaken; eauto; lia || lra|].
        apply (apxs_map (k + j) S); auto. intros a x Ha. replace (k + (1 + j))%nat with (Datatypes.S (k + j)) by lia. apply apx_add; auto; [|lra].
        eapply apx_k; eauto. lia. }
      intros s' rs' Hs'.
      replace (S + (1 + lenR c) * M) with (S + M + lenR c * M) in * by ring.
      replace (k + j + Datatypes.S (length c) + L)%nat with (k + (1 + j) + length c + L)%nat in * by lia.
      apply (rel_bind _ _ _ _ _ _ (IH c rc Hc (1 + j)%nat (S + M) s' rs' Hs' LSM HB Hf)).
      intros [g s2] [rg rs2] [Hg Hs2]. cbn [fst snd rel] in *. split; [|exact Hs2].
      constructor; [|exact Hg].
      assert (length sb <= L)%nat as Lsb.
      { rewrite Nsb, map_length. pose proof (filter_len (valid_3b yi) (seq 0 L)). rewrite seq_length in H. lia. }
      assert (lenR sb <= INR L) as Rsb by (apply le_INR; auto). pose proof (lenR_nonneg sb).
      assert (lenR sb * S <= INR L * S) by (apply Rmult_le_compat_r; auto).
      assert (INR L * S <= INR L * (S + M + lenR c * M)) by (apply Rmult_le_compat_l; lra).
      eapply apx_weaken; [apply (apxs_sum (k + j) S); auto; [lra|apply (few_le _ _ Hf); lia]|lia|lra| |lra].
      apply lowM_mul; auto. apply (lowM_le (S + M)); auto; lra.
  Qed.

  Lemma rel_dyad_update k M oob L ps y c rc s (rs : list R) : (1 <= L)%nat -> lowM M -> M <> 0 -> apxs k M c rc -> length s = length rs ->
    INR L * (lenR c * M) <= BB -> few (k + length c + L) ->
    rel (fun p q => apxs (k + length c + L) (INR L * (lenR c * M)) (fst p) (fst q) /\ length (snd p) = length (snd q))
      (dyad_update NF oob y c L s ps) (dyad_update NR oob y rc L rs ps).
  Proof.
    intros HL LM MN Hc Hs HB Hf. unfold dyad_update.
    assert (0 <= BB) by (apply pow_le; lra).
    assert (apxs (k + 0) 0 (map (fun _ => nzero NF) s) (map (fun _ => nzero NR) rs)) as H0 by (apply apxs_map_const; auto; apply apx_zero; [left; auto|auto]).
    pose proof (rel_dyad_loop k M oob L ps y HL LM MN c rc Hc 0 0 _ _ H0 ltac:(left; auto)) as P.
    rewrite Rplus_0_l, Nat.add_0_r in P. apply P; auto.
  Qed.

  Lemma apx2 k : apx k 2 (nofZ NF 2) (nofZ NR 2).
  Proof. apply (apx_ofZ k 2 2); try lia; try (cbn; lra). Qed.
  Lemma apx4 k : apx k 4 (nofZ NF 4) (nofZ NR 4).
  Proof. apply (apx_ofZ k 4 4); try lia; try (cbn; lra). Qed.

  (** _partial_sum_2d: size 8 L n K *)
  Lemma rel_partial_sum K oob L ps y c rc ix iy sx rsx sy rsy cs rcs s (rs : list R) g g' n :
    lowM K -> K <> 0 -> apxs 1 K c rc -> length c = n -> (4 <= n)%nat -> (2 <= L)%nat ->
    apxs (2 + n) ((INR n + 1) * K) sx rsx -> apxs (2 + n) ((INR n + 1) * K) sy rsy -> apx (1 + n) (INR n * K) cs rcs -> length s = length rs ->
    8 * INR L * INR n * K <= BB -> few (n + L + 6) ->
    rel (fun p q => apxs (n + L + 6) (8 * INR L * INR n * K) (fst p) (fst q) /\ length (snd p) = length (snd q))
      (partial_sum_2d NF oob false y c ix iy sx sy cs L s ps g) (partial_sum_2d NR oob false y rc ix iy rsx rsy rcs L rs ps g').
  Proof.
    intros LK KN Hc Hn Hn4 HL Hsx Hsy Hcs Hs HB Hf. unfold partial_sum_2d.
    pose proof (lowM_nonneg _ LK) as K0.
    assert (l2 : 2 <= INR L) by (replace 2 with (INR 2) by (cbn; ring); apply le_INR; auto).
    assert (n4 : 4 <= INR n) by (replace 4 with (INR 4) by (cbn; ring); apply le_INR; auto).
    set (l := INR L) in *. set (N := INR n) in *.
    assert (P1 : 0 <= N * K) by (apply Rmult_le_pos; lra). assert (P2 : 4 * K <= N * K) by (apply Rmult_le_compat_r; lra).
    assert (P3 : 2 * (N * K) <= l * (N * K)) by (apply Rmult_le_compat_r; lra).
    replace (8 * l * N * K) with (8 * (l * (N * K))) in * by ring.
    assert (R : 2 * ((N + 1) * K) = 2 * (N * K) + 2 * K) by ring.
    assert (LN1 : lowM ((N + 1) * K)) by (apply lowM_mul; auto; lra).
    assert (LNK : lowM (N * K)) by (apply lowM_mul; auto; lra).
    assert (LT : lowM (N * K + K + 2 * ((N + 1) * K) + 2 * ((N + 1) * K))) by (repeat apply lowM_add; auto; apply lowM_mul; auto; lra).
    assert (LL : lowM (l * (N * K))) by (apply lowM_mul; auto; lra).
    assert (lc : lenR c = N) by (unfold lenR, N; rewrite Hn; auto).
    eapply rel_bind; [apply (rel_dyad_update 1 K oob L ps y c rc s rs); auto; rewrite ?lc, ?Hn; fold l; [lia|lra|apply (few_le _ _ Hf); lia]|].
    intros [gm s'] [rgm rs'] [Hg Hs']. cbn [fst snd] in *. rewrite lc, Hn in Hg. fold l in Hg. split; [|exact Hs']. cbn [fst].
    assert (F : forall k, (k <= n + L + 6)%nat -> few k) by (intros k Hk; apply (few_le _ _ Hf); lia).
    apply apxs_take; [|apply lowM_mul; auto; lra|lra].
    assert (T1 : apxs (2 + n) (N * K + K) (map (fun v => nsub NF cs v) c) (map (fun v => nsub NR rcs v) rc)).
    { apply (apxs_map 1 K); auto. intros a x Ha. apply (apx_sub (1 + n)); auto; [eapply apx_k; eauto; lia|apply F; lia|lra]. }
    assert (T2 : apxs (4 + n) (N * K + K + 2 * ((N + 1) * K))
      (map2 (fun a b => nsub NF a (nmul NF (nofZ NF 2) b)) (map (fun v => nsub NF cs v) c) (take (nzero NF) sy iy))
      (map2 (fun a b => nsub NR a (nmul NR (nofZ NR 2) b)) (map (fun v => nsub NR rcs v) rc) (take (nzero NR) rsy iy))).
    { eapply (apxs_map2 (2 + n) (N * K + K) (2 + n) ((N + 1) * K)); [|exact T1|apply apxs_take; auto; lra].
      intros a b x z Ha Hb. apply (apx_sub (3 + n)); auto; [eapply apx_k; eauto; lia| |apply F; lia|lra].
      apply (apx_mul 0 (2 + n)); auto; [apply apx2|apply F; lia|lra|apply lowM_mul; auto; lra]. }
    assert (T3 : forall f rf, apxs (4 + n) (N * K + K + 2 * ((N + 1) * K)) f rf ->
      apxs (5 + n) (N * K + K + 2 * ((N + 1) * K) + 2 * ((N + 1) * K))
        (map2 (fun a b => nsub NF a (nmul NF (nofZ NF 2) b)) f sx) (map2 (fun a b => nsub NR a (nmul NR (nofZ NR 2) b)) rf rsx)).
    { intros f rf Hff. eapply (apxs_map2 (4 + n) (N * K + K + 2 * ((N + 1) * K)) (2 + n) ((N + 1) * K)); eauto.
      intros a b x z Ha Hb. apply (apx_sub (4 + n)); auto; [|apply F; lia|lra].
      eapply apx_k; [apply (apx_mul 0 (2 + n)); auto; [apply apx2|apply F; lia|lra|apply lowM_mul; auto; lra]|lia]. }
    eapply apxs_weaken with (k := (n + L + 6)%nat).
    - eapply (apxs_map2 (5 + n) _ (1 + n + L) (l * (N * K)) (n + L + 6) (N * K + K + 2 * ((N + 1) * K) + 2 * ((N + 1) * K) + 4 * (l * (N * K)))); [|apply T3, T2|exact Hg].
      intros a b x z Ha Hb. replace (n + L + 6)%nat with (S (n + L + 5)) by lia. apply apx_add; auto; [eapply apx_k; eauto; lia| |apply F; lia|lra].
      eapply apx_k; [apply (apx_mul 0 (1 + n + L)); auto; [apply apx4|apply F; lia|lra|apply lowM_mul; auto; lra]|lia].
    - lia.
    - lra.
    - apply lowM_mul; auto; lra.
    - lra.
  Qed.

  (** Environments that sort alike. *)
  Context (EF : Env b64) (ER : Env R).
  Context (HNF : e_num EF = NF) (HNR : e_num ER = NR).
  Context (Hemp : forall n, length (e_empty EF n) = n) (HempR : forall n, length (e_empty ER n) = n).
  Context (Harg : forall l, length (e_argsort EF l) = length l).

  Lemma apxs_excl k K l rs : apxs k K l rs -> lowM K -> K <> 0 -> (lenR l + 1) * K <= BB -> few (1 + k + length l) ->
    apxs (1 + k + length l) ((lenR l + 1) * K) (map2 (nsub NF) (np_cumsum NF l) l) (map2 (nsub NR) (np_cumsum NR rs) rs).
  Proof.
    intros H LK KN HB Hf. pose proof (lenR_nonneg l). pose proof (lowM_nonneg _ LK). assert (0 <= lenR l * K) by (apply Rmult_le_pos; auto).
    eapply (apxs_map2 (k + length l) (lenR l * K) k K); [|apply (apxs_cumsum k K); auto; [lra|apply (few_le _ _ Hf); lia]|exact H].
    intros a b x y Ha Hb. replace ((lenR l + 1) * K) with (lenR l * K + K) by ring. apply (apx_sub (k + length l)); auto;
      [eapply apx_k; eauto; lia|apply (few_le _ _ Hf); lia|lra].
  Qed.

  Context (X Y : R) (fx fy : list b64) (Fx : Forall (fun v => is_finite v = true) fx) (Fy : Forall (fun v => is_finite v = true) fy).
  Context (HX : Forall (fun v => Rabs (B2R v) <= X) fx) (HY : Forall (fun v => Rabs (B2R v) <= Y) fy).
  Context (n : nat) (Lx : length fx = n) (Ly : length fy = n) (Hn : (4 <= n)%nat).
  Notation x := (map B2R fx).
  Notation y := (map B2R fy).
  Context (Hsx : e_argsort EF fx = e_argsort ER x) (Hsy : e_argsort EF fy = e_argsort ER y).
  Context (Hsr : e_argsort EF (take fz fy (e_argsort EF fx)) = e_argsort ER (take 0 y (e_argsort ER x))).
  Notation m := (INR n).
  Notation L := (Nat.log2_up n).
  Notation lm := (INR L).
  (** the four sizes: 1, X, Y, X Y *)
  Context (TOP : R) (Htop : forall K, In K [1; X; Y; X * Y] -> K <= TOP) (HB : 32 * lm * m ^ 2 * TOP <= BB).
  Context (Hlow : forall K, In K [1; X; Y; X * Y] -> bpow radix2 (-900) <= K) (Hfew : few (4 * n + L + 60)) (Hn53 : (2 * Z.of_nat n <= 2 ^ 53)%Z).

  Lemma L2 : (2 <= L)%nat.
  Proof. apply (Nat.log2_up_le_mono 4 n). auto. Qed.
  Lemma lm2 : 2 <= lm.
  Proof. replace 2 with (INR 2) by (cbn; ring). apply le_INR, L2. Qed.
  Lemma m4 : 4 <= m.
  Proof. replace 4 with (INR 4) by (cbn; ring). apply le_INR. auto. Qed.
  Lemma low K : In K [1; X; Y; X * Y] -> lowM K /\ K <> 0 /\ 0 < K.
  Proof. intros H. pose proof (Hlow K H). pose proof (bpow_gt_0 radix2 (-900)). repeat split; [right; auto|lra|lra]. Qed.
  Lemma bnds K : In K [1; X; Y; X * Y] ->
    0 < m * K /\ 4 * K <= m * K /\ 4 * (m * K) <= m * (m * K) /\ 2 * (m * (m * K)) <= lm * (m * (m * K)) /\
    4 * (lm * (m * K)) <= lm * (m * (m * K)) /\ 0 < lm * (m * K) /\ 32 * (lm * (m * (m * K))) <= BB.
  Proof.
    intros HK. destruct (low K HK) as (_ & _ & K0). pose proof lm2. pose proof m4. pose proof (Htop K HK).
    assert (0 < m * K) by (apply Rmult_lt_0_compat; lra). assert (4 * K <= m * K) by (apply Rmult_le_compat_r; lra).
    assert (0 < m * (m * K)) by (apply Rmult_lt_0_compat; lra). assert (4 * (m * K) <= m * (m * K)) by (apply Rmult_le_compat_r; lra).
    assert (2 * (m * (m * K)) <= lm * (m * (m * K))) by (apply Rmult_le_compat_r; lra).
    assert (4 * (lm * (m * K)) <= lm * (m * (m * K))).
    { replace (4 * (lm * (m * K))) with (lm * (4 * (m * K))) by ring. apply Rmult_le_compat_l; lra. }
    assert (0 < lm * (m * K)) by (apply Rmult_lt_0_compat; lra). repeat split; auto.
    eapply Rle_trans; [|exact HB]. replace (32 * (lm * (m * (m * K)))) with (32 * lm * m ^ 2 * K) by ring.
    apply Rmult_le_compat_l; [|auto]. apply Rmult_le_pos; [lra|]. apply pow_le. lra.
  Qed.
  Lemma I1 : In 1 [1; X; Y; X * Y]. Proof. cbn. auto. Qed.
  Lemma IX : In X [1; X; Y; X * Y]. Proof. cbn. auto. Qed.
  Lemma IY : In Y [1; X; Y; X * Y]. Proof. cbn. auto. Qed.
  Lemma IXY : In (X * Y) [1; X; Y; X * Y]. Proof. cbn. auto. Qed.
  Lemma F k : (k <= 4 * n + L + 60)%nat -> few k.
  Proof. intros H. apply (few_le _ _ Hfew). auto. Qed.

  Lemma apxs_data Z0 v : In Z0 [1; X; Y; X * Y] -> Forall (fun v => is_finite v = true) v -> Forall (fun v => Rabs (B2R v) <= Z0) v -> apxs 0 Z0 v (map B2R v).
  Proof.
    intros HI. pose proof (bnds Z0 HI). destruct (low Z0 HI) as (Z1 & _ & _). induction v as [|a v IH]; intros H1 H2; cbn [map]; constructor.
    - apply apx_exact; [apply (Forall_inv H1)|apply (Forall_inv H2)|auto|lra].
    - apply IH; eapply Forall_inv_tail; eauto.
  Qed.
  Lemma rx : apxs 0 X fx x. Proof. apply apxs_data; auto. apply IX. Qed.
  Lemma ry : apxs 0 Y fy y. Proof. apply apxs_data; auto. apply IY. Qed.

  Section OneVar.
    Context (K : R) (HK : In K [1; X; Y; X * Y]) (l : list b64) (zs : list R) (Hl : apxs 0 K l zs) (Hlen : length l = n).
    Let lenl : lenR l = m. Proof. unfold lenR. rewrite Hlen. auto. Qed.
    Lemma apxs_beta idx : apxs (2 + n) ((m + 1) * K) (avl_beta EF l idx) (avl_beta ER zs idx).
    Proof.
      pose proof (bnds K HK) as (B1 & B2 & B3 & B4 & B5 & B6 & B7). destruct (low K HK) as (K1 & K2 & K3).
      unfold avl_beta. rewrite HNF, HNR.
      replace ((m + 1) * K) with (m * K + K) by ring.
      eapply (apxs_map2 (1 + n) (m * K) 0 K).
      - intros a b u v Ha Hb. apply (apx_sub (1 + n)); auto; [eapply apx_k; eauto; lia|apply F; lia|lra].
      - apply apxs_take; [|apply lowM_mul; auto; pose proof m4; lra|lra]. eapply apxs_k; [rewrite <- lenl; apply (apxs_cumsum 0 K); auto; rewrite ?lenl, ?Hlen; [lra|apply F; lia]|rewrite Hlen; lia].
      - apply apxs_take; [auto|auto|lra].
    Qed.
    Lemma apxs_row alpha beta zb : pos_ok n alpha -> apxs (2 + n) ((m + 1) * K) beta zb ->
      apxs (4 + n) (5 * (m * K)) (avl_row_sums EF l alpha beta) (avl_row_sums ER zs alpha zb).
    Proof.
      intros [Ha La] Hb. pose proof (bnds K HK) as (B1 & B2 & B3 & B4 & B5 & B6 & B7). destruct (low K HK) as (K1 & K2 & K3). pose proof m4.
      unfold avl_row_sums. rewrite HNF, HNR, <- (apxs_length _ _ _ _ Hl), Hlen.
      assert (E1 : (m + 1) * K = m * K + K) by ring. rewrite E1 in *.
      assert (LK : lowM (m * K)) by (apply lowM_mul; auto; lra).
      eapply (apxs_map2 (1 + n) (m * K + m * K) (2 + n) (m * K + K)); [| |exact Hb].
      - intros a b u v Hu Hv. eapply apx_weaken; [apply (apx_sub (3 + n) (m * K + m * K) (2 * (m * K + K)))|..]; auto; try lra.
        + eapply apx_k; eauto. lia.
        + apply (apx_mul 0 (2 + n)); auto; [apply apx2|apply F; lia|lra|apply lowM_mul; [lra|apply lowM_add; auto]].
        + apply F; lia.
        + apply lowM_mul; [lra|auto].
      - apply (apxs_map2_l 0 K); auto. intros k a u Hk Hu. apply (apx_add n); [| |apply F; lia|lra].
        + rewrite <- lenl. eapply apx_k; [apply (apxs_sum 0 K); auto; rewrite ?lenl, ?Hlen; [lra|apply F; lia]|rewrite Hlen; lia].
        + eapply apx_k; [apply (apx_mul 0 0); auto; [|apply F; lia|lra]|lia].
          rewrite Forall_forall in Ha. pose proof (Ha k Hk). apply (apx_ofZ 0 m); try lia; [|lra|pose proof (bnds 1 I1); lra].
          rewrite INR_IZR_INZ. apply IZR_le. lia.
    Qed.
    Lemma apx_total alpha beta zb : pos_ok n alpha -> apxs (2 + n) ((m + 1) * K) beta zb -> length beta = n ->
      apx (2 * n + 4) (5 * (m * (m * K))) (avl_total EF l alpha beta) (avl_total ER zs alpha zb).
    Proof.
      intros [Ha La] Hb Lb. pose proof (bnds K HK) as (B1 & B2 & B3 & B4 & B5 & B6 & B7). destruct (low K HK) as (K1 & K2 & K3). pose proof m4.
      unfold avl_total. rewrite HNF, HNR.
      assert (E1 : (m + 1) * K = m * K + K) by ring. rewrite E1 in *.
      assert (E2 : m * (m * K + K) = m * (m * K) + m * K) by ring.
      assert (lb : lenR beta = m) by (unfold lenR; congruence).
      assert (LK : lowM (m * K)) by (apply lowM_mul; auto; lra).
      assert (LK2 : lowM (m * (m * K))) by (apply lowM_mul; auto; lra).
      assert (LK3 : lowM (m * (m * K + K))) by (apply lowM_mul; [lra|apply lowM_add; auto]).
      eapply apx_weaken; [apply (apx_sub (2 * n + 3) (2 * (m * (m * K))) (2 * (m * (m * K + K))))|..]; [| |apply F; lia|lra|lia|lra|apply lowM_mul; auto; lra|lra].
      - assert (T : apxs 1 (m * K) (map2 (fun a v => nmul NF (nofZ NF (Z.of_nat a)) v) alpha l)
          (map2 (fun a v => nmul NR (nofZ NR (Z.of_nat a)) v) alpha zs)).
        { apply (apxs_map2_l 0 K); auto. intros k a u Hk Hu. apply (apx_mul 0 0); auto; [|apply F; lia|lra].
          rewrite Forall_forall in Ha. pose proof (Ha k Hk). apply (apx_ofZ 0 m); try lia; [|lra|pose proof (bnds 1 I1); lra].
          rewrite INR_IZR_INZ. apply IZR_le. lia. }
        assert (TL : length (map2 (fun a v => nmul NF (nofZ NF (Z.of_nat a)) v) alpha l) = n) by (unfold map2; rewrite map_length, combine_length; lia).
        assert (TR : lenR (map2 (fun a v => nmul NF (nofZ NF (Z.of_nat a)) v) alpha l) = m) by (unfold lenR; rewrite TL; auto).
        eapply apx_k; [apply (apx_mul 0 (1 + n)); auto; [apply apx2| |apply F; lia|lra|apply lowM_mul; auto; lra]|lia].
        rewrite <- TR at 1. rewrite <- TL at 1. apply (apxs_sum 1 (m * K)); auto; rewrite ?TR, ?TL; [lra|apply F; lia].
      - eapply apx_k; [apply (apx_mul 0 (2 + n + n)); auto; [apply apx2| |apply F; lia|lra|apply lowM_mul; auto; lra]|lia].
        rewrite <- lb at 1. rewrite <- Lb at 2. apply (apxs_sum (2 + n) (m * K + K)); auto; rewrite ?lb, ?Lb; [lra|apply F; lia].
    Qed.
  End OneVar.

  (** the doubles [t] are the real terms [tr], up to the stated errors *)
  Definition terms_apx (t : terms (T:=b64)) (tr : terms (T:=R)) : Prop :=
    apx (2 * n + L + 11) (32 * (lm * (m * (m * (X * Y))))) (t_mean_prod t) (t_mean_prod tr) /\
    apxs (4 + n) (5 * (m * X)) (t_a_axis t) (t_a_axis tr) /\ apx (2 * n + 4) (5 * (m * (m * X))) (t_a_total t) (t_a_total tr) /\
    apxs (4 + n) (5 * (m * Y)) (t_b_axis t) (t_b_axis tr) /\ apx (2 * n + 4) (5 * (m * (m * Y))) (t_b_total t) (t_b_total tr) /\
    length (t_a_axis t) = n /\ length (t_b_axis t) = n.

  Definition sizes : list R := [1; X; Y; X * Y].
  Definition args_apx (g : impl_args (T:=b64)) (gz : impl_args (T:=R)) : Prop :=
    apxs 0 X (g_vx g) (g_vx gz) /\ apxs 0 Y (g_vy g) (g_vy gz) /\ length (g_vx g) = n /\ length (g_vy g) = n /\
    pos_ok n (g_ix g) /\ pos_ok n (g_iy g) /\ g_ix g = g_ix gz /\ g_iy g = g_iy gz /\ g_iy_reord g = g_iy_reord gz /\
    g_l_max g = L /\ g_l_max gz = L /\ length (g_s g) = length (g_s gz) /\
    g_pos_sums g = g_pos_sums gz /\
    forall i K, nth i sizes 0 = K -> (i < 4)%nat ->
      apxs 1 K (nth i (g_c g) []) (nth i (g_c gz) []) /\ length (nth i (g_c g) []) = n /\
      apxs (2 + n) ((m + 1) * K) (nth i (g_sx_c g) []) (nth i (g_sx_c gz) []) /\
      apxs (2 + n) ((m + 1) * K) (nth i (g_sy_c g) []) (nth i (g_sy_c gz) []) /\
      apx (1 + n) (m * K) (nth i (g_c_sum g) fz) (nth i (g_c_sum gz) 0).

  Lemma low1 K : In K sizes -> lowM K. Proof. apply low. Qed.
  Lemma leB K : In K sizes -> K <= BB. Proof. intros H. pose proof (bnds K H). pose proof (low K H). lra. Qed.

  Lemma args_sim : rel args_apx (get_impl_args EF fx fy) (get_impl_args ER x y).
  Proof.
    assert (Lx' : length x = n) by (rewrite map_length; exact Lx). assert (Ly' : length y = n) by (rewrite map_length; exact Ly).
    unfold get_impl_args. cbv zeta. rewrite Lx, Ly, Lx', Ly', HNF, HNR, Nat.eqb_refl.
    destruct (3 <? n)%nat; cbn [negb]; [|cbn; auto].
    change (nzero NF) with fz. change (nzero NR) with 0.
    rewrite <- Hsy. rewrite <- Hsr. rewrite <- Hsx. set (ax := e_argsort EF fx). set (ay := e_argsort EF fy).
    assert (Lax : length ax = n) by (unfold ax; rewrite Harg; auto).
    assert (Lay : length ay = n) by (unfold ay; rewrite Harg; auto).
    set (ar := e_argsort EF (take fz fy ax)).
    assert (Ltake : forall (l : list b64) i, length (take fz l i) = length i) by (intros; unfold take; apply map_length).
    assert (Lar : length ar = n) by (unfold ar; rewrite Harg, Ltake; auto).
    cbn [rel map]. red. cbn [g_vx g_vy g_ix g_iy g_iy_reord g_l_max g_s g_pos_sums g_c g_sx_c g_sy_c g_c_sum].
    pose proof (low1 1 I1); pose proof (low1 X IX); pose proof (low1 Y IY); pose proof (low1 (X * Y) IXY).
    pose proof (leB 1 I1); pose proof (leB X IX); pose proof (leB Y IY); pose proof (leB (X * Y) IXY).
    split; [apply apxs_take; auto; apply rx|]. split; [apply apxs_take; auto; apply ry|].
    split; [rewrite Ltake; auto|]. split; [rewrite Ltake; auto|].
    split; [apply (scatter_ok (repeat 0%Z n) (repeat 0%Z n) n (repeat_length _ _) (repeat_length _ _) Hn)|]. split; [apply (scatter_ok (repeat 0%Z n) (repeat 0%Z n) n (repeat_length _ _) (repeat_length _ _) Hn)|]. split; [auto|]. split; [auto|]. split; [auto|].
    split; [auto|]. split; [auto|]. split; [rewrite Hemp, HempR; auto|]. split; [auto|].
    assert (Hcase : forall (c : list b64) (zc : list R) K, In K sizes -> apxs 1 K c zc -> length c = n ->
      apxs 1 K c zc /\ length c = n /\
      apxs (2 + n) ((m + 1) * K) (map2 (nsub NF) (np_cumsum NF c) c) (map2 (nsub NR) (np_cumsum NR zc) zc) /\
      apxs (2 + n) ((m + 1) * K) (map2 (nsub NF) (np_cumsum NF (take fz c ar)) (take fz c ar)) (map2 (nsub NR) (np_cumsum NR (take 0 zc ar)) (take 0 zc ar)) /\
      apx (1 + n) (m * K) (np_sum NF c) (np_sum NR zc)).
    { intros c zc K HK Hc Lc. pose proof (bnds K HK) as (B1 & B2 & B3 & B4 & B5 & B6 & B7). destruct (low K HK) as (K1 & K2 & K3). pose proof m4.
      assert (R1 : (m + 1) * K = m * K + K) by ring.
      assert (lc : lenR c = m) by (unfold lenR; congruence).
      assert (lt : lenR (take fz c ar) = m) by (unfold lenR; rewrite Ltake; congruence).
      split; [auto|]. split; [auto|].
      split. { rewrite <- lc. replace (2 + n)%nat with (1 + 1 + length c)%nat by lia. apply apxs_excl; auto; rewrite ?lc; [lra|apply F; lia]. }
      split. { rewrite <- lt. replace (2 + n)%nat with (1 + 1 + length (take fz c ar))%nat by (rewrite Ltake; lia).
        apply apxs_excl; auto; rewrite ?lt; [apply apxs_take; auto; lra|lra|rewrite Ltake; apply F; lia]. }
      rewrite <- lc. replace (1 + n)%nat with (1 + length c)%nat by lia. apply apxs_sum; auto; rewrite ?lc; [lra|apply F; lia]. }
    intros [|[|[|[|i]]]] K HK Hi; cbn [nth sizes] in HK |- *; subst K; try lia; (apply Hcase; [apply I1 || apply IX || apply IY || apply IXY| |]).
    - apply apxs_map_const; [rewrite Lx, Lx'; auto|]. apply (apx_ofZ 1 1 1); try lia; try (cbn; lra).
    - rewrite map_length; auto.
    - eapply apxs_k; [apply apxs_take; auto; apply rx|lia].
    - rewrite Ltake; auto.
    - eapply apxs_k; [apply apxs_take; auto; apply ry|lia].
    - rewrite Ltake; auto.
    - apply apxs_take; auto. apply (apxs_map2 0 X 0 Y); [|apply rx|apply ry].
      intros a b u v Ha Hb. apply (apx_mul 0 0); auto. apply F; lia.
    - rewrite Ltake; auto.
  Qed.

  Notation KG := (n + L + 6)%nat.
  Fixpoint gammas_apx (is_ : list nat) (l : list (list b64)) (zl : list (list R)) : Prop :=
    match is_, l, zl with
    | [], [], [] => True
    | i :: is_, a :: l, za :: zl => apxs KG (8 * lm * m * nth i sizes 0) a za /\ gammas_apx is_ l zl
    | _, _, _ => False
    end.

  Lemma partial_sums_sim g gz new_y : args_apx g gz -> forall is_ s (zs : list R), Forall (fun i => (i < 4)%nat) is_ -> length s = length zs ->
    forall oob, rel (gammas_apx is_) (partial_sums EF false oob new_y g s is_) (partial_sums ER false oob new_y gz zs is_).
  Proof.
    intros (_ & _ & _ & _ & _ & _ & H1 & _ & H2 & H3 & H4 & _ & H5 & Hc).
    assert (forall i, (i < 4)%nat -> In (nth i sizes 0) sizes) as HK by (intros i Hi; apply nth_In; auto).
    induction is_ as [|i is_ IH]; intros s zs Hi Hs oob; cbn [partial_sums]; [cbn; constructor|].
    pose proof (Forall_inv Hi) as Hi4. pose proof (Forall_inv_tail Hi) as His. rewrite HNF, HNR.
    destruct (Hc i _ eq_refl Hi4) as (C1 & C2 & C3 & C4 & C5).
    pose proof (HK i Hi4) as HKi. set (K := nth i sizes 0) in *. pose proof (bnds K HKi) as (B1 & B2 & B3 & B4 & B5 & B6 & B7).
    destruct (low K HKi) as (K1 & K2 & K3). pose proof L2.
    pose proof (rel_partial_sum K oob L (g_pos_sums g) new_y _ _ (g_ix g) (g_iy_reord g) _ _ _ _ _ _ s zs
      (nth i (g_gamma g) []) (nth i (g_gamma gz) []) n K1 K2 C1 C2 Hn L2 C3 C4 C5 Hs ltac:(lra) ltac:(apply F; lia)) as P.
    rewrite H4, H3, <- H1, <- H2, <- H5. change (nzero NF) with fz. change (nzero NR) with 0.
    destruct (partial_sum_2d NF oob _ _ _ _ _ _ _ _ _ _ _ _) as [[gam s']|e];
    destruct (partial_sum_2d NR oob _ _ _ _ _ _ _ _ _ _ _ _) as [[zgam zs']|ez]; cbn [rel] in P; try contradiction; [|cbn; exact P].
    destruct P as [P1 P2]. cbn [fst snd] in P1, P2. cbn [rbind].
    specialize (IH s' zs' His P2 oob).
    destruct (partial_sums EF _ _ _ _ _ _) as [r|e]; destruct (partial_sums ER _ _ _ _ _ _) as [zr|ez]; cbn [rel rbind gammas_apx] in *; try contradiction; auto.
  Qed.

  Lemma map2_length {A B C} (f : A -> B -> C) a b : length (map2 f a b) = Nat.min (length a) (length b).
  Proof. unfold map2. rewrite map_length, combine_length. auto. Qed.

  Theorem avl_apx oob k kv :
    rel terms_apx (terms_avl_impl EF false oob k kv fx fy false) (terms_avl_impl ER false oob k kv x y false).
  Proof.
    unfold terms_avl_impl. pose proof args_sim as HA.
    destruct (get_impl_args EF fx fy) as [g|e]; destruct (get_impl_args ER x y) as [gz|ez]; cbn [rel] in HA; try contradiction; [|exact HA].
    cbn [rbind]. destruct HA as (V1 & V2 & L1 & L2' & P1 & P2 & E1 & E2 & E3 & M1 & M2 & Ls & E4 & HC) eqn:HA'.
    rewrite <- E1, <- E2, <- E3.
    pose proof (partial_sums_sim g gz (map (fun i => (Z.of_nat i + 1)%Z) (g_iy_reord g)) HA [0;1;2;3]%nat (g_s g) (g_s gz)
      ltac:(repeat constructor; lia) Ls oob) as PS.
    destruct (partial_sums EF _ _ _ _ _ _) as [r|e]; destruct (partial_sums ER _ _ _ _ _ _) as [zr|ez]; cbn [rel] in PS; try contradiction; [|exact PS].
    cbn [rbind rel].
    destruct r as [|g1 [|g2 [|g3 [|g4 [|g5 r]]]]], zr as [|z1 [|z2 [|z3 [|z4 [|z5 zr]]]]]; cbn [gammas_apx] in PS; try tauto.
    destruct PS as (G1 & G2 & G3 & G4 & _). cbn [nth sizes] in G1, G2, G3, G4. cbn [nth]. rewrite HNF, HNR.
    pose proof (apxs_beta X IX _ _ V1 L1 (g_ix g)) as BX. pose proof (apxs_beta Y IY _ _ V2 L2' (g_iy g)) as BY.
    pose proof (bnds X IX). pose proof (bnds Y IY). pose proof (bnds (X * Y) IXY) as BXY. pose proof (bnds 1 I1).
    pose proof (low1 1 I1); pose proof (low1 X IX); pose proof (low1 Y IY); pose proof (low1 (X * Y) IXY).
    pose proof lm2; pose proof m4.
    assert (lb : forall v idx, length idx = n -> length (avl_beta EF v idx) = n).
    { intros v idx Hi. unfold avl_beta, map2, take. rewrite map_length, combine_length, !map_length, Hi. lia. }
    set (q := lm * (m * (X * Y))) in *.
    assert (Q0 : lowM q) by (apply lowM_mul; [lra|apply lowM_mul; [lra|auto]]).
    assert (Q5 : lm * (m * (m * (X * Y))) = m * q) by (unfold q; ring).
    assert (Q6 : 4 * q <= m * q) by (apply Rmult_le_compat_r; [apply lowM_nonneg; auto|auto]).
    assert (T : apxs (n + L + 11) (32 * q)
      (map2 (nsub NF) (map2 (nsub NF) (map2 (nadd NF) (map2 (nmul NF) (map2 (nmul NF) fx fy) g1) g4) (map2 (nmul NF) fx g3)) (map2 (nmul NF) fy g2))
      (map2 (nsub NR) (map2 (nsub NR) (map2 (nadd NR) (map2 (nmul NR) (map2 (nmul NR) x y) z1) z4) (map2 (nmul NR) x z3)) (map2 (nmul NR) y z2))).
    { assert (Q1 : X * Y * (8 * lm * m * 1) = 8 * q) by (unfold q; ring).
      assert (Q4 : 8 * lm * m * (X * Y) = 8 * q) by (unfold q; ring).
      assert (Q3 : X * (8 * lm * m * Y) = 8 * q) by (unfold q; ring).
      assert (Q2 : Y * (8 * lm * m * X) = 8 * q) by (unfold q; ring).
      assert (Q8 : lowM (8 * q)) by (apply lowM_mul; auto; lra).
      assert (A1 : apxs 1 (X * Y) (map2 (nmul NF) fx fy) (map2 (nmul NR) x y)).
      { apply (apxs_map2 0 X 0 Y); [|apply rx|apply ry]. intros a b u v Ha Hb. apply (apx_mul 0 0); auto; [apply F; lia|lra]. }
      assert (A2 : apxs (n + L + 8) (8 * q) (map2 (nmul NF) (map2 (nmul NF) fx fy) g1) (map2 (nmul NR) (map2 (nmul NR) x y) z1)).
      { eapply apxs_map2; [|exact A1|exact G1]. intros a b u v Ha Hb. rewrite <- Q1. eapply apx_k; [apply (apx_mul 1 KG); auto; rewrite ?Q1; auto; [apply F; lia|lra]|lia]. }
      assert (A3 : apxs (n + L + 8) (8 * q) (map2 (nmul NF) fx g3) (map2 (nmul NR) x z3)).
      { eapply apxs_map2; [|exact rx|exact G3]. intros a b u v Ha Hb. rewrite <- Q3. eapply apx_k; [apply (apx_mul 0 KG); auto; rewrite ?Q3; auto; [apply F; lia|lra]|lia]. }
      assert (A4 : apxs (n + L + 8) (8 * q) (map2 (nmul NF) fy g2) (map2 (nmul NR) y z2)).
      { eapply apxs_map2; [|exact ry|exact G2]. intros a b u v Ha Hb. rewrite <- Q2. eapply apx_k; [apply (apx_mul 0 KG); auto; rewrite ?Q2; auto; [apply F; lia|lra]|lia]. }
      rewrite Q4 in G4.
      replace (32 * q) with (8 * q + 8 * q + 8 * q + 8 * q) by ring.
      eapply (apxs_map2 (n + L + 10) (8 * q + 8 * q + 8 * q)); [|eapply (apxs_map2 (n + L + 9) (8 * q + 8 * q)); [|eapply (apxs_map2 (n + L + 8) (8 * q)); [|exact A2|exact G4]|exact A3]|exact A4].
      - intros a b u v Ha Hb. replace (n + L + 11)%nat with (S (n + L + 10)) by lia. apply apx_sub; [exact Ha|eapply apx_k; eauto; lia|apply F; lia|lra].
      - intros a b u v Ha Hb. replace (n + L + 10)%nat with (S (n + L + 9)) by lia. apply apx_sub; [exact Ha|eapply apx_k; eauto; lia|apply F; lia|lra].
      - intros a b u v Ha Hb. replace (n + L + 9)%nat with (S (n + L + 8)) by lia. apply apx_add; [exact Ha|eapply apx_k; eauto; lia|apply F; lia|lra]. }
    match type of T with apxs _ _ ?L _ => assert (TL : (length L <= n)%nat) by (rewrite !map2_length; lia); set (tl := L) in * end.
    match type of T with apxs _ _ _ ?L => set (tzl := L) in * end.
    assert (TR : lenR tl <= m) by (apply le_INR; auto).
    assert (TB : lenR tl * (32 * q) <= m * (32 * q)) by (apply Rmult_le_compat_r; [pose proof (lowM_nonneg _ Q0); lra|auto]).
    assert (HB' : m * (32 * q) <= BB) by (replace (m * (32 * q)) with (32 * (m * q)) by ring; lra).
    red. cbn [t_mean_prod t_a_axis t_a_total t_b_axis t_b_total]. rewrite Q5.
    split. { eapply apx_weaken; [apply (apxs_sum _ _ _ _ T)|..].
      - lra.
      - apply F; lia.
      - lia.
      - lra.
      - apply lowM_mul; [lra|]. apply lowM_mul; [lra|auto].
      - lra. }
    split; [apply (apxs_row X IX); auto; apply rx|].
    split; [apply (apx_total X IX); auto; [apply rx|apply lb, P1]|].
    split; [apply (apxs_row Y IY); auto; apply ry|].
    split; [apply (apx_total Y IY); auto; [apply ry|apply lb, P2]|].
    pose proof (proj2 P1) as P1l. pose proof (proj2 P2) as P2l.
    split; unfold avl_row_sums; rewrite ?map2_length, ?lb; auto; lia.
  Qed.
End Sim.
