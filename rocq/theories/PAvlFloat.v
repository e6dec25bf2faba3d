(** C56: accuracy of the AVL method on arbitrary doubles.

    The fast method subtracts sums of the data themselves, not of their differences: the error is relative to the largest
    magnitudes in the samples, not to the largest distances. *)
From Coq Require Import Reals Lra Lia List Arith Bool ZArith Psatz.
From Flocq Require Import Core IEEE754.BinarySingleNaN.
From Verif Require Import Num Numpy MUtils MDistances MInternals MMergesort MAvl MDcor MInteger MFloat Sums Spec Centering Tab
  Samples RefDist RefAvl RefDcor Api Witness RefApi SpecFacts Calls AvlGeneric Transfer Hom RefInteger RefFloat FloatAvl FloatApi
  FloatEnv FloatSum FloatError FloatAccuracy PInteger PFloat FloatNaive PNaiveFloat FloatAvlErr FloatAvlForm.
Import ListNotations.
Local Open Scope R_scope.

(** numpy's argsort compares values: it cannot tell -0.0 from 0.0. *)
Definition sorts_values (E : Env b64) : Prop :=
  forall l l' : list b64, Forall (fun v => is_finite v = true) l -> Forall (fun v => is_finite v = true) l' ->
    map B2R l = map B2R l' -> e_argsort E l = e_argsort E l'.

(** The values of the array are at most [X] in absolute value. *)
Definition within (X : R) (x : array b64) : Prop := Forall (fun v => Rabs (B2R v) <= X) (entries x).

Definition avl_roundings (n : nat) : R := INR (4 * n + Nat.log2_up n + 20) * INR (Nat.log2_up n).
Definition avl_unit (f : api) : R := match f with UDcovSqr => / 2 ^ 42 | _ => / 2 ^ 45 end.

(** ** A real environment that sorts like [E] on three lists *)
Section RealEnv.
  Context (lib : flib) (E : Env b64) (HE : valid_fenv lib E) (HV : sorts_values E).
  Context (l1 l2 l3 : list b64) (F1 : Forall (fun v => is_finite v = true) l1) (F2 : Forall (fun v => is_finite v = true) l2)
    (F3 : Forall (fun v => is_finite v = true) l3).
  Definition same (r : list R) (l : list b64) : {r = map B2R l} + {r <> map B2R l} := list_eq_dec Req_EM_T r (map B2R l).
  Definition sort3 (r : list R) : list nat :=
    if same r l1 then e_argsort E l1 else if same r l2 then e_argsort E l2 else if same r l3 then e_argsort E l3 else argsort_R r.
  Definition env3 : Env R := mkEnv R RNum sort3 (fun n => repeat 0 n) (fun _ => ([], [])) (fun _ _ => 0) true.
  Lemma env3_valid : valid_env env3.
  Proof.
    split; cbn; auto; [|intros; apply repeat_length]. intros r. unfold sort3. destruct (same r l1) as [->|]; [apply (vf_sorts _ _ HE); auto|].
    destruct (same r l2) as [->|]; [apply (vf_sorts _ _ HE); auto|]. destruct (same r l3) as [->|]; [apply (vf_sorts _ _ HE); auto|].
    apply (ve_argsort _ (env_R_valid true)).
  Qed.
  Lemma sort3_1 : e_argsort E l1 = sort3 (map B2R l1).
  Proof. unfold sort3. destruct (same _ l1); [auto|contradiction]. Qed.
  Lemma sort3_2 : e_argsort E l2 = sort3 (map B2R l2).
  Proof. unfold sort3. destruct (same _ l1); [apply HV; auto|]. destruct (same _ l2); [auto|contradiction]. Qed.
  Lemma sort3_3 : e_argsort E l3 = sort3 (map B2R l3).
  Proof. unfold sort3. destruct (same _ l1); [apply HV; auto|]. destruct (same _ l2); [apply HV; auto|]. destruct (same _ l3); [auto|contradiction]. Qed.
End RealEnv.

Lemma take_B2R (l : list b64) idx : map B2R (take (B754_zero false) l idx) = take 0 (map B2R l) idx.
Proof. unfold take. rewrite map_map. apply map_ext. intros i. change 0 with (B2R (B754_zero false : b64)). rewrite (map_nth B2R). reflexivity. Qed.

Section Avl.
  Context (lib : flib) (E : Env b64) (HE : valid_fenv lib E) (HV : sorts_values E).
  Let EN : e_num E = B64Num lib := vf_num _ _ HE.

  Lemma avl_lists (fx fy : list b64) X Y n k kv oob : length fx = n -> length fy = n -> (4 <= n)%nat -> INR n <= 2 ^ 37 ->
    Forall (fun v => is_finite v = true) fx -> Forall (fun v => is_finite v = true) fy ->
    Forall (fun v => Rabs (B2R v) <= X) fx -> Forall (fun v => Rabs (B2R v) <= Y) fy ->
    / 2 ^ 300 <= X <= 2 ^ 300 -> / 2 ^ 300 <= Y <= 2 ^ 300 ->
    exists t tr, terms_avl_impl E false oob k kv fx fy false = Ok t /\ terms_apx X Y n t tr /\
      terms_ok n (fun i j => Rabs (B2R (nth i fx (B754_zero false)) - B2R (nth j fx (B754_zero false))))
        (fun i j => Rabs (B2R (nth i fy (B754_zero false)) - B2R (nth j fy (B754_zero false)))) false tr.
  Proof.
    intros Lx Ly Hn Hb Fx Fy HX HY BX BY.
    set (ax := e_argsort E fx).
    assert (F3 : Forall (fun v => is_finite v = true) (take (B754_zero false : b64) fy ax)).
    { apply Forall_forall. intros v Hv. apply in_map_iff in Hv. destruct Hv as (i & <- & _).
      destruct (nth_in_or_default i fy (B754_zero false)) as [Hi|Hi]; [rewrite Forall_forall in Fy; auto|rewrite Hi; reflexivity]. }
    set (ER := env3 E fx fy (take (B754_zero false) fy ax)).
    assert (VR : valid_env ER) by (apply (env3_valid lib); auto).
    assert (Tx : forall l : list b64, length l = n -> map B2R l = tab n (fun i => B2R (nth i l (B754_zero false)))).
    { intros l Hl. rewrite <- Hl. rewrite (tab_of_list (B754_zero false : b64) l) at 1. rewrite tab_map. reflexivity. }
    destruct (terms_avl_impl_ok ER VR n (fun i => B2R (nth i fx (B754_zero false))) (fun i => B2R (nth i fy (B754_zero false))) Hn false oob k kv false) as (tr & Ht & _ & _ & Hok).
    rewrite <- (Tx fx Lx), <- (Tx fy Ly) in Ht.
    assert (P300 : 1 <= 2 ^ 300) by (apply pow_R1_Rle; lra). assert (i300 : / 2 ^ 300 <= 1) by (rewrite <- Rinv_1; apply Rinv_le; lra).
    assert (p300 : 0 < / 2 ^ 300) by apply pow_inv_pos.
    assert (S600 : 2 ^ 600 = 2 ^ 300 * 2 ^ 300) by (rewrite <- pow_add; reflexivity).
    assert (i600 : / 2 ^ 600 = / 2 ^ 300 * / 2 ^ 300) by (rewrite S600, Rinv_mult; reflexivity).
    assert (K1 : forall K, In K [1; X; Y; X * Y] -> / 2 ^ 600 <= K <= 2 ^ 600).
    { rewrite i600, S600. assert (2 ^ 300 * 1 <= 2 ^ 300 * 2 ^ 300) by (apply Rmult_le_compat_l; lra).
      assert (/ 2 ^ 300 * / 2 ^ 300 <= / 2 ^ 300 * 1) by (apply Rmult_le_compat_l; lra).
      intros K [<-|[<-|[<-|[<-|[]]]]]; try lra. split; apply Rmult_le_compat; lra. }
    pose proof (avl_apx lib (vf_lib _ _ HE) E ER EN eq_refl (vf_empty _ _ HE) (ve_empty _ VR) (fun l => is_perm_length _ _ (vf_perm _ _ HE l)) X Y fx fy Fx Fy HX HY n Lx Ly Hn) as H.
    assert (A1 : e_argsort E fx = e_argsort ER (map B2R fx)) by (eapply sort3_1; eauto).
    specialize (H A1). specialize (H ltac:(apply sort3_2; auto)).
    specialize (H ltac:(rewrite <- A1, <- take_B2R; apply sort3_3; auto)).
    specialize (H (2 ^ 600) (fun K HK => proj2 (K1 K HK))).
    assert (lm0 : INR (Nat.log2_up n) <= 2 ^ 37) by (apply (L_le n Hn); auto).
    pose proof (fewn n Hn Hb) as fw.
    assert (HB : 32 * INR (Nat.log2_up n) * INR n ^ 2 * 2 ^ 600 <= 2 ^ 900).
    { apply Rle_trans with (2 ^ 5 * 2 ^ 37 * (2 ^ 37) ^ 2 * 2 ^ 600).
      - apply Rmult_le_compat_r; [apply pow_le; lra|]. pose proof (pos_INR n). pose proof (pos_INR (Nat.log2_up n)).
        apply Rmult_le_compat; [apply Rmult_le_pos; lra|apply pow_le; auto|apply Rmult_le_compat; try lra|apply pow_incr; auto].
      - rewrite <- pow_mult, <- !pow_add. apply pow2_le. lia. }
    specialize (H HB).
    assert (LW : forall K, In K [1; X; Y; X * Y] -> bpow radix2 (-900) <= K).
    { intros K HK. destruct (K1 K HK) as (KL & _). pose proof (pow_inv_pos 600) as p600. assert (LK : lowM K) by (eapply low_inv; [|exact KL]; lia). destruct LK as [LK|LK]; [lra|exact LK]. }
    specialize (H LW).
    specialize (H fw).
    assert (H53 : (2 * Z.of_nat n <= 2 ^ 53)%Z).
    { assert (IZR (Z.of_nat n) <= IZR (2 ^ 37)) as Hz by (rewrite <- INR_IZR_INZ; change (2 ^ 37)%Z with (2 ^ Z.of_nat 37)%Z; rewrite <- pow_IZR; auto).
      apply le_IZR in Hz. lia. }
    specialize (H H53 oob k kv). rewrite Ht in H. destruct (terms_avl_impl E _ _ _ _ _ _ _) as [t|]; [|contradiction]. eauto.
  Qed.

End Avl.

(** The formula on terms known up to the errors of the AVL method. *)
Lemma formula_accuracy_sym lib E n (a b : nat -> nat -> R) X Y f k mp aa at_ ba bt : valid_fenv lib E ->
  symmetric n a -> symmetric n b -> hollow n a -> hollow n b -> let m := INR n in let L := Nat.log2_up n in
  (4 <= n)%nat -> INR n <= 2 ^ 37 -> / 2 ^ 300 <= X <= 2 ^ 300 -> / 2 ^ 300 <= Y <= 2 ^ 300 -> squared f ->
  apx (4 * n + L + 12) (32 * (INR L * (m * (m * (X * Y))))) mp (rsum2 n n (fun i j => a i j * b i j)) ->
  apxs (4 + n) (5 * (m * X)) aa (tab n (fun i => rsum n (a i))) -> apx (2 * n + 4) (5 * (m * (m * X))) at_ (rsum2 n n a) ->
  apxs (4 + n) (5 * (m * Y)) ba (tab n (fun i => rsum n (b i))) -> apx (2 * n + 4) (5 * (m * (m * Y))) bt (rsum2 n n b) ->
  length aa = n -> length ba = n ->
  exists v, dcov_from_terms E k mp aa at_ ba bt n (corrected f) = Ok v /\ is_finite v = true /\
    Rabs (B2R v - value f n a b) <= avl_roundings n * avl_unit f * (X * Y).
Proof.
    intros HE SA SB0 HA HB0 m L Hn Hnb BX BY Hf N1 N2 N3 N4 N5 La Lb. unfold m, L in *. clear m L.
    destruct (from_terms_apx lib (vf_lib _ _ HE) E (vf_num _ _ HE) n Hn Hnb (corrected f) X Y BX BY k _ _ _ _ _ _ _ _ _ _ N1 N2 N3 N4 N5 La Lb) as (v & V1 & V2 & V3 & V4 & _).
    exists v. split; [exact V1|]. split; [exact V2|].
    pose proof (fewn n Hn Hnb) as fw.
    clear V4.
    set (N := INR n) in *. assert (H4 : 4 <= N) by (unfold N; replace 4 with (INR 4) by (cbn; ring); apply le_INR; auto).
    assert (Hval : value f n a b = rsum2 n n (fun i j => a i j * b i j) / N / den1 n (corrected f)
      - 2 * (np_sum RNum (map2 Rmult (map (fun v0 => v0 / N) (tab n (fun i => rsum n (a i)))) (tab n (fun i => rsum n (b i)))) / den2 n (corrected f))
      + rsum2 n n a / N * rsum2 n n b / den3 n (corrected f)).
    { rewrite tab_map, tab_map2, np_sum_tab. destruct Hf as [-> | ->]; cbn [value].
      - rewrite dcov2_from_terms by (lia || auto). reflexivity.
      - rewrite udcov2_from_terms by (lia || auto). reflexivity. }
    rewrite Hval. eapply Rle_trans; [exact V3|].
    assert (l2 : 2 <= INR (Nat.log2_up n)) by (replace 2 with (INR 2) by (cbn; ring); apply le_INR; apply (Nat.log2_up_le_mono 4 n); auto).
    set (l := INR (Nat.log2_up n)) in *. pose proof (pow_inv_pos 300).
    assert (XY0 : 0 <= X * Y) by (apply Rmult_le_pos; lra).
    set (W := 8 * l * (X * Y)). assert (W0 : 0 <= W) by (unfold W; apply Rmult_le_pos; lra).
    destruct (dens_pos n Hn (corrected f)) as (D1 & D2 & D3).
    assert (i2 : 0 < / den2 n (corrected f)) by (apply Rinv_0_lt_compat; lra).
    assert (i3 : 0 < / den3 n (corrected f)) by (apply Rinv_0_lt_compat; lra).
    assert (XYW : 25 * (X * Y) <= 4 * W) by (unfold W; replace (4 * (8 * l * (X * Y))) with (32 * l * (X * Y)) by ring; apply Rmult_le_compat_r; lra).
    set (g1 := 32 * (l * (N * (N * (X * Y)))) / N / den1 n (corrected f)).
    set (g2 := N * (5 * (N * X) / N * (5 * (N * Y))) / den2 n (corrected f)).
    set (g3 := 5 * (N * (N * X)) / N * (5 * (N * (N * Y))) / den3 n (corrected f)).
    assert (B1 : g1 <= 4 * N ^ 2 * W / N / den1 n (corrected f)).
    { unfold g1, W. apply Req_le. field. lra. }
    assert (B2 : g2 <= 4 * N ^ 2 * W / den2 n (corrected f)).
    { unfold g2. unfold Rdiv at 1 3. apply Rmult_le_compat_r; [lra|].
      replace (N * (5 * (N * X) / N * (5 * (N * Y)))) with (N ^ 2 * (25 * (X * Y))) by (field; lra).
      replace (4 * N ^ 2 * W) with (N ^ 2 * (4 * W)) by ring. apply Rmult_le_compat_l; [apply pow_le; lra|auto]. }
    assert (B3 : g3 <= 4 * N ^ 3 * W / den3 n (corrected f)).
    { unfold g3. unfold Rdiv at 1 3. apply Rmult_le_compat_r; [lra|].
      replace (5 * (N * (N * X)) / N * (5 * (N * (N * Y)))) with (N ^ 3 * (25 * (X * Y))) by (field; lra).
      replace (4 * N ^ 3 * W) with (N ^ 3 * (4 * W)) by ring. apply Rmult_le_compat_l; [apply pow_le; lra|auto]. }
    assert (HS : g1 + 2 * g2 + g3 <= (match f with UDcovSqr => 128 | _ => 16 end) * W).
    { destruct Hf as [-> | ->]; [apply (size_V N)|apply (size_U N)]; auto. }
    assert (Hg : gam (4 * n + Nat.log2_up n + 20) <= 2 * INR (4 * n + Nat.log2_up n + 20) * ulp1).
    { apply gam_lin.
      assert (INR (4 * n + Nat.log2_up n + 20) <= 2 ^ 40) by (eapply Rle_trans; [|exact fw]; apply le_INR; lia).
      unfold ulp1. apply Rle_trans with (2 ^ 40 * / 2 ^ 53); [apply Rmult_le_compat_r; lra|]. lra. }
    pose proof (gam_nonneg (4 * n + Nat.log2_up n + 20)) as G0.
    assert (C0 : 0 <= match f with UDcovSqr => 128 | _ => 16 end) by (destruct f; lra).
    apply Rle_trans with (gam (4 * n + Nat.log2_up n + 20) * ((match f with UDcovSqr => 128 | _ => 16 end) * W)); [apply Rmult_le_compat_l; auto|].
    eapply Rle_trans; [apply Rmult_le_compat_r; [apply Rmult_le_pos; auto|exact Hg]|].
    unfold avl_roundings, ulp1, avl_unit, W. fold l. destruct Hf as [-> | ->]; cbv iota; apply Req_le; field.
  Qed.

Lemma formula_accuracy lib E n (xr yr : array R) X Y f k mp aa at_ ba bt : valid_fenv lib E ->
  let a := distances 1 xr in let b := distances 1 yr in let m := INR n in let L := Nat.log2_up n in
  (4 <= n)%nat -> INR n <= 2 ^ 37 -> / 2 ^ 300 <= X <= 2 ^ 300 -> / 2 ^ 300 <= Y <= 2 ^ 300 -> squared f ->
  apx (4 * n + L + 12) (32 * (INR L * (m * (m * (X * Y))))) mp (rsum2 n n (fun i j => a i j * b i j)) ->
  apxs (4 + n) (5 * (m * X)) aa (tab n (fun i => rsum n (a i))) -> apx (2 * n + 4) (5 * (m * (m * X))) at_ (rsum2 n n a) ->
  apxs (4 + n) (5 * (m * Y)) ba (tab n (fun i => rsum n (b i))) -> apx (2 * n + 4) (5 * (m * (m * Y))) bt (rsum2 n n b) ->
  length aa = n -> length ba = n ->
  exists v, dcov_from_terms E k mp aa at_ ba bt n (corrected f) = Ok v /\ is_finite v = true /\
    Rabs (B2R v - value f n a b) <= avl_roundings n * avl_unit f * (X * Y).
Proof. intros. apply formula_accuracy_sym with (lib := lib); auto; apply dmat_symmetric || apply dmat_hollow. Qed.

Section AvlCall.
  Context (lib : flib) (E : Env b64) (HE : valid_fenv lib E) (HV : sorts_values E).
  Let EN : e_num E = B64Num lib := vf_num _ _ HE.
  Context (n : nat) (x y : array b64) (Hp : double_pair n x y) (Ux : univariate x) (Uy : univariate y) (Sx : some_numpy x y).
  Context (X Y : R) (HX : within X x) (HY : within Y y) (BX : / 2 ^ 300 <= X <= 2 ^ 300) (BY : / 2 ^ 300 <= Y <= 2 ^ 300).
  Context (Hn : (4 <= n)%nat) (Hn' : (Z.of_nat n <= 2 ^ 37)%Z).
  Let a := distances 1 (freals x).
  Let b := distances 1 (freals y).

  Lemma avl_call_apx cm : not_forced cm \/ cm = CCompileCpu ->
    exists t tr, outcome (terms_avl E x y (b64_ofZ 1) cm false) = Ok t /\ terms_apx X Y n t tr /\ terms_ok n a b false tr.
  Proof.
    intros Hcm. destruct Hp as ((Wx & Wy & Lx & Ly & _) & Fx & Fy & Ix & Iy).
    assert (WFx := Wx). assert (WFy := Wy). apply freals_wf in WFx, WFy.
    assert (Ux' : univariate (freals x)) by (unfold univariate, freals; rewrite amap_ncols; auto).
    assert (Uy' : univariate (freals y)) by (unfold univariate, freals; rewrite amap_ncols; auto).
    pose proof (transform_to_1d_tab (freals x) Wx Ux') as Tx. pose proof (transform_to_1d_tab (freals y) Wy Uy') as Ty.
    unfold freals in Tx, Ty. rewrite amap_1d in Tx, Ty. fold (freals x) in Tx. fold (freals y) in Ty.
    change (@transform_to_1d (binary_float 53 1024)) with (@transform_to_1d b64) in Tx, Ty. change (binary_float 53 1024) with b64 in Tx, Ty.
    destruct (transform_to_1d (adata x)) as [vx|] eqn:Ex; [|discriminate].
    destruct (transform_to_1d (adata y)) as [vy|] eqn:Ey; [|discriminate]. cbn [rmap] in Tx, Ty.
    injection Tx as Tx. injection Ty as Ty. rewrite Lx in Tx. rewrite Ly in Ty.
    pose proof (entries_1d x vx Ex) as Vx. pose proof (entries_1d y vy Ey) as Vy.
    assert (lx : length vx = n) by (apply (f_equal (@length _)) in Tx; rewrite map_length, tab_length in Tx; auto).
    assert (ly : length vy = n) by (apply (f_equal (@length _)) in Ty; rewrite map_length, tab_length in Ty; auto).
    unfold within in HX, HY. rewrite <- Vx in HX, Ix. rewrite <- Vy in HY, Iy.
    assert (Ht : exists t tr, outcome (terms_avl E x y (b64_ofZ 1) cm false) = Ok t /\ terms_apx X Y n t tr /\
      terms_ok n (fun i j => Rabs (B2R (nth i vx (B754_zero false)) - B2R (nth j vx (B754_zero false))))
        (fun i j => Rabs (B2R (nth i vy (B754_zero false)) - B2R (nth j vy (B754_zero false)))) false tr).
    { rewrite (avl_outcome E (fshape lib E HE) x y (b64_ofZ 1) false vx vy cm); auto.
      - destruct (compiles cm _ _).
        + rewrite (avl_compiled E (fshape lib E HE)) by apply (f00 lib E HE).
          apply (avl_lists (seq_lib lib) (seq_env E) (valid_seq _ _ HE) HV); auto. apply small_INR; exact Hn'.
        + apply (avl_lists lib E HE HV); auto. apply small_INR; exact Hn'.
      - rewrite EN. apply one_one.
      - exact (proj1 (some_together x y) Sx).
      - destruct Hcm as [Hcm | ->]; [left; auto|right]. unfold forced_f64, is_float64. auto. }
    destruct Ht as (t & tr & T1 & T2 & T3).
    assert (T4 : terms_ok n a b false tr).
    { assert (forall z (vz : list b64), univariate (freals z) -> map B2R vz = tab n (fun i => obs (freals z) i 0) ->
        forall i j, (i < n)%nat -> (j < n)%nat -> Rabs (B2R (nth i vz (B754_zero false)) - B2R (nth j vz (B754_zero false))) = distances 1 (freals z) i j) as Hd.
      { intros z vz Uz Tz i j Hi Hj. rewrite distances_1 by auto.
        assert (Hk : forall k, (k < n)%nat -> B2R (nth k vz (B754_zero false)) = obs (freals z) k 0).
        { intros k Hk. pose proof (map_nth B2R vz (B754_zero false : b64) k) as H. cbn [B2R] in H. rewrite Tz, tab_nth in H by auto. symmetry. exact H. }
        rewrite (Hk i Hi), (Hk j Hj). reflexivity. }
      destruct T3 as (M1 & M2 & M3 & M4 & M5 & _).
      assert (forall (c d : nat -> nat -> R), (forall i j, (i < n)%nat -> (j < n)%nat -> c i j = d i j) -> rsum2 n n c = rsum2 n n d) as He.
      { intros c d H. unfold rsum2. apply rsum_ext. intros. apply rsum_ext. intros. auto. }
      assert (forall (c d : nat -> nat -> R), (forall i j, (i < n)%nat -> (j < n)%nat -> c i j = d i j) -> tab n (fun i => rsum n (c i)) = tab n (fun i => rsum n (d i))) as Ht.
      { intros c d H. apply tab_ext. intros. apply rsum_ext. intros. auto. }
      red. unfold a, b. rewrite <- (He _ _ (Hd x vx Ux' Tx)), <- (He _ _ (Hd y vy Uy' Ty)), <- (Ht _ _ (Hd x vx Ux' Tx)), <- (Ht _ _ (Hd y vy Uy' Ty)).
      split; [|repeat split; auto; discriminate]. erewrite He; [exact M1|]. intros i j Hi Hj. cbn beta. rewrite (Hd x vx), (Hd y vy) by auto. reflexivity. }
    rewrite T1. eexists _, tr. split; [reflexivity|]. split; [exact T2|exact T4].
  Qed.

  Lemma avl_call_mode m cm : avl_or_auto m -> not_forced cm \/ m = MAvl /\ cm = CCompileCpu ->
    exists t tr, outcome (method_terms E m x y (b64_ofZ 1) cm false) = Ok t /\ terms_apx X Y n t tr /\ terms_ok n a b false tr.
  Proof.
    intros Hm Hcm. destruct Hm as [-> | ->]; cbn [method_terms].
    - apply avl_call_apx. destruct Hcm as [H|(_ & H)]; auto.
    - unfold terms_auto, can_use_fast_algorithm. rewrite (proj1 (some_together x y) Sx). cbn [is_numpy andb].
      assert (Hrv : forall z : array b64, univariate z -> is_random_variable (adata z) = true).
      { intros [s d [v|c rows]] U; cbn in *; auto. unfold univariate in U. cbn in U. subst c. reflexivity. }
      rewrite !Hrv by auto. destruct Hp as ((_ & _ & Lx & Ly & _) & _). rewrite freals_shape0 in Lx, Ly. rewrite Lx, Ly.
      assert ((3 <? n)%nat = true) as -> by (apply Nat.ltb_lt; lia). cbn [andb].
      rewrite EN. cbn [neqb nunit B64Num]. rewrite one_one. apply avl_call_apx. destruct Hcm as [H|(H & _)]; [auto|discriminate].
  Qed.

  Lemma avl_accuracy f m cm : squared f -> avl_or_auto m -> not_forced cm \/ m = MAvl /\ cm = CCompileCpu ->
    exists v, call f E x y (b64_ofZ 1) m cm = Ok v /\ is_finite v = true /\
      Rabs (B2R v - value f n a b) <= avl_roundings n * avl_unit f * (X * Y).
  Proof.
    intros Hf Hm Hcm.
    destruct (avl_call_mode m cm Hm Hcm) as (t & tr & T & (N1 & N2 & N3 & N4 & N5 & La & Lb) & (M1 & M2 & M3 & M4 & M5 & _)).
    assert (Lx : shape0 x = n) by (destruct Hp as ((_ & _ & L & _) & _); rewrite freals_shape0 in L; auto).
    assert (Hw : wants_var f = false) by (destruct Hf as [-> | ->]; reflexivity).
    rewrite call_terms, Hw, T. cbn [rbind]. rewrite Lx.
    assert (Hnb : INR n <= 2 ^ 37) by (apply small_INR; exact Hn').
    rewrite M1 in N1. rewrite M2 in N2. rewrite M3 in N3. rewrite M4 in N4. rewrite M5 in N5.
    apply (apx_k _ (4 * n + Nat.log2_up n + 12)) in N1; [|lia].
    destruct (formula_accuracy lib E n (freals x) (freals y) X Y f (t_kind t) _ _ _ _ _ HE Hn Hnb BX BY Hf N1 N2 N3 N4 N5 La Lb) as (v & V1 & V2 & V3).
    exists v. split; [unfold finish; rewrite Hw, V1; destruct Hf as [-> | ->]; reflexivity|]. split; [exact V2|exact V3].
  Qed.
End AvlCall.

(** The result of the squared functions is finite, and its distance to the exact value is at most (4n + log2 n + 20) log2 n
    roundings of a fixed unit of the product of the largest magnitudes. *)
Theorem C56_avl_accuracy f lib E n x y X Y m cm : valid_fenv lib E -> sorts_values E -> double_pair n x y ->
  univariate x -> univariate y -> some_numpy x y -> (4 <= n)%nat -> (Z.of_nat n <= 2 ^ 37)%Z ->
  within X x -> within Y y -> / 2 ^ 300 <= X <= 2 ^ 300 -> / 2 ^ 300 <= Y <= 2 ^ 300 ->
  squared f -> avl_or_auto m -> not_forced cm \/ m = MAvl /\ cm = CCompileCpu ->
  exists v, call f E x y (b64_ofZ 1) m cm = Ok v /\ is_finite v = true /\
    Rabs (B2R v - value f n (distances 1 (freals x)) (distances 1 (freals y))) <= avl_roundings n * avl_unit f * (X * Y).
Proof. intros. eapply avl_accuracy; eauto. Qed.

(** ** A case that meets the hypotheses *)
Definition agree (p q : b64 * nat) : Prop := is_finite (fst p) = true /\ is_finite (fst q) = true /\ B2R (fst p) = B2R (fst q) /\ snd p = snd q.
Lemma finsert_agree p q l l' : agree p q -> Forall2 agree l l' -> Forall2 agree (finsert p l) (finsert q l').
Proof.
  intros Hp H. induction H as [|a b l l' Hab H IH]; cbn [finsert]; [constructor; auto|].
  assert (Bleb (fst a) (fst p) = Bleb (fst b) (fst q)) as ->.
  { destruct Hp as (? & ? & E1 & _), Hab as (? & ? & E2 & _). rewrite !Bleb_correct by auto. rewrite E1, E2. reflexivity. }
  destruct (Bleb _ _); repeat (constructor; auto).
Qed.
Lemma fsort_agree l l' : Forall2 agree l l' -> forall acc acc', Forall2 agree acc acc' ->
  Forall2 agree (fold_left (fun acc v => finsert v acc) l acc) (fold_left (fun acc v => finsert v acc) l' acc').
Proof. induction 1 as [|a b l l' Hab H IH]; intros acc acc' Ha; cbn [fold_left]; auto. apply IH, finsert_agree; auto. Qed.
Lemma env_F_values : sorts_values env_F.
Proof.
  intros l l' F F' E. cbn [env_F e_argsort]. unfold fargsort.
  assert (A : Forall2 agree (combine l (seq 0 (length l))) (combine l' (seq 0 (length l')))).
  { generalize 0%nat. revert l' F' E. induction F as [|a l Ha F IH]; intros [|b l'] F' E k; try discriminate E; cbn [length seq combine]; constructor.
    - cbn [map] in E. injection E as E1 E2. inversion F'; subst. repeat split; auto.
    - cbn [map] in E. injection E as E1 E2. inversion F'; subst. apply IH; auto. }
  assert (G : forall m m', Forall2 agree m m' -> map snd m = map snd m').
  { clear. induction 1 as [|p q m m' H _ IH]; cbn [map]; auto. rewrite IH. f_equal. apply H. }
  apply G, fsort_agree; [exact A|constructor].
Qed.

Definition yv : array b64 := mkArr Numpy F64 (Vec (rev tenths)).
Lemma tenths_1 v : In v (map B2R tenths) -> Rabs v <= 1.
Proof. rewrite tenths_real. cbn [In]. intros [<-|[<-|[<-|[<-|[<-|[]]]]]]; unfold Rabs; destruct Rcase_abs; lra. Qed.
Lemma tenths_within l : (forall v, In v l -> In v tenths) -> Forall (fun v => Rabs (B2R v) <= 1) l.
Proof. intros H. apply Forall_forall. intros v Hv. apply tenths_1, in_map. auto. Qed.

Example C56_meets :
  exists v, call UDcovSqr env_F xt yv (b64_ofZ 1) MAuto CAuto = Ok v /\ is_finite v = true /\
    Rabs (B2R v - value UDcovSqr 5 (distances 1 (freals xt)) (distances 1 (freals yv))) <= avl_roundings 5 * / 2 ^ 42 * (1 * 1).
Proof.
  assert (P : 1 <= 2 ^ 300) by (apply pow_R1_Rle; lra). assert (Q : / 2 ^ 300 <= 1) by (rewrite <- Rinv_1; apply Rinv_le; lra).
  apply (C56_avl_accuracy UDcovSqr plain env_F 5 xt yv 1 1);
    unfold squared, not_forced, avl_or_auto, univariate; auto using env_F_valid, env_F_values; try (cbn; lia).
  - repeat split; auto; try (cbn; lia); try (repeat constructor; fail).
  - apply tenths_within. auto.
  - apply tenths_within. intros v Hv. apply in_rev. exact Hv.
Qed.

(** The error is not relative to the distances: a constant sample has covariance zero with every sample and NAIVE returns it,
    but AVL returns a small number of either sign, here negative. *)
Definition c7 : array b64 := mkArr Numpy F64 (Vec (repeat (fl 6305039478318694 (-53) eq_refl) 5)).
Definition d7 : array b64 := mkArr Numpy F64 (Vec [fl 5404319552844595 (-54) eq_refl; fl 7205759403792794 (-56) eq_refl; fl 7205759403792794 (-55) eq_refl;
  fl 7205759403792794 (-56) eq_refl; fl 4503599627370496 (-53) eq_refl]).
Lemma B2SF_zero (v : b64) s : B2SF v = SpecFloat.S754_zero s -> B2R v = 0.
Proof. destruct v; cbn; intros H; try discriminate H; reflexivity. Qed.
Theorem C56_constant_refuted :
  exists x y v w, double_pair 5 x y /\ (forall i j, (i < 5)%nat -> (j < 5)%nat -> distances 1 (freals x) i j = 0) /\
    call DcovSqr env_F x y (b64_ofZ 1) MAvl CNoCompile = Ok v /\ B2R v < 0 /\
    call DcovSqr env_F x y (b64_ofZ 1) MNaive CNoCompile = Ok w /\ B2R w = 0.
Proof.
  assert (DP : double_pair 5 c7 d7) by (repeat split; auto; try (cbn; lia); try (repeat constructor; fail)).
  assert (V : sf (call DcovSqr env_F c7 d7 (b64_ofZ 1) MAvl CNoCompile) = Ok (SpecFloat.S754_finite true 5069251740568231 (-106))) by (vm_compute; reflexivity).
  assert (W : sf (call DcovSqr env_F c7 d7 (b64_ofZ 1) MNaive CNoCompile) = Ok (SpecFloat.S754_zero false)) by (vm_compute; reflexivity).
  destruct (sf_ok _ _ V ltac:(discriminate)) as [V1 V2]. destruct (sf_ok _ _ W ltac:(discriminate)) as [W1 W2].
  exists c7, d7. eexists. eexists. split; [exact DP|]. split.
  - intros i j Hi Hj. rewrite distances_1 by (reflexivity). assert (H : forall k, (k < 5)%nat -> obs (freals c7) k 0 = B2R (fl 6305039478318694 (-53) eq_refl)).
    { intros [|[|[|[|[|k]]]]] Hk; try reflexivity. lia. }
    rewrite (H i Hi), (H j Hj), Rminus_eq_0. apply Rabs_R0.
  - split; [exact V1|]. split; [|split; [exact W1|]].
    + rewrite (B2SF_real _ _ _ _ V2). apply F2R_lt_0. reflexivity.
    + apply (B2SF_zero _ _ W2).
Qed.

(** The compiled and the Python variant of AVL differ in double precision, since numpy adds eight partial sums. *)
Definition x10 : array b64 := mkArr Numpy F64 (Vec [fl 7205759403792794 (-56) eq_refl; fl 7205759403792794 (-55) eq_refl; fl 5404319552844595 (-54) eq_refl; fl 7205759403792794 (-54) eq_refl;
  fl 4503599627370496 (-53) eq_refl; fl 5404319552844595 (-53) eq_refl; fl 6305039478318694 (-53) eq_refl; fl 7205759403792794 (-53) eq_refl]).
Definition y10 : array b64 := mkArr Numpy F64 (Vec [fl 7205759403792794 (-55) eq_refl; fl 7205759403792794 (-56) eq_refl; fl 7205759403792794 (-54) eq_refl; fl 5404319552844595 (-54) eq_refl;
  fl 5404319552844595 (-53) eq_refl; fl 4503599627370496 (-53) eq_refl; fl 7205759403792794 (-53) eq_refl; fl 6305039478318694 (-53) eq_refl]).
Theorem C39_doubles_refuted :
  exists E x y v w, valid_fenv modern E /\ double_pair 8 x y /\
    call DcovSqr E x y (b64_ofZ 1) MAvl CCompileCpu = Ok v /\ call DcovSqr E x y (b64_ofZ 1) MAvl CNoCompile = Ok w /\
    is_finite v = true /\ is_finite w = true /\ B2R v <> B2R w.
Proof.
  assert (DP : double_pair 8 x10 y10).
  { repeat split; auto; try (cbn; lia); try (repeat constructor; fail). }
  assert (V : sf (call DcovSqr env_M x10 y10 (b64_ofZ 1) MAvl CCompileCpu) = Ok (SpecFloat.S754_finite false 7250795400066488 (-58))) by (vm_compute; reflexivity).
  assert (W : sf (call DcovSqr env_M x10 y10 (b64_ofZ 1) MAvl CNoCompile) = Ok (SpecFloat.S754_finite false 7250795400066480 (-58))) by (vm_compute; reflexivity).
  destruct (sf_ok _ _ V ltac:(discriminate)) as [V1 V2]. destruct (sf_ok _ _ W ltac:(discriminate)) as [W1 W2].
  exists env_M, x10, y10. eexists. eexists. split; [exact env_M_valid|]. split; [exact DP|].
  split; [exact V1|]. split; [exact W1|]. split; [|split].
  - rewrite <- is_finite_SF_B2SF, V2. reflexivity.
  - rewrite <- is_finite_SF_B2SF, W2. reflexivity.
  - rewrite (B2SF_real _ _ _ _ V2), (B2SF_real _ _ _ _ W2). unfold F2R. cbn [Fnum Fexp cond_Zopp]. intros H.
    apply Rmult_eq_reg_r in H; [apply eq_IZR in H; discriminate H|]. apply Rgt_not_eq, bpow_gt_0.
Qed.
