(** The variance terms of the AVL method on doubles: 2 n^2 times numpy's variance. *)
From Coq Require Import Reals Lra Lia List Arith Bool ZArith Psatz.
From Flocq Require Import Core IEEE754.BinarySingleNaN.
From Verif Require Import Num Numpy MUtils MDistances MInternals MMergesort MAvl MDcor MInteger MFloat Sums Spec Centering Tab
  Samples RefDist RefAvl RefDcor Api Witness RefApi SpecFacts Calls AvlGeneric Transfer Hom RefInteger RefFloat FloatAvl FloatApi
  FloatEnv FloatSum FloatError FloatAccuracy PInteger PFloat FloatNaive PNaiveFloat FloatAvlErr FloatAvlForm PAvlFloat.
Import ListNotations.
Local Open Scope R_scope.

(** The same terms with variance terms. *)
Definition with_var {T} (a b : T) (t : terms (T:=T)) : terms (T:=T) :=
  mkTerms (t_mean_prod t) (t_a_axis t) (t_a_total t) (t_b_axis t) (t_b_total t) (Some a) (Some b) (t_kind t) (t_vkind t).
Definition var_of {T} (N : Num T) (v : list T) : T := nmul N (nofZ N (2 * Z.of_nat (length v) ^ 2)) (np_var N v).

Lemma avl_impl_var {T} (E : Env T) c o k kv v w t : length v = length w -> terms_avl_impl E c o k kv v w false = Ok t ->
  terms_avl_impl E c o k kv v w true = Ok (with_var (var_of (e_num E) v) (var_of (e_num E) w) t).
Proof.
  intros Hl H. unfold terms_avl_impl in *. destruct (get_impl_args E v w) as [g|]; cbn [rbind] in *; [|discriminate].
  destruct (partial_sums E c o _ g (g_s g) [0; 1; 2; 3]%nat) as [gs|]; cbn [rbind] in *; [|discriminate].
  injection H as <-. unfold with_var, var_of. rewrite <- Hl. reflexivity.
Qed.

Section Var.
  Context (lib : flib) (GL : good_lib lib).
  Notation NF := (B64Num lib).
  Context (X : R) (BX : / 2 ^ 300 <= X <= 2 ^ 300) (fx : list b64) (n : nat) (Lx : length fx = n) (Hn : (4 <= n)%nat) (Hb : INR n <= 2 ^ 37).
  Context (Fx : Forall (fun v => is_finite v = true) fx) (HX : Forall (fun v => Rabs (B2R v) <= X) fx).
  Notation m := (INR n).
  Notation L := (Nat.log2_up n).

  Lemma apx_var : apx (4 * n + L + 12) (32 * (INR L * (m * (m * (X * X))))) (var_of NF fx) (IZR (2 * Z.of_nat n ^ 2) * np_var RNum (map B2R fx)).
  Proof.
    pose proof (fewn n Hn Hb) as fw. assert (F : forall j, (j <= 4 * n + L + 60)%nat -> few j) by (intros j Hj; apply (few_le _ _ fw); auto).
    assert (m4 : 4 <= m) by (replace 4 with (INR 4) by (cbn; ring); apply le_INR; auto).
    assert (l2 : 2 <= INR L) by (replace 2 with (INR 2) by (cbn; ring); apply le_INR; apply (Nat.log2_up_le_mono 4 n); auto).
    pose proof (L_le n Hn Hb) as Lh.
    assert (Ofn : m = IZR (Z.of_nat n)) by apply INR_IZR_INZ.
    pose proof (pow_inv_pos 300) as i0. assert (X0 : 0 < X) by lra. assert (XX0 : 0 < X * X) by (apply Rmult_lt_0_compat; auto).
    assert (LX : lowM X) by (apply (low_inv _ 300); [lia|lra]).
    assert (LXX : lowM (X * X)).
    { apply (low_inv _ (300 + 300)); [lia|]. rewrite pow_add, Rinv_mult. apply Rmult_le_compat; lra. }
    assert (UXX : X * X <= 2 ^ 600) by (change 600%nat with (300 + 300)%nat; rewrite pow_add; apply Rmult_le_compat; lra).
    assert (big : forall c, 0 <= c <= 2 ^ 150 -> c * (X * X) <= BB).
    { intros c Hc. apply Rle_trans with (2 ^ 150 * 2 ^ 600); [apply Rmult_le_compat; lra|]. rewrite <- pow_add. apply pow2_le. lia. }
    assert (big1 : forall c, 0 <= c <= 2 ^ 150 -> c * X <= BB).
    { intros c Hc. apply Rle_trans with (2 ^ 150 * 2 ^ 300); [apply Rmult_le_compat; lra|]. rewrite <- pow_add. apply pow2_le. lia. }
    assert (h37 : 2 ^ 37 * 2 ^ 37 * 2 ^ 37 * 2 ^ 5 <= 2 ^ 150) by (rewrite <- !pow_add; apply pow2_le; lia).
    assert (hm : 2 ^ 37 <= 2 ^ 150) by (apply pow2_le; lia). assert (h4 : 16 <= 2 ^ 150) by (replace 16 with (2 ^ 4) by (cbn; ring); apply pow2_le; lia).
    assert (h41 : 16 * 2 ^ 37 <= 2 ^ 150) by (replace 16 with (2 ^ 4) by (cbn; ring); rewrite <- pow_add; apply pow2_le; lia).
    assert (mB : m <= BB) by (eapply Rle_trans; [exact Hb|apply pow2_le; lia]).
    assert (len : forall A (l : list A), length l = n -> lenR l = m) by (intros A l Hl; unfold lenR; rewrite Hl; reflexivity).
    assert (A0 : apxs 0 X fx (map B2R fx)).
    { assert (XB : X <= BB) by (eapply Rle_trans; [apply BX|]; apply pow2_le; lia). clear - Fx HX LX XB.
      induction Fx as [|v l Fv Fl IH]; cbn [map]; [constructor|]. inversion HX; subst. constructor; [apply apx_exact; auto|apply IH; auto]. }
    assert (A1 : apx n (m * X) (np_sum NF fx) (np_sum RNum (map B2R fx))).
    { rewrite <- (len _ fx Lx). replace n with (0 + length fx)%nat at 1 by (rewrite Lx; reflexivity). apply apxs_sum; auto.
      - rewrite (len _ fx Lx). apply big1. lra.
      - rewrite Lx. apply F. lia. }
    assert (mX : m * X / m = X) by (field; lra).
    set (mu := b64_div (np_sum NF fx) (b64_ofZ (Z.of_nat n))). set (rmu := np_sum RNum (map B2R fx) / m).
    assert (A2 : apx (3 + n) X mu rmu).
    { rewrite <- mX. apply apx_div; auto; try lia. + apply F; lia. + rewrite mX; auto. }
    set (sq := fun v => b64_mul (b64_sub v mu) (b64_sub v mu)). set (rsq := fun v => (v - rmu) * (v - rmu)).
    assert (A3 : apxs (2 * n + 9) (4 * (X * X)) (map sq fx) (map rsq (map B2R fx))).
    { eapply (apxs_map 0 X); [|exact A0]. intros a r Ha. unfold sq, rsq.
      assert (D : apx (4 + n) (X + X) (b64_sub a mu) (r - rmu)).
      { apply (apx_sub (3 + n)); auto; [eapply apx_k; [exact Ha|lia]|apply F; lia|]. replace (X + X) with (2 * X) by ring. apply big1. lra. }
      replace (4 * (X * X)) with ((X + X) * (X + X)) by ring. replace (2 * n + 9)%nat with (S ((4 + n) + (4 + n))) by lia. apply apx_mul; auto.
      - apply F; lia.
      - replace ((X + X) * (X + X)) with (4 * (X * X)) by ring. apply big. lra.
      - replace ((X + X) * (X + X)) with (4 * (X * X)) by ring. apply lowM_mul; auto. lra. }
    assert (Ls : length (map sq fx) = n) by (rewrite map_length; auto).
    assert (A4 : apx (3 * n + 9) (m * (4 * (X * X))) (np_sum NF (map sq fx)) (np_sum RNum (map rsq (map B2R fx)))).
    { rewrite <- (len _ _ Ls). replace (3 * n + 9)%nat with ((2 * n + 9) + length (map sq fx))%nat by (rewrite Ls; lia). apply apxs_sum; auto.
      - rewrite (len _ _ Ls). replace (m * (4 * (X * X))) with (m * 4 * (X * X)) by ring. apply big. lra.
      - rewrite Ls. apply F. lia. }
    assert (mXX : m * (4 * (X * X)) / m = 4 * (X * X)) by (field; lra).
    assert (A5 : apx (3 * n + 12) (4 * (X * X)) (b64_div (np_sum NF (map sq fx)) (b64_ofZ (Z.of_nat n))) (np_sum RNum (map rsq (map B2R fx)) / m)).
    { rewrite <- mXX. replace (3 * n + 12)%nat with (3 + (3 * n + 9))%nat by lia. apply apx_div; auto; try lia. + apply F; lia. + rewrite mXX. apply lowM_mul; auto; lra. }
    set (D := IZR (2 * Z.of_nat n ^ 2)). assert (DE : D = 2 * (m * m)) by (unfold D; rewrite mult_IZR, Ofn; replace (Z.of_nat n ^ 2)%Z with (Z.of_nat n * Z.of_nat n)%Z by ring; rewrite mult_IZR; reflexivity).
    assert (mm : 16 <= m * m) by nra. assert (D1 : 1 <= D) by lra.
    assert (mm' : m * m <= 2 ^ 37 * 2 ^ 37) by (apply Rmult_le_compat; lra).
    assert (hD : 32 * (2 ^ 37 * 2 ^ 37) <= 2 ^ 150) by (replace 32 with (2 ^ 5) by (cbn; ring); rewrite <- !pow_add; apply pow2_le; lia).
    assert (DB : D <= BB) by (apply Rle_trans with (2 ^ 150); [lra|apply pow2_le; lia]).
    assert (A6 : apx 1 D (b64_ofZ (2 * Z.of_nat n ^ 2)) D).
    { destruct (near_ofZ (2 * Z.of_nat n ^ 2) _ ltac:(nia) (Rle_refl _) DB) as (Fz & Ez & Dz & _). fold D in Ez. split.
      - split; [exact Fz|]. split; [|split; [rewrite Rabs_pos_eq; lra|exact DB]].
        unfold gam. replace ((1 + ulp1) ^ 1 - 1) with ulp1 by ring. exact Ez.
      - right. eapply Rle_trans; [|exact D1]. change 1 with (bpow radix2 0). apply bpow_le. lia. }
    unfold var_of. rewrite Lx. cbn [nmul nofZ B64Num].
    assert (EV : np_var NF fx = b64_div (np_sum NF (map sq fx)) (b64_ofZ (Z.of_nat n))).
    { unfold np_var, np_mean, nofnat. rewrite map_length, Lx. reflexivity. }
    assert (RV : np_var RNum (map B2R fx) = np_sum RNum (map rsq (map B2R fx)) / m).
    { unfold np_var, np_mean, nofnat. cbv zeta. rewrite !map_length. change (@length (binary_float 53 1024) fx) with (@length b64 fx). rewrite Lx. cbn [ndiv nofZ RNum nmul nsub]. rewrite <- Ofn. reflexivity. }
    rewrite EV, RV.
    assert (E8 : D * (4 * (X * X)) = 8 * (m * m) * (X * X)) by (rewrite DE; ring).
    assert (0 <= m * m * (X * X)) by (apply Rmult_le_pos; lra).
    assert (El : 32 * (INR L * (m * (m * (X * X)))) = 32 * INR L * (m * m) * (X * X)) by ring.
    eapply apx_weaken.
    - apply (apx_mul 1 (3 * n + 12)); [exact A6|exact A5|apply F; lia| |].
      + rewrite E8. apply big. lra.
      + apply lowM_mul; [lra|]. apply lowM_mul; auto. lra.
    - lia.
    - rewrite E8, El. replace (32 * INR L * (m * m) * (X * X)) with (32 * INR L * (m * m * (X * X))) by ring. replace (8 * (m * m) * (X * X)) with (8 * (m * m * (X * X))) by ring.
      apply Rmult_le_compat_r; lra.
    - rewrite El. apply lowM_mul; auto. assert (1 * 1 <= INR L * (m * m)) by (apply Rmult_le_compat; lra). lra.
    - rewrite El. apply big. assert (INR L * (m * m) <= 2 ^ 37 * (2 ^ 37 * 2 ^ 37)) by (apply Rmult_le_compat; lra).
      assert (0 <= INR L * (m * m)) by (apply Rmult_le_pos; lra). assert (2 ^ 37 * 2 ^ 37 * 2 ^ 37 * 2 ^ 5 = 32 * (2 ^ 37 * (2 ^ 37 * 2 ^ 37))) by ring. lra.
  Qed.
End Var.

Section Call.
  Context (lib : flib) (E : Env b64) (HE : valid_fenv lib E) (HV : sorts_values E).
  Let EN : e_num E = B64Num lib := vf_num _ _ HE.
  Context (n : nat) (x y : array b64) (Hp : double_pair n x y) (Ux : univariate x) (Uy : univariate y) (Sx : some_numpy x y).
  Context (X Y : R) (HX : within X x) (HY : within Y y) (BX : / 2 ^ 300 <= X <= 2 ^ 300) (BY : / 2 ^ 300 <= Y <= 2 ^ 300).
  Context (Hn : (4 <= n)%nat) (Hn' : (Z.of_nat n <= 2 ^ 37)%Z).
  Let a := distances 1 (freals x).
  Let b := distances 1 (freals y).
  Notation m := (INR n).
  Notation L := (Nat.log2_up n).

  (** The variance terms approximate the sums of the squared distances. *)
  Lemma var_dist z vz : univariate z -> wf (freals z) -> shape0 z = n -> transform_to_1d (adata z) = Ok vz ->
    IZR (2 * Z.of_nat n ^ 2) * np_var RNum (map B2R vz) = rsum2 n n (fun i j => distances 1 (freals z) i j * distances 1 (freals z) i j).
  Proof.
    intros Uz Wz Lz Ez. assert (Uz' : univariate (freals z)) by (unfold univariate, freals; rewrite amap_ncols; auto).
    pose proof (transform_to_1d_tab (freals z) Wz Uz') as Tz. unfold freals in Tz. rewrite amap_1d in Tz. fold (freals z) in Tz.
    change (@transform_to_1d (binary_float 53 1024)) with (@transform_to_1d b64) in Tz. change (binary_float 53 1024) with b64 in Tz.
    rewrite Ez in Tz. cbn [rmap] in Tz. injection Tz as Tz. rewrite freals_shape0, Lz in Tz.
    change (@map (binary_float 53 1024) R) with (@map b64 R). rewrite Tz, var_term by lia. unfold rsum2. apply rsum_ext. intros i Hi. apply rsum_ext. intros j Hj.
    rewrite !distances_1 by auto. reflexivity.
  Qed.

  Lemma avl_call_var cm : not_forced cm \/ cm = CCompileCpu ->
    exists t tr va vb, outcome (terms_avl E x y (b64_ofZ 1) cm false) = Ok t /\ terms_apx X Y n t tr /\ terms_ok n a b false tr /\
      outcome (terms_avl E x y (b64_ofZ 1) cm true) = Ok (with_var va vb t) /\
      apx (4 * n + L + 12) (32 * (INR L * (m * (m * (X * X))))) va (rsum2 n n (fun i j => a i j * a i j)) /\
      apx (4 * n + L + 12) (32 * (INR L * (m * (m * (Y * Y))))) vb (rsum2 n n (fun i j => b i j * b i j)).
  Proof.
    intros Hcm. destruct (avl_call_apx lib E HE HV n x y Hp Ux Uy Sx X Y HX HY BX BY Hn Hn' cm Hcm) as (t & tr & T1 & T2 & T3).
    exists t, tr. destruct Hp as ((Wx & Wy & Lx & Ly & _) & Fx & Fy & Ix & Iy).
    assert (WFx := Wx). assert (WFy := Wy). apply freals_wf in WFx, WFy. rewrite freals_shape0 in Lx, Ly.
    destruct (to_1d_cases x) as [[vx Ex]|Ex]; [|exfalso; clear - Ex Ux; destruct x as [s d [v|c rows]]; unfold univariate in Ux; cbn in *; [discriminate|subst c; discriminate]].
    destruct (to_1d_cases y) as [[vy Ey]|Ey]; [|exfalso; clear - Ey Uy; destruct y as [s d [v|c rows]]; unfold univariate in Uy; cbn in *; [discriminate|subst c; discriminate]].
    pose proof (entries_1d x vx Ex) as Vx. pose proof (entries_1d y vy Ey) as Vy.
    assert (lx : length vx = n) by (rewrite (to_1d_length x vx WFx Ex); exact Lx).
    assert (ly : length vy = n) by (rewrite (to_1d_length y vy WFy Ey); exact Ly).
    unfold within in HX, HY. rewrite <- Vx in HX, Ix. rewrite <- Vy in HY, Iy.
    assert (Hb : INR n <= 2 ^ 37) by (apply small_INR; exact Hn').
    assert (R : runs cm x y) by (destruct Hcm as [Hcm | ->]; [left; auto|right; unfold forced_f64, is_float64; auto]).
    assert (He : neqb (e_num E) (b64_ofZ 1) (nunit (e_num E)) = true) by (rewrite EN; apply one_one).
    pose proof (fun rv => avl_outcome E (fshape lib E HE) x y (b64_ofZ 1) rv vx vy cm He Ex Ey (proj1 (some_together x y) Sx) R) as O.
    rewrite (O false) in T1. rewrite (O false), (O true).
    unfold a, b. rewrite <- (var_dist x vx Ux Wx Lx Ex), <- (var_dist y vy Uy Wy Ly Ey).
    destruct (compiles cm x y).
    - exists (var_of (e_num (seq_env E)) vx), (var_of (e_num (seq_env E)) vy). split; [exact T1|]. split; [exact T2|]. split; [exact T3|].
      split; [apply avl_impl_var; [congruence|exact T1]|].
      rewrite (vf_num _ _ (valid_seq _ _ HE)). split; apply apx_var; auto; apply (vf_lib _ _ (valid_seq _ _ HE)).
    - exists (var_of (e_num E) vx), (var_of (e_num E) vy). split; [exact T1|]. split; [exact T2|]. split; [exact T3|].
      split; [apply avl_impl_var; [congruence|exact T1]|].
      rewrite EN. split; apply apx_var; auto; apply (vf_lib _ _ HE).
  Qed.

  Lemma auto_is_avl m0 cm rv : avl_or_auto m0 -> method_terms E m0 x y (b64_ofZ 1) cm rv = terms_avl E x y (b64_ofZ 1) cm rv.
  Proof.
    intros Hm. destruct Hm as [-> | ->]; cbn [method_terms]; auto.
    unfold terms_auto, can_use_fast_algorithm. rewrite (proj1 (some_together x y) Sx). cbn [is_numpy andb].
    assert (Hrv : forall z : array b64, univariate z -> is_random_variable (adata z) = true).
    { intros [s d [v|c rows]] U; cbn in *; auto. unfold univariate in U. cbn in U. subst c. reflexivity. }
    rewrite !Hrv by auto. destruct Hp as ((_ & _ & Lx & Ly & _) & _). rewrite freals_shape0 in Lx, Ly. rewrite Lx, Ly.
    assert ((3 <? n)%nat = true) as -> by (apply Nat.ltb_lt; lia). cbn [andb].
    rewrite EN. cbn [neqb nunit B64Num]. rewrite one_one. reflexivity.
  Qed.

  (** The three numbers from which the correlation is computed. *)
  Lemma avl_three f g m0 cm : squared f -> wants_var g = true -> corrected g = corrected f ->
    avl_or_auto m0 -> not_forced cm \/ m0 = MAvl /\ cm = CCompileCpu ->
    let post v := match g with Dcov | Dcor => sqrt_clamp (e_num E) v | _ => v end in
    exists c vx vy, call g E x y (b64_ofZ 1) m0 cm = Ok (post (correlation_of E c vx vy)) /\
      is_finite c = true /\ is_finite vx = true /\ is_finite vy = true /\
      Rabs (B2R c - value f n a b) <= avl_roundings n * avl_unit f * (X * Y) /\
      Rabs (B2R vx - value f n a a) <= avl_roundings n * avl_unit f * (X * X) /\
      Rabs (B2R vy - value f n b b) <= avl_roundings n * avl_unit f * (Y * Y).
  Proof.
    intros Hf Hw Hc Hm Hcm post.
    assert (Hcm' : not_forced cm \/ cm = CCompileCpu) by tauto.
    destruct (avl_call_var cm Hcm') as (t & tr & va & vb & _ & (N1 & N2 & N3 & N4 & N5 & La & Lb) & (M1 & M2 & M3 & M4 & M5 & _) & T & Va & Vb).
    assert (Lx : shape0 x = n) by (destruct Hp as ((_ & _ & L0 & _) & _); rewrite freals_shape0 in L0; auto).
    assert (Hnb : INR n <= 2 ^ 37) by (apply small_INR; exact Hn').
    rewrite M1 in N1. rewrite M2 in N2. rewrite M3 in N3. rewrite M4 in N4. rewrite M5 in N5.
    apply (apx_k _ (4 * n + Nat.log2_up n + 12)) in N1; [|lia].
    destruct (formula_accuracy lib E n (freals x) (freals y) X Y f (t_kind t) _ _ _ _ _ HE Hn Hnb BX BY Hf N1 N2 N3 N4 N5 La Lb) as (c & C1 & C2 & C3).
    destruct (formula_accuracy lib E n (freals x) (freals x) X X f (t_vkind t) _ _ _ _ _ HE Hn Hnb BX BX Hf Va N2 N3 N2 N3 La La) as (vx & X1 & X2 & X3).
    destruct (formula_accuracy lib E n (freals y) (freals y) Y Y f (t_vkind t) _ _ _ _ _ HE Hn Hnb BY BY Hf Vb N4 N5 N4 N5 Lb Lb) as (vy & Y1 & Y2 & Y3).
    exists c, vx, vy. rewrite call_terms, Hw, (auto_is_avl m0 cm true Hm), T. cbn [rbind]. rewrite Lx. unfold finish. rewrite Hw, Hc.
    cbn [with_var t_kind t_vkind t_mean_prod t_a_axis t_b_axis t_a_total t_b_total t_mp_a t_mp_b]. rewrite C1, X1, Y1. cbn [rbind].
    split; [reflexivity|]. repeat split; auto.
  Qed.
End Call.
