(** C69: the optimised [rowwise] functions in double precision. *)
From Coq Require Import Reals Lra Lia List Arith Bool ZArith Psatz.
From Flocq Require Import Core IEEE754.BinarySingleNaN.
From Verif Require Import Num Numpy MUtils MDistances MInternals MMergesort MAvl MDcor MRowwise MInteger MFloat Sums Spec Centering Tab
  Samples RefDist RefAvl RefDcor Api Witness RefApi SpecFacts Calls AvlGeneric Transfer Hom RefInteger RefFloat FloatAvl FloatApi
  FloatSum FloatEnv FloatError FloatAccuracy PInteger PFloat FloatNaive PNaiveFloat FloatCorr FloatCorr2 Invariance Psd PTTest FloatAvlErr
  FloatAvlForm PAvlFloat FloatAvlVar PFloatCorr RowSeq.
Import ListNotations.
Local Open Scope R_scope.

Definition covariance_like (f : api) : Prop := f = DcovSqr \/ f = Dcov \/ f = UDcovSqr.

Lemma measure_call {T} (E : Env T) f x y e m cm : outcome (call_function E (measure_of f) x y (options_of e m cm)) = call f E x y e m cm.
Proof. destruct f; reflexivity. Qed.

Lemma naive_mapM {T} (E : Env T) f x y e m cm :
  outcome (rowwise E (measure_of f) x y RWNaive (options_of e m cm)) = mapM (fun p => call f E (fst p) (snd p) e m cm) (combine x y).
Proof.
  unfold rowwise. rewrite outcome_bind, outcome_ret. cbn [rbind]. unfold rowwise_naive.
  induction (combine x y) as [|p l IH]; [reflexivity|]. cbn [mapMM mapM]. rewrite outcome_bind, measure_call.
  destruct (call f E _ _ e m cm); cbn [rbind]; [|reflexivity]. rewrite outcome_bind, IH. destruct (mapM _ l); reflexivity.
Qed.

Lemma dcov_of_sqr {T} (E : Env T) x y e m cm : call Dcov E x y e m cm = rbind (call DcovSqr E x y e m cm) (fun v => Ok (sqrt_clamp (e_num E) v)).
Proof.
  rewrite !call_terms. cbn [wants_var]. destruct (outcome _) as [t|ex]; cbn [rbind]; [|reflexivity]. unfold finish. cbn [wants_var corrected].
  destruct (dcov_from_terms _ _ _ _ _ _ _ _ _); reflexivity.
Qed.

Lemma combine_rows {T} n (x y : list (array T)) : Forall (row_of n) x -> Forall (row_of n) y -> Forall (fun p => row_of n (fst p) /\ row_of n (snd p)) (combine x y).
Proof. intros H. revert y. induction H as [|a x Ha H IH]; intros [|b y] Hy; cbn; auto. inversion Hy; subst. constructor; auto. Qed.

Lemma mapM_ext_Forall {A B} (g h : A -> res B) l : Forall (fun a => g a = h a) l -> mapM g l = mapM h l.
Proof. induction 1 as [|a l Ha H IH]; [reflexivity|]. cbn [mapM]. rewrite Ha, IH. reflexivity. Qed.

Lemma mapM_post {A B C} (g : A -> res B) (h : B -> C) l : mapM (fun a => rbind (g a) (fun v => Ok (h v))) l = rbind (mapM g l) (fun vs => Ok (map h vs)).
Proof.
  induction l as [|a l IH]; [reflexivity|]. cbn [mapM]. destruct (g a); cbn [rbind]; [|reflexivity]. rewrite IH. destruct (mapM g l); reflexivity.
Qed.

(** For every number type: the covariances computed by the optimised implementation are those of the function called on each
    pair, bit for bit. *)
Theorem C69_covariances_identical {T} (E : Env T) f n x y e m cm mode : shape_env E -> real_rows n x y -> (4 <= n)%nat ->
  neqb (e_num E) e (nunit (e_num E)) = true -> covariance_like f -> fast_method m -> cm = CAuto \/ cm = CCompileCpu -> optimised mode ->
  outcome (rowwise E (measure_of f) x y mode (options_of e m cm)) = outcome (rowwise E (measure_of f) x y RWNaive (options_of e m cm)).
Proof.
  intros HE Hr Hn He Hf Hm Hcm Hmode. rewrite naive_mapM. pose proof Hr as (_ & _ & Fx & Fy & _). pose proof (combine_rows n x y Fx Fy) as Fp.
  assert (Hc : cm <> CNoCompile) by (destruct Hcm as [-> | ->]; discriminate).
  assert (K : forall r, rowwise_function E (measure_of f) x y (options_of e m cm) = rbind r (fun v => Ok (Some v)) ->
    outcome (rowwise E (measure_of f) x y mode (options_of e m cm)) = r).
  { intros r Hk. destruct Hmode as [-> | ->]; unfold rowwise; rewrite outcome_bind, outcome_lift, Hk; destruct r; reflexivity. }
  assert (S : forall g, mapM (fun p => call g E (fst p) (snd p) e m cm) (combine x y) = mapM (fun p => row_call E g (fst p) (snd p) e) (combine x y)).
  { intros g. apply mapM_ext_Forall. eapply Forall_impl; [|exact Fp]. intros p [Ha Hb]. apply (options_call E HE g n); auto. }
  apply K. destruct Hf as [-> | [-> | ->]]; cbn [measure_of rowwise_function].
  - rewrite S. apply (cov_rows E HE false n); auto.
  - unfold rowwise_dcov. rewrite (cov_rows E HE false n) by auto.
    rewrite (mapM_ext_Forall (fun p => call Dcov E (fst p) (snd p) e m cm) (fun p => rbind (row_call E DcovSqr (fst p) (snd p) e) (fun v => Ok (sqrt_clamp (e_num E) v)))).
    + rewrite mapM_post. change (cov_of false) with DcovSqr. destruct (mapM _ _); reflexivity.
    + eapply Forall_impl; [|exact Fp]. intros p [Ha Hb]. cbn beta. rewrite (options_call E HE Dcov n) by auto. apply dcov_of_sqr.
  - rewrite S. apply (cov_rows E HE true n); auto.
Qed.

(** ** Double precision *)
(** Lists of pairs of numpy float64 vectors, or all matrices of one column, of [n] finite values each: those of the rows of [x]
    are at most [X], those of [y] at most [Y]. *)
Definition double_rows (n : nat) (X Y : R) (x y : list (array b64)) : Prop :=
  x <> [] /\ Forall2 (fun a b => double_pair n a b /\ univariate a /\ univariate b /\ ans a = Numpy /\ ans b = Numpy /\ within X a /\ within Y b) x y /\
  uniform (x ++ y).

Lemma double_real n X Y x y : double_rows n X Y x y -> real_rows n x y.
Proof.
  intros (Hne & H & U). split; auto.
  assert (length x = length y /\ Forall (row_of n) x /\ Forall (row_of n) y) as (L & Fx & Fy).
  { clear Hne U. induction H as [|a b x y (DP & Ua & Ub & Na & Nb & _) H IH]; [auto|]. destruct IH as (L & Fx & Fy).
    destruct DP as ((Wa & Wb & La & Lb & _) & Da & Db & _). apply freals_wf in Wa, Wb. rewrite freals_shape0 in La, Lb.
    split; [cbn; auto|]. split; constructor; auto; repeat split; auto. }
  repeat split; auto; (eapply uniform_in; [|exact U]); intros; apply in_or_app; auto.
Qed.

Lemma Forall2_choice {A B C} (P : A -> B -> Prop) (Q : A -> B -> C -> Prop) x y : Forall2 P x y -> (forall a b, P a b -> exists c, Q a b c) ->
  exists cs, Forall2 (fun p c => Q (fst p) (snd p) c) (combine x y) cs.
Proof.
  intros H K. induction H as [|a b x y Hab H IH]; [exists []; constructor|]. destruct IH as (cs & Hcs). destruct (K a b Hab) as (c & Hc).
  exists (c :: cs). cbn. constructor; auto.
Qed.

Lemma ratio_error lib g f n (xr yr : array R) c wx wy eps Dx Dy rho : correlates g f -> (4 <= n)%nat ->
  let a := distances 1 xr in let b := distances 1 yr in let vx := value f n a a in let vy := value f n b b in
  is_finite c = true -> is_finite wx = true -> is_finite wy = true -> 0 <= eps -> 0 <= Dx -> 0 <= Dy ->
  Rabs (B2R c - value f n a b) <= eps * (Dx * Dy) -> Rabs (B2R wx - vx) <= eps * (Dx * Dx) -> Rabs (B2R wy - vy) <= eps * (Dy * Dy) ->
  / 2 ^ 450 <= vx <= 2 ^ 450 -> / 2 ^ 450 <= vy <= 2 ^ 450 -> rho <= / 4 -> eps * (Dx * Dx) <= rho * vx -> eps * (Dy * Dy) <= rho * vy ->
  let q := b64_div (b64_div c (sqrt_clamp (B64Num lib) wx)) (sqrt_clamp (B64Num lib) wy) in
  is_finite q = true /\ Rabs (B2R q - value g n a b) <= 3 * rho + / 2 ^ 49.
Proof.
  intros Hg Hn a b vx vy Fc Fx Fy eps0 X0 Y0 Ec Ex Ey Bx By Hr Rx Ry q.
  assert (Hf : squared f) by (unfold squared; destruct Hg as [[_ ->]|[_ ->]]; auto).
  set (cov := value f n a b) in *.
  assert (P450 : 0 < / 2 ^ 450) by (apply Rinv_0_lt_compat; apply pow_lt; lra).
  assert (r0 : 0 <= rho). { assert (0 <= eps * (Dx * Dx)) by (apply Rmult_le_pos; auto; apply Rmult_le_pos; auto). apply (Rmult_le_reg_r vx); lra. }
  assert (CS : cov * cov <= vx * vy).
  { unfold cov, vx, vy. destruct Hf as [-> | ->]; cbn [value]; [apply dcov2_cs|apply udcov2_cs]; auto. }
  assert (VV : 0 < vx * vy) by (apply Rmult_lt_0_compat; lra).
  assert (Cov : eps * (Dx * Dy) <= rho * sqrt (vx * vy)).
  { replace rho with (sqrt (rho * rho)) by (apply sqrt_square; auto). rewrite <- sqrt_mult by (try apply Rmult_le_pos; lra).
    rewrite <- (sqrt_square (eps * (Dx * Dy))) by (apply Rmult_le_pos; auto; apply Rmult_le_pos; auto).
    apply sqrt_le_1; [apply Rle_0_sqr|apply Rmult_le_pos; [apply Rmult_le_pos; auto|lra]|].
    replace (eps * (Dx * Dy) * (eps * (Dx * Dy))) with ((eps * (Dx * Dx)) * (eps * (Dy * Dy))) by ring.
    replace (rho * rho * (vx * vy)) with ((rho * vx) * (rho * vy)) by ring.
    apply Rmult_le_compat; auto; apply Rmult_le_pos; auto; apply Rmult_le_pos; auto. }
  assert (val : value g n a b = cov / sqrt (vx * vy)).
  { unfold cov, vx, vy in *. destruct Hg as [[-> ->]|[-> ->]]; cbn [value] in *; unfold dcor2, udcor2, corr; destruct (Req_EM_T _ 0); try lra; auto. }
  rewrite val. apply fcorr2_error; auto; lra.
Qed.

Lemma Forall2_impl {A B} (P Q : A -> B -> Prop) l l' : (forall a b, P a b -> Q a b) -> Forall2 P l l' -> Forall2 Q l l'.
Proof. intros H. induction 1; constructor; auto. Qed.
Lemma pair_fst {A B C} (P : A -> B -> C -> Prop) x y ts : length x = length y -> Forall2 (fun p t => P (fst p) (snd p) t) (combine x y) ts ->
  Forall2 (fun a t => exists b, P a b t) x ts.
Proof.
  revert y ts. induction x as [|a x IH]; intros [|b y] ts L H; try discriminate; inversion H; subst; constructor; eauto.
Qed.
Lemma pair_snd {A B C} (P : A -> B -> C -> Prop) x y ts : length x = length y -> Forall2 (fun p t => P (fst p) (snd p) t) (combine x y) ts ->
  Forall2 (fun b t => exists a, P a b t) y ts.
Proof.
  revert y ts. induction x as [|a x IH]; intros [|b y] ts L H; try discriminate; inversion H; subst; constructor; eauto.
Qed.
Lemma map_right {A B C} (P : A -> C -> Prop) (h : B -> C) l ts : Forall2 (fun a t => P a (h t)) l ts -> Forall2 P l (map h ts).
Proof. induction 1; cbn; constructor; auto. Qed.
Lemma triples {A B C} (ts : list (A * B * C)) : combine (combine (map (fun t => fst (fst t)) ts) (map (fun t => snd (fst t)) ts)) (map snd ts) = ts.
Proof. induction ts as [|[[a b] c] ts IH]; cbn; [reflexivity|]. now rewrite IH. Qed.

Section Doubles.
  Variables (lib : flib) (E : Env b64).
  Hypothesis HE : valid_fenv lib E.
  Hypothesis HV : sorts_values E.
  Let SE : shape_env E := fshape lib E HE.
  Let EN : e_num E = B64Num lib. Proof. apply HE. Qed.
  Let He : neqb (e_num E) (b64_ofZ 1) (nunit (e_num E)) = true. Proof. rewrite EN. reflexivity. Qed.

  Lemma row_covariance f n a b X Y : squared f -> double_pair n a b -> univariate a -> univariate b -> ans a = Numpy ->
    (4 <= n)%nat -> (Z.of_nat n <= 2 ^ 37)%Z -> within X a -> within Y b -> / 2 ^ 300 <= X <= 2 ^ 300 -> / 2 ^ 300 <= Y <= 2 ^ 300 ->
    exists v, row_call E f a b (b64_ofZ 1) = Ok v /\ is_finite v = true /\
      Rabs (B2R v - value f n (distances 1 (freals a)) (distances 1 (freals b))) <= avl_roundings n * avl_unit f * (X * Y).
  Proof.
    intros Hf DP Ua Ub Na Hn Hn' HX HY BX BY. unfold row_call.
    apply (C56_avl_accuracy f lib E n a b X Y MAvl CAuto); auto; [left; reflexivity|left; left; reflexivity].
  Qed.

  (** What the correlation of a row needs: variances that are not tiny compared with the rounding errors. *)
  Definition varies (f : api) (n : nat) (X rho : R) (a : array b64) : Prop :=
    let v := value f n (distances 1 (freals a)) (distances 1 (freals a)) in
    / 2 ^ 450 <= v <= 2 ^ 450 /\ avl_roundings n * avl_unit f * (X * X) <= rho * v.

  Lemma correlations g f n x y X Y rho m cm : double_rows n X Y x y -> (4 <= n)%nat -> (Z.of_nat n <= 2 ^ 37)%Z ->
    / 2 ^ 300 <= X <= 2 ^ 300 -> / 2 ^ 300 <= Y <= 2 ^ 300 -> correlates g f -> fast_method m -> cm <> CNoCompile -> rho <= / 4 ->
    Forall (varies f n X rho) x -> Forall (varies f n Y rho) y ->
    exists rs, rowwise_function E (measure_of g) x y (options_of (b64_ofZ 1) m cm) = Ok (Some rs) /\
      Forall2 (fun p r => is_finite r = true /\ Rabs (B2R r - value g n (distances 1 (freals (fst p))) (distances 1 (freals (snd p)))) <= 3 * rho + / 2 ^ 49)
        (combine x y) rs.
  Proof.
    intros Hd Hn Hn' BX BY Hg Hm Hcm Hr Vx Vy. pose proof (double_real _ _ _ _ _ Hd) as Hrr. destruct Hd as (_ & Hd & Hu).
    assert (Hf : squared f) by (unfold squared; destruct Hg as [[_ ->]|[_ ->]]; auto).
    assert (Hunb : exists unb, f = cov_of unb /\ rowwise_function E (measure_of g) x y (options_of (b64_ofZ 1) m cm) = rowwise_dcor_sqr E unb x y (options_of (b64_ofZ 1) m cm)).
    { destruct Hg as [[-> ->]|[-> ->]]; [exists false|exists true]; auto. }
    destruct Hunb as (unb & Ef & ->).
    set (Q := fun (a b : array b64) (t : b64 * b64 * b64) => row_call E f a b (b64_ofZ 1) = Ok (fst (fst t)) /\ row_call E f a a (b64_ofZ 1) = Ok (snd (fst t)) /\
      row_call E f b b (b64_ofZ 1) = Ok (snd t) /\
      let r := row_ratio E (fst (fst t)) (snd (fst t)) (snd t) in
      is_finite r = true /\ Rabs (B2R r - value g n (distances 1 (freals a)) (distances 1 (freals b))) <= 3 * rho + / 2 ^ 49).
    assert (HQ : exists ts, Forall2 (fun p t => Q (fst p) (snd p) t) (combine x y) ts).
    { assert (Hd2 : Forall2 (fun a b => (double_pair n a b /\ univariate a /\ univariate b /\ ans a = Numpy /\ ans b = Numpy /\ within X a /\ within Y b) /\
        varies f n X rho a /\ varies f n Y rho b) x y).
      { clear - Hd Vx Vy. induction Hd as [|a b x y H Hd IH]; [constructor|]. inversion Vx; inversion Vy; subst. constructor; auto. }
      eapply Forall2_choice; [exact Hd2|]. intros a b ((DP & Ua & Ub & Na & Nb & Wa & Wb) & (Va & Ra) & (Vb & Rb)).
      destruct (double_pair_self n a b DP) as [DPa DPb].
      destruct (row_covariance f n a b X Y) as (c & Cc & Fc & Ec); auto. destruct (row_covariance f n a a X X) as (wa & Ca & Fa & Ea); auto.
      destruct (row_covariance f n b b Y Y) as (wb & Cb & Fb & Eb); auto.
      exists (c, wa, wb). unfold Q. cbn [fst snd]. split; auto. split; auto. split; auto. cbv zeta.
      pose proof (pow_inv_pos 300).
      destruct (ratio_error lib g f n (freals a) (freals b) c wa wb (avl_roundings n * avl_unit f) X Y rho) as [G1 G2]; auto; try lra.
      { unfold avl_roundings. repeat apply Rmult_le_pos; try apply pos_INR. destruct Hf as [-> | ->]; cbn [avl_unit]; lra. }
      unfold row_ratio. rewrite EN. cbn [ndiv nisnan nzero B64Num]. set (q := b64_div _ _) in *.
      assert (is_nan q = false) as -> by (destruct q; try discriminate G1; reflexivity). auto. }
    destruct HQ as (ts & HQ). pose proof Hrr as (_ & L & _).
    exists (map (fun t => row_ratio E (fst (fst t)) (snd (fst t)) (snd t)) ts). split.
    - rewrite (cor_rows E SE unb n x y (b64_ofZ 1) m cm (map (fun t => fst (fst t)) ts) (map (fun t => snd (fst t)) ts) (map snd ts)); auto.
      + rewrite triples. reflexivity.
      + apply map_right. eapply Forall2_impl; [|exact HQ]. intros p t H. rewrite <- Ef. apply H.
      + apply map_right. eapply Forall2_impl; [|exact (pair_fst Q x y ts L HQ)]. intros a t (b & H). rewrite <- Ef. apply H.
      + apply map_right. eapply Forall2_impl; [|exact (pair_snd Q x y ts L HQ)]. intros b t (a & H). rewrite <- Ef. apply H.
    - apply map_right. eapply Forall2_impl; [|exact HQ]. intros p t H. apply H.
  Qed.
End Doubles.

(** The squared correlations of the optimised implementation: each is finite and close to that of the data. *)
Theorem C69_correlations g f lib E n x y X Y rho m cm mode : valid_fenv lib E -> sorts_values E -> double_rows n X Y x y ->
  (4 <= n)%nat -> (Z.of_nat n <= 2 ^ 37)%Z -> / 2 ^ 300 <= X <= 2 ^ 300 -> / 2 ^ 300 <= Y <= 2 ^ 300 ->
  correlates g f -> fast_method m -> cm <> CNoCompile -> optimised mode -> rho <= / 4 -> Forall (varies f n X rho) x -> Forall (varies f n Y rho) y ->
  exists rs, outcome (rowwise E (measure_of g) x y mode (options_of (b64_ofZ 1) m cm)) = Ok rs /\
    Forall2 (fun p r => is_finite r = true /\ Rabs (B2R r - value g n (distances 1 (freals (fst p))) (distances 1 (freals (snd p)))) <= 3 * rho + / 2 ^ 49)
      (combine x y) rs.
Proof.
  intros HE HV Hd Hn Hn' BX BY Hg Hm Hcm Ho Hr Vx Vy.
  destruct (correlations lib E HE HV g f n x y X Y rho m cm) as (rs & H1 & H2); auto. exists rs. split; auto. apply rowwise_optimised; auto.
Qed.

(** The distance correlations: the square of each is close to the squared correlation of the data. *)
Theorem C69_distance_correlations lib E n x y X Y rho m cm mode : valid_fenv lib E -> sorts_values E -> double_rows n X Y x y ->
  (4 <= n)%nat -> (Z.of_nat n <= 2 ^ 37)%Z -> / 2 ^ 300 <= X <= 2 ^ 300 -> / 2 ^ 300 <= Y <= 2 ^ 300 ->
  fast_method m -> cm <> CNoCompile -> optimised mode -> rho <= / 4 -> Forall (varies DcovSqr n X rho) x -> Forall (varies DcovSqr n Y rho) y ->
  exists rs, outcome (rowwise E (measure_of Dcor) x y mode (options_of (b64_ofZ 1) m cm)) = Ok rs /\
    Forall2 (fun p r => is_finite r = true /\ 0 <= B2R r /\
        Rabs (B2R r * B2R r - value DcorSqr n (distances 1 (freals (fst p))) (distances 1 (freals (snd p)))) <= 3 * rho + / 2 ^ 48)
      (combine x y) rs.
Proof.
  intros HE HV Hd Hn Hn' BX BY Hm Hcm Ho Hr Vx Vy.
  destruct (correlations lib E HE HV DcorSqr DcovSqr n x y X Y rho m cm) as (rs & H1 & H2); auto; [left; auto|].
  exists (map (sqrt_clamp (e_num E)) rs). split.
  - apply rowwise_optimised; auto. cbn [measure_of rowwise_function] in *. unfold rowwise_dcor. rewrite H1. reflexivity.
  - apply map_right. eapply Forall2_impl; [|exact H2]. intros p r [Fr Er]. rewrite (vf_num _ _ HE).
    assert (B : 0 <= value DcorSqr n (distances 1 (freals (fst p))) (distances 1 (freals (snd p))) <= 1) by (cbn [value]; apply dcor2_range; lra || lia).
    assert (Q49 : / 2 ^ 48 = / 2 ^ 49 + / 2 ^ 49) by lra.
    destruct (sqrt_clamp_error lib r _ (3 * rho + / 2 ^ 49) Fr B Er ltac:(lra)) as (G1 & G2 & G3). split; auto. split; auto. rewrite Q49. lra.
Qed.

(** ** Cases that meet the hypotheses *)
Lemma ints_within l K : Forall (fun z => (Z.abs z <= K)%Z) l -> (K <= 2 ^ 53)%Z -> within (IZR K) (ints l).
Proof.
  intros Hl HK. unfold within. change (entries (ints l)) with (map b64_ofZ l). apply Forall_forall. intros v Hv. apply in_map_iff in Hv. destruct Hv as (z & <- & Hz).
  rewrite Forall_forall in Hl. pose proof (Hl z Hz) as Hz'. destruct (rep_ofZ z ltac:(lia)) as (_ & R & _). rewrite R, <- abs_IZR. apply IZR_le. auto.
Qed.
Lemma two_rows : double_rows 5 7 7 [xi; yi] [yi; xi].
Proof.
  assert (Wx : within 7 xi) by (apply (ints_within _ 7%Z); [repeat constructor; cbn; lia|lia]).
  assert (Wy : within 7 yi) by (apply (ints_within _ 7%Z); [repeat constructor; cbn; lia|lia]).
  assert (D : double_pair 5 yi xi) by (apply ints_pair; try reflexivity; [lia| |]; repeat (constructor; [lia|]); constructor).
  pose proof xi_yi as D'. split; [discriminate|]. split; [constructor; [|constructor; [|constructor]]; unfold univariate; auto 10|].
  left. intros a [<- |[<- |[<- |[<- |[]]]]]; eexists; reflexivity.
Qed.
Lemma range300 K : 1 <= K <= 16 -> / 2 ^ 300 <= K <= 2 ^ 300.
Proof.
  intros HK. assert (16 <= 2 ^ 300) by (replace 16 with (2 ^ 4) by (cbn; ring); apply Rle_pow; [lra|lia]).
  assert (/ 2 ^ 300 <= 1) by (rewrite <- Rinv_1; apply Rinv_le_contravar; lra). lra.
Qed.

Example C69_meets : real_rows 5 [xi; yi] [yi; xi] /\ shape_env env_F /\
  exists rs, outcome (rowwise env_F (measure_of UDcorSqr) [xi; yi] [yi; xi] RWOptimized (options_of (b64_ofZ 1) MAuto CAuto)) = Ok rs /\
    Forall2 (fun p r => is_finite r = true /\ Rabs (B2R r - value UDcorSqr 5 (distances 1 (freals (fst p))) (distances 1 (freals (snd p)))) <= 3 * / 2 ^ 26 + / 2 ^ 49)
      [(xi, yi); (yi, xi)] rs.
Proof.
  split; [apply (double_real 5 7 7), two_rows|]. split; [exact (fshape plain env_F env_F_valid)|].
  destruct xs_ys_cov as (H1 & H2 & H3).
  assert (Vx : varies UDcovSqr 5 7 (/ 2 ^ 26) xi).
  { assert (V : value UDcovSqr 5 (distances 1 (freals xi)) (distances 1 (freals xi)) = 16 / 15).
    { cbn [value]. rewrite xi_xs, (udcov2_ext 5 _ _ dx dx) by auto using xs_dist. exact H2. }
    unfold varies. rewrite V. split; [apply pow450; lra|]. unfold avl_roundings, avl_unit. change (Nat.log2_up 5) with 3%nat. cbn [Nat.mul Nat.add INR]. lra. }
  assert (Vy : varies UDcovSqr 5 7 (/ 2 ^ 26) yi).
  { assert (V : value UDcovSqr 5 (distances 1 (freals yi)) (distances 1 (freals yi)) = 2 / 5).
    { cbn [value]. rewrite yi_ys, (udcov2_ext 5 _ _ dy dy) by auto using ys_dist. exact H3. }
    unfold varies. rewrite V. split; [apply pow450; lra|]. unfold avl_roundings, avl_unit. change (Nat.log2_up 5) with 3%nat. cbn [Nat.mul Nat.add INR]. lra. }
  apply (C69_correlations UDcorSqr UDcovSqr plain env_F 5 [xi; yi] [yi; xi] 7 7 (/ 2 ^ 26)); unfold correlates, fast_method, optimised;
    auto using env_F_valid, env_F_values, two_rows; try discriminate; try lia; try (apply range300; lra); lra.
Qed.

(** ** What does not hold *)
Definition sl (r : res (list b64)) : res (list SpecFloat.spec_float) := match r with Ok l => Ok (map B2SF l) | Err ex => Err ex end.
Lemma sl_ok r l : sl r = Ok l -> exists rs, r = Ok rs /\ map B2SF rs = l.
Proof. destruct r as [rs|]; cbn; [|discriminate]. intros H. exists rs. split; auto. congruence. Qed.

(** The correlations of the optimised implementation are not bit for bit those of the function called on each pair. *)
Theorem C69_correlations_identical_refuted : exists E x y rs qs, valid_fenv plain E /\ sorts_values E /\ double_rows 5 7 7 x y /\
  outcome (rowwise E (measure_of DcorSqr) x y RWOptimized (options_of (b64_ofZ 1) MAuto CAuto)) = Ok rs /\
  outcome (rowwise E (measure_of DcorSqr) x y RWNaive (options_of (b64_ofZ 1) MAuto CAuto)) = Ok qs /\ map B2R rs <> map B2R qs.
Proof.
  assert (V : sl (outcome (rowwise env_F (measure_of DcorSqr) [xi; yi] [yi; xi] RWOptimized (options_of (b64_ofZ 1) MAuto CAuto)))
    = Ok [SpecFloat.S754_finite false 8521709715955163 (-54); SpecFloat.S754_finite false 8521709715955156 (-54)]) by (vm_compute; reflexivity).
  assert (W : sl (outcome (rowwise env_F (measure_of DcorSqr) [xi; yi] [yi; xi] RWNaive (options_of (b64_ofZ 1) MAuto CAuto)))
    = Ok [SpecFloat.S754_finite false 8521709715955164 (-54); SpecFloat.S754_finite false 8521709715955156 (-54)]) by (vm_compute; reflexivity).
  destruct (sl_ok _ _ V) as (rs & R1 & R2). destruct (sl_ok _ _ W) as (qs & Q1 & Q2).
  exists env_F, [xi; yi], [yi; xi], rs, qs. split; [exact env_F_valid|]. split; [exact env_F_values|]. split; [exact two_rows|]. split; auto. split; auto.
  clear V W R1 Q1. intros H. destruct rs as [|r rs], qs as [|q qs]; try discriminate R2; try discriminate Q2. cbn [map] in *. injection R2 as R2 _. injection Q2 as Q2 _. injection H as H _.
  rewrite (B2SF_real _ _ _ _ R2), (B2SF_real _ _ _ _ Q2) in H. unfold F2R in H. cbn [Fnum Fexp cond_Zopp] in H.
  apply Rmult_eq_reg_r in H; [apply eq_IZR in H; discriminate H|]. apply Rgt_not_eq, bpow_gt_0.
Qed.

(** A row whose values are all equal has correlation 0 with every sample.  The optimised implementation can return minus infinity for it. *)
Theorem C69_constant_refuted : exists E x y r, valid_fenv plain E /\ sorts_values E /\ double_rows 5 1 1 [x] [y] /\
  (exists c, adata x = Vec (repeat c 5)) /\ value DcorSqr 5 (distances 1 (freals x)) (distances 1 (freals y)) = 0 /\
  outcome (rowwise E (measure_of DcorSqr) [x] [y] RWAuto (options_of (b64_ofZ 1) MAuto CAuto)) = Ok [r] /\ r = B754_infinity true.
Proof.
  assert (V : sl (outcome (rowwise env_F (measure_of DcorSqr) [c7] [d7] RWAuto (options_of (b64_ofZ 1) MAuto CAuto))) = Ok [SpecFloat.S754_infinity true])
    by (vm_compute; reflexivity).
  assert (DP : double_pair 5 c7 d7) by (repeat split; auto; try (cbn; lia); try (repeat constructor; fail)).
  destruct (sl_ok _ _ V) as (rs & R1 & R2). clear V. destruct rs as [|r [|q rs]]; try discriminate R2.
  exists env_F, c7, d7, r. split; [exact env_F_valid|]. split; [exact env_F_values|]. split; [|split; [eexists; reflexivity|]].
  - split; [discriminate|]. split; [constructor; [|constructor]|left; intros a [<- |[<- |[]]]; eexists; reflexivity].
    assert (B : forall m e P, (Zpos m <= 2 ^ (- e))%Z -> (e < 0)%Z -> Rabs (B2R (fl m e P)) <= 1).
    { intros m e P Hm Hneg. unfold fl, B2R, F2R. cbn [Fnum Fexp cond_Zopp]. rewrite Rabs_mult, (Rabs_pos_eq (bpow _ _)) by apply bpow_ge_0. rewrite <- abs_IZR.
      replace e with (- - e)%Z by lia. rewrite bpow_opp, <- IZR_Zpower by lia. cbn [Z.abs].
      assert (0 < IZR (Zpower radix2 (- e))) by (apply IZR_lt, Zpower_gt_0; lia). apply (Rmult_le_reg_r (IZR (Zpower radix2 (- e)))); auto.
      rewrite Rmult_assoc, Rinv_l, Rmult_1_r, Rmult_1_l by lra. apply IZR_le. exact Hm. }
    split; auto. unfold univariate. repeat (split; [reflexivity|]).
    split; unfold within; repeat (constructor; [apply B; [cbn; lia|lia]|]); constructor.
  - split; [|split; auto].
    + cbn [value]. apply constant_dcov_zero; [lia|]. intros i j Hi Hj. assert (H : forall k, (k < 5)%nat -> forall l, (l < 1)%nat -> obs (freals c7) k l = B2R (fl 6305039478318694 (-53) eq_refl)).
      { intros [|[|[|[|[|k]]]]] Hk l Hl; try lia; (destruct l; [reflexivity|lia]). }
      intros l Hl. now rewrite (H i Hi l Hl), (H j Hj l Hl).
    + cbn [map] in R2. clear - R2. injection R2 as R2. destruct r; cbn in R2; congruence.
Qed.
