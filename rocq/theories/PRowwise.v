(** rowwise: C34, C35. *)
From Coq Require Import Reals Lra Lia List Arith Bool ZArith.
From Verif Require Import Num Numpy MUtils MDistances MMergesort MInternals MAvl MDcor MRowwise Sums Spec Centering Tab Samples Api
  RefDist RefDyad RefAvl RefDcor Psd Nonneg EnergyMath Empirical Invariance SpecFacts RefApi Witness PDcov.
Import List ListNotations.
Local Open Scope R_scope.

(** The measure behind a name, and keyword arguments. *)
Definition measure (f : api) : dep_function R :=
  match f with
  | DcovSqr => FDcovSqr | Dcov => FDcov | DcorSqr => FDcorSqr | Dcor => FDcor | UDcovSqr => FUDcovSqr | UDcorSqr => FUDcorSqr
  end.
Definition options (e : R) (m : dcov_method) (cm : compile_mode) : kwargs R := mkKw e (MethodEnum m) cm.

(** Arrays of the same shape. *)
Definition alike (a b : array R) : Prop :=
  match adata a, adata b with
  | Vec v, Vec w => length v = length w
  | Mat c r, Mat d s => c = d /\ length r = length s
  | _, _ => False
  end.
Definition all_alike (l : list (array R)) : Prop := forall a b, In a l -> In b l -> alike a b.

(** Lists of samples: as many in [x] as in [y], not empty, [x[i]] and [y[i]] of [n] observations, one floating point dtype. *)
Definition rows (n : nat) (x y : list (array R)) : Prop :=
  x <> [] /\ Forall2 (paired n) x y /\ all_alike x /\ all_alike y /\
  exists d, (d = F64 \/ d = F32) /\ Forall (fun a => adt a = d) (x ++ y).

Definition is_correlation (f : api) : bool := match f with DcorSqr | Dcor | UDcorSqr => true | _ => false end.

Lemma alike_spec a b : shape_eqb (nd_shape (adata a)) (nd_shape (adata b)) = true <-> alike a b.
Proof.
  unfold shape_eqb, alike. destruct (adata a), (adata b); cbn; rewrite ?andb_true_iff, ?Nat.eqb_eq; try tauto; split; intros; try tauto; intuition discriminate.
Qed.

Lemma homogeneous_spec l : homogeneous l = true <-> all_alike l.
Proof.
  unfold homogeneous, all_alike. destruct l as [|a l]; [split; auto; intros _ ? ? []|]. rewrite forallb_forall. split.
  - intros H b c Hb Hc. apply H in Hb, Hc. apply alike_spec in Hb, Hc. unfold alike in *.
    destruct (adata a), (adata b), (adata c); try tauto; try congruence; destruct Hb, Hc; split; congruence.
  - intros H b Hb. apply alike_spec, H; auto. left; auto.
Qed.

Section Kernel.
  Variable E : Env R.
  Hypothesis HE : valid_env E.
  Let HN : e_num E = RNum. Proof. apply HE. Qed.

  Definition cov_value (unbiased : bool) (n : nat) (x y : array R) : R :=
    if unbiased then udcov2 n (distances 1 x) (distances 1 y) else dcov2 n (distances 1 x) (distances 1 y).

  Lemma kernel_value unb n x y : paired n x y -> (4 <= n)%nat -> univariate x -> univariate y ->
    rowwise_kernel E unb (tab n (fun i => obs x i 0)) (tab n (fun i => obs y i 0)) = Ok (cov_value unb n x y).
  Proof.
    intros (Wx & Wy & Sx & Sy & Hn) Hn4 Ux Uy. unfold rowwise_kernel. rewrite (seq_env_R E HN).
    destruct (terms_avl_impl_ok E HE n (fun i => obs x i 0) (fun i => obs y i 0) Hn4 true UndefinedBehaviour AllPy AllPy false)
      as (t & -> & _ & _ & H). cbn [rbind]. rewrite tab_length.
    assert (terms_ok n (distances 1 x) (distances 1 y) false t) as Ht
      by (eapply terms_ok_ext; [| |exact H]; intros; symmetry; apply distances_1; auto).
    unfold cov_value. destruct unb.
    - apply (terms_dcov_U E HN _ n _ _ false); auto using distances_sym, distances_hollow.
    - apply (terms_dcov_V E HN _ n _ _ false); auto using distances_sym.
  Qed.

  Lemma to_1d l : Forall (fun a => wf a /\ univariate a) l ->
    mapM (fun a : array R => transform_to_1d (adata a)) l = Ok (map (fun a => tab (shape0 a) (fun i => obs a i 0)) l).
  Proof.
    induction 1 as [|a l [Wa Ua] Hl IH]; cbn [mapM map]; [reflexivity|]. rewrite transform_to_1d_tab by auto. cbn [rbind]. rewrite IH. reflexivity.
  Qed.

  Lemma all_univariate l a : all_alike l -> In a l -> univariate a -> Forall univariate l.
  Proof.
    intros H Ha Hu. apply Forall_forall. intros b Hb. specialize (H a b Ha Hb). unfold alike, univariate, ncols in *.
    destruct (adata a), (adata b); try tauto. destruct H; congruence.
  Qed.

  Lemma pair_lists n x y : Forall2 (paired n) x y -> length x = length y /\ Forall (fun a => wf a /\ shape0 a = n) x /\ Forall (fun a => wf a /\ shape0 a = n) y.
  Proof. induction 1 as [|a b x y (?&?&?&?&?) H (?&?&?)]; cbn; repeat split; auto. Qed.

  (** The optimised covariance either is not used or gives the covariances of the pairs. *)
  Lemma rowwise_dcov_value unb n x y e m cm : rows n x y ->
    let kw := options e m cm in
    rowwise_dcov_sqr E unb x y kw = Ok None \/
    (e = 1 /\ (4 <= n)%nat /\ rowwise_dcov_sqr E unb x y kw = Ok (Some (map (fun p => cov_value unb n (fst p) (snd p)) (combine x y)))).
  Proof.
    intros (Hne & Hp & Ax & Ay & d & Hd & Hdt) kw. destruct x as [|x0 x]; [congruence|]. inversion Hp as [|? y0 ? y' H0 Hp']; subst. rename y' into y.
    set (xl := x0 :: x) in *. set (yl := y0 :: y) in *.
    assert (rowwise_dcov_sqr E unb xl yl kw = if negb (can_use_fast_algorithm E x0 y0 e) then Ok None else
      if method_auto_or_avl (MethodEnum m) then rowwise_avl_generic E xl yl unb cm else Ok None) as -> by reflexivity. clear kw.
    destruct (can_use_fast_algorithm E x0 y0 e) eqn:Hf; cbn [negb]; [|auto].
    destruct (method_auto_or_avl (MethodEnum m)); [|auto].
    unfold can_use_fast_algorithm in Hf. repeat (apply andb_prop in Hf as [Hf ?]). rewrite HN in *. cbn [neqb nunit RNum] in *.
    assert (univariate x0) as Ux by (unfold univariate, ncols; destruct (adata x0); cbn in Hf; auto; apply Nat.eqb_eq; auto).
    assert (univariate y0) as Uy by (unfold univariate, ncols; destruct (adata y0); cbn in *; auto; apply Nat.eqb_eq; auto).
    assert (e = 1) as He by (destruct (Reqb_spec e 1); auto; discriminate).
    destruct H0 as (Wx0 & Wy0 & Sx0 & Sy0 & Hn1).
    assert (4 <= n)%nat as Hn4 by (repeat match goal with H : (_ <? _)%nat = true |- _ => apply Nat.ltb_lt in H end; lia).
    unfold rowwise_avl_generic. rewrite (proj2 (homogeneous_spec xl)), (proj2 (homogeneous_spec yl)) by auto. cbn [negb].
    destruct (pair_lists n xl yl Hp) as (Hlen & Fx & Fy).
    pose proof (all_univariate xl x0 Ax (or_introl eq_refl) Ux) as Uxl. pose proof (all_univariate yl y0 Ay (or_introl eq_refl) Uy) as Uyl.
    assert (Forall (fun a => wf a /\ univariate a) xl) as Gx by (rewrite Forall_forall in *; intros a Hin; split; [apply Fx|]; auto).
    assert (Forall (fun a => wf a /\ univariate a) yl) as Gy by (rewrite Forall_forall in *; intros a Hin; split; [apply Fy|]; auto).
    rewrite (to_1d xl), (to_1d yl) by auto. cbn [rbind].
    destruct (match cm with CNoCompile => true | _ => false end) eqn:Hcm; [destruct cm; try discriminate; left; reflexivity|].
    right. split; [auto|]. split; [auto|].
    assert (gufunc_types_ok (dt0 xl) (dt0 yl) = true) as Hg.
    { cbn. rewrite Forall_forall in Hdt. rewrite (Hdt x0), (Hdt y0); [|apply in_or_app; right; left; auto|apply in_or_app; left; left; auto].
      destruct Hd as [-> | ->]; reflexivity. }
    set (fx := map (fun a => tab (shape0 a) (fun i => obs a i 0)) xl). set (fy := map (fun a => tab (shape0 a) (fun i => obs a i 0)) yl).
    assert (bcast_rows (length fx) fy = Some fy) as Hb by (unfold bcast_rows, fx, fy; rewrite !map_length, Hlen, Nat.eqb_refl; reflexivity).
    assert (forallb (fun p => (length (fst p) =? length (snd p))%nat) (combine fx fy) = true) as Hl.
    { unfold fx, fy. clear -Hp. induction Hp as [|a b u v (?&?&Ha&Hb&?) Hp IH]; cbn [map combine forallb]; auto.
      cbn [fst snd]. rewrite !tab_length, Ha, Hb, Nat.eqb_refl. auto. }
    assert (mapM (fun p => rowwise_kernel E unb (fst p) (snd p)) (combine fx fy) = Ok (map (fun p => cov_value unb n (fst p) (snd p)) (combine xl yl))) as Hm.
    { unfold fx, fy. clear -HE HN Hp Uxl Uyl Hn4. induction Hp as [|a b u v H Hp IH]; cbn [map combine mapM]; auto.
      cbn [fst snd]. inversion Uxl as [|? ? Ua Ul]; subst. inversion Uyl as [|? ? Ub Ur]; subst.
      pose proof H as (_ & _ & Sa & Sb & _). rewrite Sa, Sb. rewrite kernel_value by auto.
      cbn [rbind]. rewrite IH by auto. reflexivity. }
    destruct cm; try discriminate; rewrite Hg; cbn [negb]; rewrite Hb; cbn [of_option rbind]; rewrite Hl, Hm; reflexivity.
  Qed.

  Lemma combine_app {A B} (a a' : list A) (b b' : list B) : length a = length b -> combine (a ++ a') (b ++ b') = combine a b ++ combine a' b'.
  Proof. revert b. induction a as [|x a IH]; intros [|y b] H; cbn in *; try discriminate; auto. f_equal. apply IH. lia. Qed.

  Lemma rows_concat n x y : rows n x y -> all_alike (x ++ y) -> rows n (x ++ x ++ y) (y ++ x ++ y).
  Proof.
    intros (Hne & Hp & Ax & Ay & d & Hd & Hdt) Ha.
    assert (Forall2 (paired n) x x) as Hx by (clear -Hp; induction Hp as [|a b u v (?&?&?&?&?) Hp IH]; constructor; auto; repeat split; auto).
    assert (Forall2 (paired n) y y) as Hy by (clear -Hp; induction Hp as [|a b u v (?&?&?&?&?) Hp IH]; constructor; auto; repeat split; auto).
    split; [destruct x; [congruence|discriminate]|]. split; [repeat apply Forall2_app; auto|].
    split; [|split].
    - intros a b Ia Ib. apply Ha; rewrite in_app_iff in *; rewrite in_app_iff in *; tauto.
    - intros a b Ia Ib. apply Ha; rewrite in_app_iff in *; rewrite in_app_iff in *; tauto.
    - exists d. split; auto. rewrite Forall_forall in *. intros a Hin. apply Hdt. rewrite !in_app_iff in *. tauto.
  Qed.

  Definition cor_value (unbiased : bool) (n : nat) (x y : array R) : R :=
    if unbiased then udcor2 n (distances 1 x) (distances 1 y) else dcor2 n (distances 1 x) (distances 1 y).

  Lemma ratio_corr cov vx vy : 0 <= vx -> 0 <= vy -> cov * cov <= vx * vy -> cov / sqrt vx / sqrt vy = corr cov vx vy.
  Proof.
    intros Hx Hy Hc. unfold corr. destruct (Req_EM_T (vx * vy) 0) as [H|H].
    - assert (cov = 0) as -> by nra. unfold Rdiv. ring.
    - assert (0 < vx) by nra. assert (0 < vy) by nra. rewrite sqrt_mult by lra. field.
      split; apply Rgt_not_eq, sqrt_lt_R0; auto.
  Qed.

  Lemma cov_bound unb n x y : (4 <= n)%nat ->
    cov_value unb n x y * cov_value unb n x y <= cov_value unb n x x * cov_value unb n y y.
  Proof. intros Hn. unfold cov_value. destruct unb; [apply udcov2_cs|apply dcov2_cs]. Qed.

  Lemma rowwise_dcor_value unb n x y e m cm : rows n x y -> all_alike (x ++ y) ->
    let kw := options e m cm in
    rowwise_dcor_sqr E unb x y kw = Ok None \/
    (e = 1 /\ (4 <= n)%nat /\ rowwise_dcor_sqr E unb x y kw = Ok (Some (map (fun p => cor_value unb n (fst p) (snd p)) (combine x y)))).
  Proof.
    intros Hr Ha kw. unfold rowwise_dcor_sqr. rewrite (proj2 (homogeneous_spec _) Ha).
    destruct (pair_lists n x y (proj1 (proj2 Hr))) as (Hlen & _). rewrite Hlen, Bool.eqb_reflx. cbn [andb].
    destruct (rowwise_dcov_value unb n _ _ e m cm (rows_concat n x y Hr Ha)) as [H|(He & Hn4 & H)]; fold kw in H; rewrite H; cbn [rbind]; auto.
    right. split; auto. split; auto. rewrite HN. do 2 f_equal.
    rewrite !combine_app, !map_app by (rewrite ?app_length; auto).
    set (c := map _ (combine x y)). set (vx := map _ (combine x x)). set (vy := map _ (combine y y)).
    assert (length c = length y) as L1 by (unfold c; rewrite map_length, combine_length; lia).
    assert (length vx = length y) as L2 by (unfold vx; rewrite map_length, combine_length; lia).
    rewrite firstn_app, firstn_all2, L1, Nat.sub_diag by lia. cbn [firstn]. rewrite app_nil_r.
    assert (slice (c ++ vx ++ vy) (length y) (2 * length y) = vx) as ->.
    { unfold slice. rewrite skipn_app, (skipn_all2 c) by lia. rewrite L1, Nat.sub_diag. cbn [skipn app].
      rewrite firstn_app, firstn_all2 by lia. replace (2 * length y - length y - length vx)%nat with 0%nat by lia. cbn. apply app_nil_r. }
    assert (skipn (2 * length y) (c ++ vx ++ vy) = vy) as ->.
    { rewrite app_assoc, skipn_app, (skipn_all2 (c ++ vx)) by (rewrite app_length; lia). rewrite app_length.
      replace (2 * length y - (length c + length vx))%nat with 0%nat by lia. reflexivity. }
    unfold c, vx, vy. clear - Hr Hn4 HN. destruct Hr as (_ & Hp & _).
    induction Hp as [|a b u v H Hp IH]; cbn [combine map map2]; [reflexivity|]. f_equal; [|exact IH]. cbn [fst snd nisnan RNum ndiv].
    rewrite !sqrt_clamp_R, ratio_corr.
    - unfold cor_value, cov_value, udcor2, dcor2. destruct unb; reflexivity.
    - unfold cov_value. destruct unb; [apply udvar_nonneg; auto|apply dvar_nonneg].
    - unfold cov_value. destruct unb; [apply udvar_nonneg; auto|apply dvar_nonneg].
    - apply cov_bound; auto.
  Qed.
End Kernel.

Lemma call_measure f E x y e m cm : outcome (call_function E (measure f) x y (options e m cm)) = call f E x y e m cm.
Proof. destruct f; reflexivity. Qed.

Lemma naive_rows f E x y e m cm vs : Forall2 (fun p v => call f E (fst p) (snd p) e m cm = Ok v) (combine x y) vs ->
  outcome (rowwise_naive E (measure f) x y (options e m cm)) = Ok vs.
Proof.
  unfold rowwise_naive. induction 1 as [|p v l vs Hp H IH]; cbn [mapMM]; [reflexivity|].
  rewrite outcome_bind, call_measure, Hp, outcome_bind, IH. reflexivity.
Qed.

Lemma pairs_in {A B} (P : A -> B -> Prop) x y : Forall2 P x y -> Forall (fun p => P (fst p) (snd p)) (combine x y).
Proof. induction 1; cbn; constructor; auto. Qed.

Lemma optimised_value f E n x y e m cm : valid_env E -> rows n x y -> (is_correlation f = true -> all_alike (x ++ y)) ->
  rowwise_function E (measure f) x y (options e m cm) = Ok None \/
  (e = 1 /\ rowwise_function E (measure f) x y (options e m cm)
     = Ok (Some (map (fun p => value f n (distances e (fst p)) (distances e (snd p))) (combine x y)))).
Proof.
  intros HE Hr Hc. pose proof HE as [EN _ _]. destruct f; cbn [measure rowwise_function].
  - destruct (rowwise_dcov_value E HE false n x y e m cm Hr) as [H|(-> & _ & H)]; auto.
  - destruct (rowwise_dcov_value E HE false n x y e m cm Hr) as [H|(-> & _ & H)]; unfold rowwise_dcov; rewrite H; cbn [rbind option_map]; auto.
    right. split; auto. rewrite map_map, EN. do 2 f_equal. apply map_ext. intros p. apply sqrt_clamp_R.
  - destruct (rowwise_dcor_value E HE false n x y e m cm Hr (Hc eq_refl)) as [H|(-> & _ & H)]; auto.
  - destruct (rowwise_dcor_value E HE false n x y e m cm Hr (Hc eq_refl)) as [H|(-> & _ & H)]; unfold rowwise_dcor; rewrite H; cbn [rbind option_map]; auto.
    right. split; auto. rewrite map_map, EN. do 2 f_equal. apply map_ext. intros p. apply sqrt_clamp_R.
  - destruct (rowwise_dcov_value E HE true n x y e m cm Hr) as [H|(-> & _ & H)]; auto.
  - destruct (rowwise_dcor_value E HE true n x y e m cm Hr (Hc eq_refl)) as [H|(-> & _ & H)]; auto.
Qed.

(** Entry [i] of the result is the measure of [x[i]] and [y[i]], in the modes AUTO and NAIVE; OPTIMIZED gives the same or
    raises NotImplementedError. *)
Theorem C34_rowwise_map f E n x y e m cm : valid_env E -> rows n x y -> (is_correlation f = true -> all_alike (x ++ y)) ->
  (min_size f <= n)%nat -> 0 < e -> Forall2 (fun a b => accepts m cm a b e) x y ->
  exists vs, Forall2 (fun p v => call f E (fst p) (snd p) e m cm = Ok v) (combine x y) vs /\
    outcome (rowwise E (measure f) x y RWAuto (options e m cm)) = Ok vs /\
    outcome (rowwise E (measure f) x y RWNaive (options e m cm)) = Ok vs /\
    (outcome (rowwise E (measure f) x y RWOptimized (options e m cm)) = Ok vs \/
     outcome (rowwise E (measure f) x y RWOptimized (options e m cm)) = Err NotImplementedError).
Proof.
  intros HE Hr Hc Hn He Ha.
  exists (map (fun p => value f n (distances e (fst p)) (distances e (snd p))) (combine x y)).
  assert (Forall2 (fun p v => call f E (fst p) (snd p) e m cm = Ok v) (combine x y)
    (map (fun p => value f n (distances e (fst p)) (distances e (snd p))) (combine x y))) as H.
  { destruct Hr as (_ & Hp & _). clear Hc. revert Ha. induction Hp as [|a b u v H Hp IH]; intros Ha; cbn; constructor; inversion Ha; subst; auto.
    cbn [fst snd]. apply call_ok; auto. }
  split; auto. pose proof (naive_rows _ _ _ _ _ _ _ _ H) as Hv. unfold rowwise. rewrite !outcome_bind. cbn [outcome ret lift snd].
  destruct (optimised_value f E n x y e m cm HE Hr Hc) as [Ho|[_ Ho]]; rewrite Ho; cbn [outcome ret raise snd]; auto.
Qed.

(** When the optimised path is used: univariate samples of at least four observations, exponent 1, AUTO or AVL, and a
    compilation mode other than NO_COMPILE. *)
Theorem C34_optimised f E n x y m cm mode : valid_env E -> rows n x y -> (is_correlation f = true -> all_alike (x ++ y)) ->
  (4 <= n)%nat -> Forall univariate (x ++ y) -> (m = MAuto \/ m = MAvl) -> cm <> CNoCompile -> mode <> RWNaive ->
  outcome (rowwise E (measure f) x y mode (options 1 m cm))
  = Ok (map (fun p => value f n (distances 1 (fst p)) (distances 1 (snd p))) (combine x y)).
Proof.
  intros HE Hr Hc Hn Hu Hm Hcm Hmode. unfold rowwise.
  assert (match mode with RWNaive => ret None | _ => lift (rowwise_function E (measure f) x y (options 1 m cm)) end
          = lift (rowwise_function E (measure f) x y (options 1 m cm))) as -> by (destruct mode; congruence).
  rewrite outcome_bind. cbn [outcome lift snd].
  destruct (optimised_value f E n x y 1 m cm HE Hr Hc) as [Ho|[_ Ho]]; rewrite Ho; [|reflexivity]. exfalso.
  assert (forall unb x y, rows n x y -> Forall univariate (x ++ y) -> rowwise_dcov_sqr E unb x y (options 1 m cm) <> Ok None) as H.
  { clear x y Hr Hc Hu Ho. intros unb x y (Hne & Hp & Ax & Ay & d & Hd & Hdt) Hu Ho. destruct x as [|x0 x]; [congruence|]. inversion Hp as [|? y0 ? y' H0 Hp']; subst.
    unfold rowwise_dcov_sqr in Ho. cbn [nth_error of_option rbind] in Ho.
    assert (univariate x0 /\ univariate y0) as [Ux Uy].
    { rewrite Forall_forall in Hu. split; apply Hu; apply in_or_app; [left|right]; left; auto. }
    destruct H0 as (_ & _ & Sx & Sy & _).
    assert (can_use_fast_algorithm E x0 y0 1 = true) as Hf.
    { unfold can_use_fast_algorithm, univariate, ncols in *. destruct HE as [EN _ _]. rewrite EN, Sx, Sy. cbn [neqb nunit RNum]. rewrite Reqb_refl.
      assert ((3 <? n)%nat = true) as -> by (apply Nat.ltb_lt; lia).
      destruct (adata x0), (adata y0); cbn in *; subst; reflexivity. }
    unfold options in Ho. cbn [kw_exponent kw_method kw_compile] in Ho. rewrite Hf in Ho. cbn [negb] in Ho.
    assert (method_auto_or_avl (MethodEnum m) = true) as Hma by (destruct Hm as [-> | ->]; reflexivity). rewrite Hma in Ho.
    unfold rowwise_avl_generic in Ho.
    destruct (negb _); [discriminate|]. destruct (negb _); [discriminate|].
    destruct (mapM _ _); cbn [rbind] in Ho; [|discriminate]. destruct (mapM _ _); cbn [rbind] in Ho; [|discriminate].
    destruct cm; try congruence; (destruct (negb _); [discriminate|]); (destruct (of_option _ _); cbn [rbind] in Ho; [|discriminate]);
      (destruct (forallb _ _); [|discriminate]); (destruct (mapM _ _); cbn [rbind] in Ho; discriminate). }
  assert (forall unb, all_alike (x ++ y) -> rowwise_dcor_sqr E unb x y (options 1 m cm) <> Ok None) as H'.
  { intros unb Ha. unfold rowwise_dcor_sqr. destruct (_ && _); [|discriminate].
    specialize (H unb _ _ (rows_concat n x y Hr Ha)). destruct (rowwise_dcov_sqr _ _ _ _ _) as [[]|]; cbn [rbind]; try discriminate.
    intros _. apply H; auto. rewrite Forall_forall in *. intros a Hin. apply Hu. rewrite !in_app_iff in *. tauto. }
  destruct f; cbn [measure rowwise_function] in Ho.
  - exact (H _ _ _ Hr Hu Ho).
  - unfold rowwise_dcov in Ho. specialize (H false _ _ Hr Hu). destruct (rowwise_dcov_sqr _ _ _ _ _) as [[]|]; cbn in Ho; try discriminate. congruence.
  - exact (H' _ (Hc eq_refl) Ho).
  - unfold rowwise_dcor in Ho. specialize (H' false (Hc eq_refl)). destruct (rowwise_dcor_sqr _ _ _ _ _) as [[]|]; cbn in Ho; try discriminate. congruence.
  - exact (H _ _ _ Hr Hu Ho).
  - exact (H' _ (Hc eq_refl) Ho).
Qed.

(** Any other measure: the map. *)
Theorem C34_other {T} (E : Env T) g x y kw : rowwise E (FOther g) x y RWAuto kw = rowwise E (FOther g) x y RWNaive kw /\
  outcome (rowwise E (FOther g) x y RWOptimized kw) = Err NotImplementedError.
Proof. split; reflexivity. Qed.

Definition two : list (array R) := [xs; ys].
Lemma two_rows : rows 5 two [ys; xs].
Proof.
  split; [discriminate|]. split; [repeat constructor; cbn; auto; lia|]. split; [|split].
  - intros a b [<-|[<-|[]]] [<-|[<-|[]]]; reflexivity.
  - intros a b [<-|[<-|[]]] [<-|[<-|[]]]; reflexivity.
  - exists F64. split; auto. repeat constructor.
Qed.
Lemma two_alike : all_alike (two ++ [ys; xs]).
Proof. intros a b Ha Hb. cbn in Ha, Hb. repeat destruct Ha as [<-|Ha]; try tauto; repeat destruct Hb as [<-|Hb]; try tauto; reflexivity. Qed.

(** All the hypotheses of [C34_rowwise_map] and [C34_optimised] are met by two pairs of samples; a matrix valued sample too. *)
Example C34_meets : rows 5 two [ys; xs] /\ all_alike (two ++ [ys; xs]) /\ Forall univariate (two ++ [ys; xs]) /\
  Forall2 (fun a b => accepts MAuto CAuto a b 1) two [ys; xs] /\ rows 5 [zs; zs] two.
Proof.
  split; [apply two_rows|]. split; [apply two_alike|]. split; [repeat constructor|]. split; [repeat constructor; apply auto_accepts|].
  split; [discriminate|]. split; [repeat constructor; cbn; auto; try lia; repeat constructor|]. split; [|split].
  - intros a b [<-|[<-|[]]] [<-|[<-|[]]]; cbn; auto.
  - intros a b [<-|[<-|[]]] [<-|[<-|[]]]; reflexivity.
  - exists F64. split; auto. repeat constructor.
Qed.

(** ** C35 *)

(** NAIVE pairs the rows up to the length of the shorter list. *)
Theorem C35_naive_zip {T} (E : Env T) f x y kw :
  rowwise E f x y RWNaive kw = rowwise E f (firstn (length y) x) (firstn (length x) y) RWNaive kw /\
  forall vs, outcome (rowwise E f x y RWNaive kw) = Ok vs -> length vs = Nat.min (length x) (length y).
Proof.
  assert (combine (firstn (length y) x) (firstn (length x) y) = combine x y) as Hc.
  { revert y. induction x as [|a x IH]; intros [|b y]; cbn [length firstn combine]; try reflexivity. f_equal. apply IH. }
  split.
  - unfold rowwise. cbn. unfold rowwise_naive. rewrite Hc. reflexivity.
  - intros vs. unfold rowwise. rewrite outcome_bind. cbn [outcome ret snd]. unfold rowwise_naive. rewrite <- combine_length.
    generalize (combine x y). intros l. revert vs. induction l as [|p l IH]; intros vs H; cbn [mapMM] in H.
    + injection H as <-. reflexivity.
    + rewrite outcome_bind in H. destruct (outcome (call_function _ _ _ _ _)); [|discriminate]. rewrite outcome_bind in H.
      destruct (outcome (mapMM _ l)) as [vs'|]; [|discriminate]. injection H as <-. cbn. f_equal. apply IH. reflexivity.
Qed.

(** Empty lists: IndexError in AUTO, an empty result in NAIVE. *)
Theorem C35_empty_refuted f E e m cm : 
  outcome (rowwise E (measure f) [] [] RWAuto (options e m cm)) = Err IndexError /\
  outcome (rowwise E (measure f) [] [] RWNaive (options e m cm)) = Ok [].
Proof. split; destruct f; reflexivity. Qed.

Section Corners.
  Variable E : Env R.
  Hypothesis HE : valid_env E.

  Lemma naive_two f x y e m cm n : Forall2 (paired n) x y -> (min_size f <= n)%nat -> 0 < e -> Forall2 (fun a b => accepts m cm a b e) x y ->
    outcome (rowwise E (measure f) x y RWNaive (options e m cm))
    = Ok (map (fun p => value f n (distances e (fst p)) (distances e (snd p))) (combine x y)).
  Proof.
    intros Hp Hn He Ha. unfold rowwise. rewrite outcome_bind. cbn [outcome ret snd]. apply naive_rows.
    revert Ha. induction Hp as [|a b u v H Hp IH]; intros Ha; cbn; constructor; inversion Ha; subst; auto.
    cbn [fst snd]. apply call_ok; auto.
  Qed.

  Lemma fast_first x0 x y0 y cm : (is_random_variable (adata x0) && is_random_variable (adata y0) && (3 <? shape0 x0) && (3 <? shape0 y0))%nat = true ->
    rowwise_function E FDcovSqr (x0 :: x) (y0 :: y) (options 1 MAuto cm) = rowwise_avl_generic E (x0 :: x) (y0 :: y) false cm.
  Proof.
    intros H. cbn [rowwise_function]. unfold rowwise_dcov_sqr. cbn [nth_error of_option rbind options kw_exponent kw_method kw_compile].
    unfold can_use_fast_algorithm. destruct HE as [EN _ _]. rewrite EN. cbn [neqb nunit RNum]. rewrite Reqb_refl, H. reflexivity.
  Qed.

  (** A second list with a single sample is repeated by AUTO. *)
  Theorem C35_broadcast_refuted : exists v w : R,
    outcome (rowwise E FDcovSqr [xs; ys] [xs] RWAuto (options 1 MAuto CAuto)) = Ok [v; w] /\
    outcome (rowwise E FDcovSqr [xs; ys] [xs] RWNaive (options 1 MAuto CAuto)) = Ok [v].
  Proof.
    exists (dcov2 5 (distances 1 xs) (distances 1 xs)), (dcov2 5 (distances 1 ys) (distances 1 xs)). split.
    - unfold rowwise. rewrite outcome_bind. cbn [outcome lift snd].
      assert (rowwise_function E FDcovSqr [xs; ys] [xs] (options 1 MAuto CAuto) = rowwise_avl_generic E [xs; ys] [xs] false CAuto) as ->
        by (apply fast_first; reflexivity).
      assert (rowwise_avl_generic E [xs; ys] [xs] false CAuto = rbind (rowwise_kernel E false (tab 5 (fun i => obs xs i 0)) (tab 5 (fun i => obs xs i 0)))
        (fun a => rbind (rbind (rowwise_kernel E false (tab 5 (fun i => obs ys i 0)) (tab 5 (fun i => obs xs i 0)))
        (fun b => Ok [b])) (fun r => Ok (Some (a :: r))))) as ->.
      { set (k := rowwise_kernel E false). unfold rowwise_avl_generic. fold k. cbn. destruct (k _ _); cbn; auto. destruct (k _ _); reflexivity. }
      rewrite !(kernel_value E HE) by (reflexivity || lia || (repeat split; cbn; auto; lia)). reflexivity.
    - rewrite (proj1 (C35_naive_zip E FDcovSqr [xs; ys] [xs] (options 1 MAuto CAuto))).
      apply (naive_two DcovSqr [xs] [xs] 1 MAuto CAuto 5); try lra; repeat constructor; cbn; auto; lia.
  Qed.

  (** Other different lengths: ValueError in AUTO, the shorter length in NAIVE. *)
  Theorem C35_lengths_refuted : exists v w : R,
    outcome (rowwise E FDcovSqr [xs; ys] [xs; ys; xs] RWAuto (options 1 MAuto CAuto)) = Err ValueError /\
    outcome (rowwise E FDcovSqr [xs; ys] [xs; ys; xs] RWNaive (options 1 MAuto CAuto)) = Ok [v; w].
  Proof.
    exists (dcov2 5 (distances 1 xs) (distances 1 xs)), (dcov2 5 (distances 1 ys) (distances 1 ys)). split.
    - unfold rowwise. rewrite outcome_bind. cbn [outcome lift snd].
      assert (rowwise_function E FDcovSqr [xs; ys] [xs; ys; xs] (options 1 MAuto CAuto) = rowwise_avl_generic E [xs; ys] [xs; ys; xs] false CAuto) as ->
        by (apply fast_first; reflexivity). reflexivity.
    - rewrite (proj1 (C35_naive_zip E FDcovSqr [xs; ys] [xs; ys; xs] (options 1 MAuto CAuto))).
      apply (naive_two DcovSqr [xs; ys] [xs; ys] 1 MAuto CAuto 5); try lra; repeat constructor; cbn; auto; lia.
  Qed.

  (** Integer samples: TypeError in AUTO (the results do not fit the integer dtype), the map in NAIVE. *)
  Definition ints : array R := mkArr Numpy SInt (Vec [3; 1; 2; 1; 5]).
  Theorem C35_integer_refuted : exists v : R,
    outcome (rowwise E FDcovSqr [ints] [ints] RWAuto (options 1 MAuto CAuto)) = Err TypeError /\
    outcome (rowwise E FDcovSqr [ints] [ints] RWNaive (options 1 MAuto CAuto)) = Ok [v].
  Proof.
    exists (dcov2 5 (distances 1 ints) (distances 1 ints)). split.
    - unfold rowwise. rewrite outcome_bind. cbn [outcome lift snd].
      assert (rowwise_function E FDcovSqr [ints] [ints] (options 1 MAuto CAuto) = rowwise_avl_generic E [ints] [ints] false CAuto) as ->
        by (apply fast_first; reflexivity). reflexivity.
    - apply (naive_two DcovSqr [ints] [ints] 1 MAuto CAuto 5); try lra; repeat constructor; cbn; auto; lia.
  Qed.

  (** Correlations of samples of different shapes: ValueError in AUTO, whatever the samples, although no optimised path applies. *)
  Theorem C35_shapes_refuted : exists v : R,
    outcome (rowwise E FDcorSqr [xs] [zs] RWAuto (options 1 MAuto CAuto)) = Err ValueError /\
    outcome (rowwise E FDcorSqr [xs] [zs] RWNaive (options 1 MAuto CAuto)) = Ok [v].
  Proof.
    exists (dcor2 5 (distances 1 xs) (distances 1 zs)). split; [reflexivity|].
    apply (naive_two DcorSqr [xs] [zs] 1 MAuto CAuto 5); try lra; repeat constructor; cbn; auto; try lia; repeat constructor.
  Qed.
  (** COMPILE_PARALLEL is implemented by the optimised path only. *)
  Theorem C35_parallel_refuted : exists v : R,
    outcome (rowwise E FDcovSqr [xs] [ys] RWAuto (options 1 MAuto CCompileParallel)) = Ok [v] /\
    outcome (rowwise E FDcovSqr [xs] [ys] RWNaive (options 1 MAuto CCompileParallel)) = Err NotImplementedError.
  Proof.
    exists (dcov2 5 (distances 1 xs) (distances 1 ys)). split.
    - apply (C34_optimised DcovSqr E 5 [xs] [ys] MAuto CCompileParallel RWAuto); auto; try discriminate; try lia; [|repeat constructor].
      split; [discriminate|]. split; [repeat constructor; cbn; auto; lia|]. split; [|split].
      + intros a b [<-|[]] [<-|[]]; reflexivity.
      + intros a b [<-|[]] [<-|[]]; reflexivity.
      + exists F64. split; auto. repeat constructor.
    - unfold rowwise. rewrite outcome_bind. cbn [outcome ret snd]. unfold rowwise_naive. cbn [combine mapMM]. rewrite outcome_bind, (call_measure DcovSqr).
      unfold call. cbn [api_fn]. unfold distance_covariance_sqr, algo_dcov_sqr. rewrite !outcome_bind. cbn [outcome lift snd to_algorithm].
      rewrite outcome_bind. cbn [method_terms]. unfold terms_auto, can_use_fast_algorithm, terms_avl. destruct HE as [EN _ _]. rewrite EN.
      cbn [neqb nunit RNum]. rewrite Reqb_refl. reflexivity.
  Qed.
End Corners.

Example C35_meets : valid_env (env_R true).
Proof. apply env_R_valid. Qed.
