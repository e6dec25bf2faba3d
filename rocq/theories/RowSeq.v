(** The optimised rowwise functions, for every number type: the kernel of one row returns what the compiled AVL
    covariance returns. *)
From Coq Require Import ZArith List Bool Arith Lia.
From Verif Require Import Num Numpy MUtils MDistances MInternals MMergesort MAvl MDcor MRowwise Tab Samples RefDist Api Calls AvlGeneric.
Import ListNotations.
Local Open Scope monad_scope.

(** The measure behind a name, and keyword arguments. *)
Definition measure_of {T} (f : api) : dep_function T :=
  match f with
  | DcovSqr => FDcovSqr | Dcov => FDcov | DcorSqr => FDcorSqr | Dcor => FDcor | UDcovSqr => FUDcovSqr | UDcorSqr => FUDcorSqr
  end.
Definition options_of {T} (e : T) (m : dcov_method) (cm : compile_mode) : kwargs T := mkKw e (MethodEnum m) cm.

(** All vectors, or all matrices of one column. *)
Definition uniform {T} (l : list (array T)) : Prop :=
  (forall a, In a l -> exists v, adata a = Vec v) \/ (forall a, In a l -> exists r, adata a = Mat 1 r).
(** Numpy arrays of [n] real observations each in float64. *)
Definition row_of {T} (n : nat) (a : array T) : Prop := wf a /\ univariate a /\ shape0 a = n /\ is_float64 a /\ ans a = Numpy.
Definition real_rows {T} (n : nat) (x y : list (array T)) : Prop :=
  x <> [] /\ length x = length y /\ Forall (row_of n) x /\ Forall (row_of n) y /\ uniform x /\ uniform y.

Section RowSeq.
  Context {T : Type} (E : Env T) (HE : shape_env E).
  Let N := e_num E.
  Definition cov_of (unb : bool) : api := if unb then UDcovSqr else DcovSqr.

  Lemma row_1d n (a : array T) : row_of n a -> exists v, transform_to_1d (adata a) = Ok v /\ length v = n.
  Proof.
    intros (W & U & L & _). destruct (to_1d_cases a) as [[v Hv]|H].
    - exists v. split; auto. rewrite (to_1d_length a v W Hv). auto.
    - exfalso. revert H. unfold univariate, ncols in U. unfold transform_to_1d. destruct (adata a) as [v|c r]; [discriminate|]. rewrite U. discriminate.
  Qed.

  (** One row: the function on the pair, with the default options. *)
  Definition row_call (f : api) (a b : array T) (e : T) : res T := call f E a b e MAvl CAuto.

  Lemma kernel_call unb n a b v w e : 4 <= n -> neqb N e (nunit N) = true -> row_of n a -> row_of n b ->
    transform_to_1d (adata a) = Ok v -> transform_to_1d (adata b) = Ok w -> length v = n -> length w = n ->
    rowwise_kernel E unb v w = row_call (cov_of unb) a b e.
  Proof.
    intros Hn He Ra Rb Hv Hw Lv Lw. unfold row_call. rewrite call_terms.
    assert (wants_var (cov_of unb) = false /\ corrected (cov_of unb) = unb) as [Wv Cr] by (destruct unb; auto). rewrite Wv.
    destruct Ra as (Wa & Ua & La & Fa & Na). destruct Rb as (Wb & Ub & Lb & Fb & Nb).
    cbn [method_terms]. rewrite (avl_outcome E HE a b e false v w CAuto); auto; [|apply together_l; auto|left; left; reflexivity].
    unfold compiles. rewrite Fa, Fb. cbn [is_f64 andb]. unfold rowwise_kernel.
    destruct (terms_avl_impl _ _ _ _ _ _ _ _) as [t|ex]; cbn [rbind]; [|reflexivity]. rewrite La, Lv.
    unfold finish. rewrite Wv, Cr.
    change (dcov_from_terms (seq_env E)) with (dcov_from_terms E).
    destruct (dcov_from_terms _ _ _ _ _ _ _ _ _); cbn [rbind]; [|reflexivity]. destruct unb; reflexivity.
  Qed.

  Lemma rows_1d n l : Forall (row_of n) l -> exists vs, mapM (fun a : array T => transform_to_1d (adata a)) l = Ok vs /\
    Forall2 (fun a v => transform_to_1d (adata a) = Ok v /\ length v = n) l vs.
  Proof.
    induction 1 as [|a l Ha H IH]; [exists []; split; auto|]. destruct IH as (vs & H1 & H2). destruct (row_1d n a Ha) as (v & Hv & Lv).
    exists (v :: vs). cbn [mapM]. rewrite Hv. cbn [rbind]. rewrite H1. split; [reflexivity|constructor; auto].
  Qed.

  Lemma uniform_homogeneous n (l : list (array T)) : Forall (row_of n) l -> uniform l -> homogeneous l = true.
  Proof.
    intros F U. destruct l as [|a l]; [reflexivity|]. unfold homogeneous. apply forallb_forall. intros b Hb. rewrite Forall_forall in F.
    pose proof (F a (or_introl eq_refl)) as (_ & _ & La & _ & _). pose proof (F b Hb) as (_ & _ & Lb & _ & _). unfold shape0 in La, Lb. unfold shape_eqb, nd_shape.
    destruct U as [U|U]; destruct (U a (or_introl eq_refl)) as (u & Eu); destruct (U b Hb) as (w & Ew); rewrite Eu, Ew in *; cbn [fst snd]; rewrite La, Lb, !Nat.eqb_refl; reflexivity.
  Qed.

  Lemma kernel_rows unb n e x y vx vy : 4 <= n -> neqb N e (nunit N) = true -> Forall (row_of n) x -> Forall (row_of n) y -> length x = length y ->
    Forall2 (fun (a : array T) v => transform_to_1d (adata a) = Ok v /\ length v = n) x vx ->
    Forall2 (fun (a : array T) v => transform_to_1d (adata a) = Ok v /\ length v = n) y vy ->
    length vy = length vx /\ forallb (fun p => length (fst p) =? length (snd p)) (combine vx vy) = true /\
    mapM (fun p => rowwise_kernel E unb (fst p) (snd p)) (combine vx vy) = mapM (fun p => row_call (cov_of unb) (fst p) (snd p) e) (combine x y).
  Proof.
    intros Hn He Fx Fy L Hx. revert y vy Fy L. induction Hx as [|a v x vx [Ha La] Hx IH]; intros [|b y] vy Fy L Hy; try discriminate;
      inversion Hy as [|? w ? vy' [Hb Lb] Hy']; subst; [cbn; auto|].
    inversion Fx; subst. inversion Fy; subst. destruct (IH H2 y vy' H4 ltac:(cbn in L; lia) Hy') as (I1 & I2 & I3).
    cbn [length combine forallb fst snd mapM]. rewrite I1, Lb, Nat.eqb_refl, I2. split; [reflexivity|]. split; [reflexivity|].
    rewrite (kernel_call unb (length v) a b v w e); auto. unfold row_call at 1. rewrite I3. reflexivity.
  Qed.

  Lemma fast_rows n x0 y0 e : 4 <= n -> neqb N e (nunit N) = true -> row_of n x0 -> row_of n y0 -> can_use_fast_algorithm E x0 y0 e = true.
  Proof.
    intros Hn He (Wx & Ux & Lx & _) (Wy & Uy & Ly & _). unfold can_use_fast_algorithm. fold N.
    assert (R : forall z : array T, univariate z -> is_random_variable (adata z) = true).
    { intros z U. unfold univariate, ncols in U. unfold is_random_variable. destruct (adata z); auto. now rewrite U. }
    rewrite !R, Lx, Ly, He by auto. assert (3 <? n = true) as -> by (apply Nat.ltb_lt; lia). reflexivity.
  Qed.

  Definition fast_method (m : dcov_method) : Prop := m = MAuto \/ m = MAvl.

  Lemma cov_rows unb n x y e m cm : real_rows n x y -> 4 <= n -> neqb N e (nunit N) = true -> fast_method m -> cm <> CNoCompile ->
    rowwise_dcov_sqr E unb x y (options_of e m cm)
    = rbind (mapM (fun p => row_call (cov_of unb) (fst p) (snd p) e) (combine x y)) (fun r => Ok (Some r)).
  Proof.
    intros (Hne & L & Fx & Fy & Ux & Uy) Hn He Hm Hcm.
    destruct (rows_1d n x Fx) as (vx & Hx & Gx). destruct (rows_1d n y Fy) as (vy & Hy & Gy).
    destruct (kernel_rows unb n e x y vx vy Hn He Fx Fy L Gx Gy) as (Lv & Lf & K).
    destruct x as [|x0 x]; [congruence|]. destruct y as [|y0 y]; [discriminate|]. unfold rowwise_dcov_sqr. cbn [nth_error of_option rbind options_of kw_exponent kw_method kw_compile].
    rewrite (fast_rows n) by (auto; inversion Fx; inversion Fy; auto). cbn [negb].
    assert (method_auto_or_avl (MethodEnum m) = true) as -> by (destruct Hm as [-> | ->]; reflexivity).
    unfold rowwise_avl_generic. rewrite (uniform_homogeneous n _ Fx Ux), (uniform_homogeneous n _ Fy Uy). cbn [negb]. rewrite Hx, Hy. cbn [rbind].
    assert (gufunc_types_ok (dt0 (x0 :: x)) (dt0 (y0 :: y)) = true) as Hg.
    { cbn [dt0]. inversion Fx as [|? ? (_ & _ & _ & Ex & _)]; subst. inversion Fy as [|? ? (_ & _ & _ & Ey & _)]; subst. unfold is_float64 in *. rewrite Ex, Ey. reflexivity. }
    unfold bcast_rows. rewrite Lv, Nat.eqb_refl. destruct cm; try congruence; rewrite Hg; cbn [negb of_option rbind]; rewrite Lf, K; reflexivity.
  Qed.

  Lemma mapM_Forall2 {A B} (g : A -> res B) l vs : Forall2 (fun a v => g a = Ok v) l vs -> mapM g l = Ok vs.
  Proof. induction 1 as [|a v l vs Ha H IH]; [reflexivity|]. cbn [mapM]. rewrite Ha. cbn [rbind]. rewrite IH. reflexivity. Qed.
  Lemma mapM_total {A B} (g : A -> res B) l : (forall a, In a l -> exists v, g a = Ok v) -> exists vs, Forall2 (fun a v => g a = Ok v) l vs.
  Proof.
    induction l as [|a l IH]; intros H; [exists []; auto|]. destruct (H a (or_introl eq_refl)) as (v & Hv).
    destruct IH as (vs & Hs); [intros; apply H; right; auto|]. exists (v :: vs). auto.
  Qed.


  (** The function called with the options given to [rowwise]. *)
  Lemma options_call f n a b e m cm : 4 <= n -> neqb N e (nunit N) = true -> row_of n a -> row_of n b -> fast_method m ->
    cm = CAuto \/ cm = CCompileCpu -> call f E a b e m cm = row_call f a b e.
  Proof.
    intros Hn He Ra Rb Hm Hcm. unfold row_call. rewrite !call_terms. pose proof (fast_rows n a b e Hn He Ra Rb) as Hf.
    destruct (row_1d n a Ra) as (v & Hv & Lv). destruct (row_1d n b Rb) as (w & Hw & Lw).
    destruct Ra as (Wa & Ua & La & Fa & Na). destruct Rb as (Wb & Ub & Lb & Fb & Nb). f_equal.
    assert (A : outcome (terms_avl E a b e cm (wants_var f)) = outcome (terms_avl E a b e CAuto (wants_var f))).
    { rewrite !(avl_outcome E HE a b e (wants_var f) v w); auto using together_l; try (left; left; reflexivity).
      - unfold compiles. destruct Hcm as [-> | ->]; reflexivity.
      - destruct Hcm as [-> | ->]; [left; left; reflexivity|right; repeat split; auto]. }
    destruct Hm as [-> | ->]; cbn [method_terms]; [|exact A].
    unfold terms_auto. rewrite Hf, (together_l a b) by auto. exact A.
  Qed.

  Definition optimised (mode : rowwise_mode) : Prop := mode = RWAuto \/ mode = RWOptimized.

  Lemma rowwise_optimised f x y mode kw vs : optimised mode -> rowwise_function E f x y kw = Ok (Some vs) -> outcome (rowwise E f x y mode kw) = Ok vs.
  Proof. intros [-> | ->] H; unfold rowwise; rewrite outcome_bind; cbn [outcome]; rewrite H; reflexivity. Qed.

  Lemma combine_app {A B} (a a' : list A) (b b' : list B) : length a = length b -> combine (a ++ a') (b ++ b') = combine a b ++ combine a' b'.
  Proof. revert b. induction a as [|x a IH]; intros [|y b] H; cbn in *; try discriminate; auto. f_equal. apply IH. lia. Qed.

  Lemma uniform_in (l l' : list (array T)) : (forall a, In a l -> In a l') -> uniform l' -> uniform l.
  Proof. intros H [U|U]; [left|right]; intros a Ha; apply U, H, Ha. Qed.

  Lemma real_rows_concat n (x y : list (array T)) : real_rows n x y -> uniform (x ++ y) -> real_rows n (x ++ x ++ y) (y ++ x ++ y).
  Proof.
    intros (Hne & L & Fx & Fy & _ & _) U. repeat split.
    - destruct x; [congruence|discriminate].
    - rewrite !app_length. lia.
    - repeat (apply Forall_app; split; auto).
    - repeat (apply Forall_app; split; auto).
    - eapply uniform_in; [|exact U]. intros a. rewrite !in_app_iff. tauto.
    - eapply uniform_in; [|exact U]. intros a. rewrite !in_app_iff. tauto.
  Qed.

  (** The correlation from the covariance and the two variances (_rowwise.py:66-82). *)
  Definition row_ratio (c vx vy : T) : T :=
    let q := ndiv N (ndiv N c (sqrt_clamp N vx)) (sqrt_clamp N vy) in if nisnan N q then nzero N else q.

  Lemma ratio_map c vx vy : map (fun v => if nisnan N v then nzero N else v)
    (map2 (ndiv N) (map2 (ndiv N) c (map (sqrt_clamp N) vx)) (map (sqrt_clamp N) vy))
    = map (fun t => row_ratio (fst (fst t)) (snd (fst t)) (snd t)) (combine (combine c vx) vy).
  Proof.
    unfold map2. revert vx vy. induction c as [|a c IH]; intros [|b vx] [|d vy]; cbn [map combine]; auto. cbn [fst snd]. rewrite IH. reflexivity.
  Qed.

  Lemma cor_rows unb n x y e m cm c vx vy : real_rows n x y -> uniform (x ++ y) -> 4 <= n -> neqb N e (nunit N) = true -> fast_method m -> cm <> CNoCompile ->
    Forall2 (fun p v => row_call (cov_of unb) (fst p) (snd p) e = Ok v) (combine x y) c ->
    Forall2 (fun a v => row_call (cov_of unb) a a e = Ok v) x vx -> Forall2 (fun a v => row_call (cov_of unb) a a e = Ok v) y vy ->
    rowwise_dcor_sqr E unb x y (options_of e m cm)
    = Ok (Some (map (fun t => row_ratio (fst (fst t)) (snd (fst t)) (snd t)) (combine (combine c vx) vy))).
  Proof.
    intros Hr U Hn He Hm Hcm Hc Hx Hy. pose proof (real_rows_concat n x y Hr U) as Hr2. destruct Hr as (Hne & L & Fx & Fy & Ux & Uy).
    unfold rowwise_dcor_sqr. fold N. rewrite (uniform_homogeneous n) by (auto; apply Forall_app; auto). rewrite L, Bool.eqb_reflx. cbn [andb].
    rewrite (cov_rows unb n _ _ e m cm Hr2 Hn He Hm Hcm).
    assert (S : forall l vs, Forall2 (fun a v => row_call (cov_of unb) a a e = Ok v) l vs ->
      Forall2 (fun p v => row_call (cov_of unb) (fst p) (snd p) e = Ok v) (combine l l) vs) by (induction 1; cbn; constructor; auto).
    rewrite !combine_app by (rewrite ?app_length; auto).
    rewrite (mapM_Forall2 _ _ (c ++ vx ++ vy)) by (repeat apply Forall2_app; auto). cbn [rbind].
    assert (FL : forall A B (P : A -> B -> Prop) l l', Forall2 P l l' -> length l = length l') by (induction 1; cbn; auto).
    assert (length c = length y) as L1 by (rewrite <- (FL _ _ _ _ _ Hc), combine_length; lia).
    assert (length vx = length y) as L2 by (rewrite <- (FL _ _ _ _ _ Hx); lia).
    rewrite <- ratio_map.
    rewrite firstn_app, firstn_all2, L1, Nat.sub_diag by lia. cbn [firstn]. rewrite app_nil_r.
    assert (slice (c ++ vx ++ vy) (length y) (2 * length y) = vx) as ->.
    { unfold slice. rewrite skipn_app, (skipn_all2 c) by lia. rewrite L1, Nat.sub_diag. cbn [skipn app].
      rewrite firstn_app, firstn_all2 by lia. replace (2 * length y - length y - length vx) with 0 by lia. cbn. apply app_nil_r. }
    assert (skipn (2 * length y) (c ++ vx ++ vy) = vy) as ->.
    { rewrite app_assoc, skipn_app, (skipn_all2 (c ++ vx)) by (rewrite app_length; lia). rewrite app_length.
      replace (2 * length y - (length c + length vx)) with 0 by lia. reflexivity. }
    reflexivity.
  Qed.
End RowSeq.
