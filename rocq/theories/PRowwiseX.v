(** rowwise in arithmetic with infinities and NaN, and when the optimised path is not taken: more of C34 and C35. *)
From Coq Require Import Reals Lra Lia List Arith Bool ZArith.
From Verif Require Import Num Numpy MUtils MDistances MMergesort MInternals MAvl MDcor MRowwise Sums Spec Centering Tab Samples Api
  RefDist RefDyad RefAvl RefDcor Psd Nonneg EnergyMath Empirical Invariance SpecFacts RefApi Witness PDcov PRowwise Transfer PFinite.
Import List ListNotations.
Local Open Scope R_scope.

Definition measure_x (f : api) : dep_function xR :=
  match f with
  | DcovSqr => FDcovSqr | Dcov => FDcov | DcorSqr => FDcorSqr | Dcor => FDcor | UDcovSqr => FUDcovSqr | UDcorSqr => FUDcorSqr
  end.
Definition options_x (e : R) (m : dcov_method) (cm : compile_mode) : kwargs xR := mkKw (Fin e) (MethodEnum m) cm.

Section Finite.
  Context (E : Env xR) (HE : valid_xenv E).
  Let EN : e_num E = XNum := vx_num E HE.
  Let ER := real_env E.
  Let HR : valid_env ER := real_env_valid E HE.

  Lemma fin_kernel unb x y : (4 <= length x)%nat ->
    rowwise_kernel E unb (map Fin x) (map Fin y) = rmap Fin (rowwise_kernel ER unb x y).
  Proof.
    intros Hn. unfold rowwise_kernel. rewrite (seq_env_R ER eq_refl). assert (seq_env E = E) as -> by (apply seq_env_same; rewrite EN; reflexivity).
    apply (rbind_map fin_terms); [apply (fin_avl E HE)|]. intros t _. rewrite map_length.
    cbn [fin_terms t_mean_prod t_a_axis t_a_total t_b_axis t_b_total t_kind]. apply (fin_from_terms E HE); [lia|auto].
  Qed.

  Lemma fin_homogeneous l : homogeneous (map fin l) = homogeneous l.
  Proof.
    assert (S : forall a, nd_shape (adata (fin a)) = nd_shape (adata a)).
    { intros a. cbn [fin adata]. destruct (adata a); cbn; rewrite map_length; reflexivity. }
    destruct l as [|a l]; cbn [map homogeneous]; [reflexivity|]. cbn [forallb]. rewrite !S. f_equal.
    induction l as [|b l IH]; cbn [map forallb]; [reflexivity|]. rewrite S, IH. reflexivity.
  Qed.

  Lemma fin_dcov_rows unb n x y e m cm : rows n x y ->
    rowwise_dcov_sqr E unb (map fin x) (map fin y) (options_x e m cm)
    = rmap (option_map (map Fin)) (rowwise_dcov_sqr ER unb x y (options e m cm)).
  Proof.
    intros (Hne & Hp & Ax & Ay & d & Hd & Hdt). destruct x as [|x0 x]; [congruence|]. inversion Hp as [|? y0 ? y' H0 Hp']; subst. rename y' into y.
    set (xl := x0 :: x) in *. set (yl := y0 :: y) in *.
    change (rowwise_dcov_sqr E unb (map fin xl) (map fin yl) (options_x e m cm)) with
      (if negb (can_use_fast_algorithm E (fin x0) (fin y0) (Fin e)) then Ok None else
       if method_auto_or_avl (MethodEnum m) then rowwise_avl_generic E (map fin xl) (map fin yl) unb cm else Ok None).
    change (rowwise_dcov_sqr ER unb xl yl (options e m cm)) with
      (if negb (can_use_fast_algorithm ER x0 y0 e) then Ok None else
       if method_auto_or_avl (MethodEnum m) then rowwise_avl_generic ER xl yl unb cm else Ok None).
    assert (can_use_fast_algorithm E (fin x0) (fin y0) (Fin e) = can_use_fast_algorithm ER x0 y0 e) as ->.
    { unfold can_use_fast_algorithm. rewrite !fin_shape0, EN. cbn [neqb nunit XNum xeqb ans fin adata].
      assert (Hrv : forall d, is_random_variable (fin_nd d) = is_random_variable d) by (intros []; reflexivity). rewrite !Hrv. reflexivity. }
    destruct (can_use_fast_algorithm ER x0 y0 e) eqn:Hf; cbn [negb]; [|reflexivity].
    destruct (method_auto_or_avl (MethodEnum m)); [|reflexivity].
    assert (H4 : (4 <= n)%nat).
    { unfold can_use_fast_algorithm in Hf. repeat (apply andb_prop in Hf as [Hf ?]). destruct H0 as (_ & _ & Sx & _).
      repeat match goal with H : (_ <? _)%nat = true |- _ => apply Nat.ltb_lt in H end. lia. }
    unfold rowwise_avl_generic. rewrite !fin_homogeneous. destruct (homogeneous xl); [|reflexivity]. destruct (homogeneous yl); [|reflexivity]. cbn [negb].
    assert (M : forall l, mapM (fun a : array xR => transform_to_1d (adata a)) (map fin l)
              = rmap (map (map Fin)) (mapM (fun a : array R => transform_to_1d (adata a)) l)).
    { intros l. apply (mapM_map fin (map Fin)). intros a. cbn [fin adata]. apply fin_1d. }
    rewrite !M.
    assert (Lx : forall v, mapM (fun a : array R => transform_to_1d (adata a)) xl = Ok v -> Forall (fun r => (4 <= length r)%nat) v).
    { pose proof (proj1 (proj2 (pair_lists n xl yl Hp))) as Fx. clearbody xl. clear - Fx H4. induction Fx as [|a l (Wa & Sa) Fx IH]; cbn [mapM]; intros v Hv.
      - injection Hv as <-. constructor.
      - destruct (transform_to_1d (adata a)) as [r|] eqn:Hr; cbn [rbind] in Hv; [|discriminate]. destruct (mapM _ l); [|discriminate].
        injection Hv as <-. constructor; auto. rewrite (fin_to_1d a r Wa Hr). lia. }
    apply (rbind_map (map (map Fin))); [reflexivity|]. intros xs Hxs. apply Lx in Hxs.
    apply (rbind_map (map (map Fin))); [reflexivity|]. intros ys _.
    assert (G : gufunc_types_ok (dt0 (map fin xl)) (dt0 (map fin yl)) = gufunc_types_ok (dt0 xl) (dt0 yl)) by reflexivity. rewrite G.
    assert (B : bcast_rows (length (map (map Fin) xs)) (map (map Fin) ys) = option_map (map (map Fin)) (bcast_rows (length xs) ys)).
    { unfold bcast_rows. rewrite !map_length. destruct (_ =? _)%nat; [reflexivity|]. destruct ys as [|r [|]]; cbn [map]; try reflexivity.
      cbn [option_map]. rewrite repeat_map. reflexivity. }
    rewrite B.
    assert (C : forall zs, forallb (fun p => (length (fst p) =? length (snd p))%nat) (combine (map (map Fin) xs) (map (map Fin) zs))
              = forallb (fun p => (length (fst p) =? length (snd p))%nat) (combine xs zs)).
    { clear. induction xs as [|a xs IH]; intros [|b zs]; cbn [map combine forallb]; auto. cbn [fst snd]. rewrite !map_length, IH. reflexivity. }
    assert (D : forall zs, mapM (fun p => rowwise_kernel E unb (fst p) (snd p)) (combine (map (map Fin) xs) (map (map Fin) zs))
              = rmap (map Fin) (mapM (fun p => rowwise_kernel ER unb (fst p) (snd p)) (combine xs zs))).
    { clear - Hxs HE HR EN. induction Hxs as [|a xs Ha Hxs IH]; intros [|b zs]; cbn [map combine mapM]; auto.
      cbn [fst snd]. apply (rbind_map Fin); [apply fin_kernel; auto|]. intros v _.
      apply (rbind_map (map Fin)); [apply IH|]. reflexivity. }
    assert (K : (if negb (gufunc_types_ok (dt0 xl) (dt0 yl)) then Err TypeError else
        rbind (of_option ValueError (option_map (map (map Fin)) (bcast_rows (length xs) ys))) (fun ys =>
        if forallb (fun p => (length (fst p) =? length (snd p))%nat) (combine (map (map Fin) xs) ys)
        then rbind (mapM (fun p => rowwise_kernel E unb (fst p) (snd p)) (combine (map (map Fin) xs) ys)) (fun r => Ok (Some r))
        else Err ValueError))
      = rmap (option_map (map Fin)) (if negb (gufunc_types_ok (dt0 xl) (dt0 yl)) then Err TypeError else
        rbind (of_option ValueError (bcast_rows (length xs) ys)) (fun ys =>
        if forallb (fun p => (length (fst p) =? length (snd p))%nat) (combine xs ys)
        then rbind (mapM (fun p => rowwise_kernel ER unb (fst p) (snd p)) (combine xs ys)) (fun r => Ok (Some r))
        else Err ValueError))).
    { destruct (negb _); [reflexivity|]. rewrite of_option_map. apply (rbind_map (map (map Fin))); [reflexivity|]. intros zs _.
      rewrite C. destruct (forallb _ _); [|reflexivity]. apply (rbind_map (map Fin)); [apply D|]. reflexivity. }
    destruct cm; [exact K|reflexivity|exact K|exact K].
  Qed.

  (** 0 / 0 is a NaN, which is replaced by 0: what a zero variance gives otherwise. *)
  Definition mend (v : xR) : xR := if nisnan XNum v then nzero XNum else v.
  Lemma fin_ratio c vx vy : 0 <= vx -> 0 <= vy -> c * c <= vx * vy ->
    mend (xdiv (xdiv (Fin c) (Fin (sqrt vx))) (Fin (sqrt vy))) = Fin (c / sqrt vx / sqrt vy).
  Proof.
    intros Hx Hy Hc. assert (Z : xdiv (Fin 0) (Fin 0) = NaN).
    { cbn. destruct (Reqb_spec 0 0); [|lra]. destruct (Rltb_spec 0 0); [lra|reflexivity]. }
    assert (Z' : forall a, 0 / a = 0) by (intros a; unfold Rdiv; ring).
    destruct (Req_dec vx 0) as [->|Nx].
    - assert (c = 0) as -> by nra. rewrite sqrt_0, Z, !Z'. reflexivity.
    - assert (0 < sqrt vx) by (apply sqrt_lt_R0; lra). rewrite (fin_div _ (sqrt vx)) by lra. destruct (Req_dec vy 0) as [->|Ny].
      + assert (c = 0) as -> by nra. rewrite sqrt_0, !Z', Z. reflexivity.
      + assert (0 < sqrt vy) by (apply sqrt_lt_R0; lra). rewrite fin_div by lra. reflexivity.
  Qed.

  Lemma fin_dcor_rows unb n x y e m cm : rows n x y -> all_alike (x ++ y) ->
    rowwise_dcor_sqr E unb (map fin x) (map fin y) (options_x e m cm)
    = rmap (option_map (map Fin)) (rowwise_dcor_sqr ER unb x y (options e m cm)).
  Proof.
    intros Hr Ha. unfold rowwise_dcor_sqr. rewrite <- map_app, fin_homogeneous, !map_length. rewrite (proj2 (homogeneous_spec _) Ha).
    destruct (pair_lists n x y (proj1 (proj2 Hr))) as (Hlen & _). rewrite Hlen, Bool.eqb_reflx. cbn [andb]. rewrite <- !map_app.
    rewrite (fin_dcov_rows unb n _ _ e m cm (rows_concat n x y Hr Ha)).
    destruct (rowwise_dcov_value ER HR unb n _ _ e m cm (rows_concat n x y Hr Ha)) as [H|(He & Hn4 & H)]; rewrite H; cbn [rmap rbind option_map]; [reflexivity|].
    do 2 f_equal. rewrite EN.
    rewrite !combine_app, !map_app by (rewrite ?app_length; auto).
    set (c := map _ (combine x y)). set (vx := map _ (combine x x)). set (vy := map _ (combine y y)).
    assert (length c = length y) as L1 by (unfold c; rewrite map_length, combine_length; lia).
    assert (length vx = length y) as L2 by (unfold vx; rewrite map_length, combine_length; lia).
    rewrite <- !map_app. rewrite firstn_map, slice_map, skipn_map.
    rewrite firstn_app, firstn_all2, L1, Nat.sub_diag by lia. cbn [firstn]. rewrite app_nil_r.
    assert (slice (c ++ vx ++ vy) (length y) (2 * length y) = vx) as ->.
    { unfold slice. rewrite skipn_app, (skipn_all2 c) by lia. rewrite L1, Nat.sub_diag. cbn [skipn app].
      rewrite firstn_app, firstn_all2 by lia. replace (2 * length y - length y - length vx)%nat with 0%nat by lia. cbn. apply app_nil_r. }
    assert (skipn (2 * length y) (c ++ vx ++ vy) = vy) as ->.
    { rewrite app_assoc, skipn_app, (skipn_all2 (c ++ vx)) by (rewrite app_length; lia). rewrite app_length.
      replace (2 * length y - (length c + length vx))%nat with 0%nat by lia. reflexivity. }
    unfold c, vx, vy. clear - Hr Hn4. destruct Hr as (_ & Hp & _).
    induction Hp as [|a b u v H Hp IH]; cbn [combine map map2]; [reflexivity|]. f_equal; [|exact IH]. cbn [fst snd].
    rewrite !fin_sqrt_clamp, !sqrt_clamp_R. change (ndiv XNum) with xdiv. change (ndiv (e_num ER)) with Rdiv.
    change (nisnan (e_num ER)) with (fun _ : R => false). cbn beta iota.
    apply fin_ratio.
    - unfold cov_value. destruct unb; [apply udvar_nonneg; auto|apply dvar_nonneg].
    - unfold cov_value. destruct unb; [apply udvar_nonneg; auto|apply dvar_nonneg].
    - apply cov_bound; auto.
  Qed.

  Lemma fin_optimised f n x y e m cm : rows n x y -> (is_correlation f = true -> all_alike (x ++ y)) ->
    rowwise_function E (measure_x f) (map fin x) (map fin y) (options_x e m cm)
    = rmap (option_map (map Fin)) (rowwise_function ER (measure f) x y (options e m cm)).
  Proof.
    assert (S : forall o, option_map (map (sqrt_clamp (e_num E))) (option_map (map Fin) o) = option_map (map Fin) (option_map (map (sqrt_clamp (e_num ER))) o)).
    { intros [l|]; cbn [option_map]; [|reflexivity]. f_equal. rewrite !map_map. apply map_ext. intros v. rewrite EN. apply fin_sqrt_clamp. }
    intros Hr Ha. destruct f; cbn [measure measure_x rowwise_function]; eauto using fin_dcov_rows, fin_dcor_rows.
    - unfold rowwise_dcov. apply (rbind_map (option_map (map Fin))); [eauto using fin_dcov_rows|]. intros o _. cbn [rmap]. rewrite S. reflexivity.
    - unfold rowwise_dcor. apply (rbind_map (option_map (map Fin))); [eauto using fin_dcor_rows|]. intros o _. cbn [rmap]. rewrite S. reflexivity.
  Qed.

  Lemma fin_naive_rows f n x y e m cm : Forall2 (paired n) x y -> (min_size f <= n)%nat -> 0 < e ->
    rowwise_naive E (measure_x f) (map fin x) (map fin y) (options_x e m cm)
    = mmap (map Fin) (rowwise_naive ER (measure f) x y (options e m cm)).
  Proof.
    intros Hp Hn He. unfold rowwise_naive. induction Hp as [|a b u v (Wa & Wb & Sa & Sb & _) Hp IH]; cbn [map combine mapMM]; [reflexivity|].
    cbn [fst snd]. apply (bind_map Fin).
    - pose proof (fin_call E HE e He f a b m cm Wa ltac:(lia)) as H. destruct f; exact H.
    - intros w _. apply (bind_map (map Fin)); [exact IH|]. reflexivity.
  Qed.

  Lemma fin_rowwise f n x y e m cm mode : rows n x y -> (is_correlation f = true -> all_alike (x ++ y)) -> (min_size f <= n)%nat -> 0 < e ->
    rowwise E (measure_x f) (map fin x) (map fin y) mode (options_x e m cm)
    = mmap (map Fin) (rowwise ER (measure f) x y mode (options e m cm)).
  Proof.
    intros Hr Ha Hn He. unfold rowwise. apply (bind_map (option_map (map Fin))).
    - destruct mode; try reflexivity; apply lift_map, (fin_optimised f n); auto.
    - intros [l|] _; cbn [option_map]; [reflexivity|]. destruct mode; try reflexivity; apply (fin_naive_rows f n); auto; apply Hr.
  Qed.
End Finite.

(** C34 in extended arithmetic: on finite samples, constant ones included, the same finite values whether or not the optimised
    path is taken. *)
Theorem C34_finite f E n x y e m cm : valid_xenv E -> rows n x y -> (is_correlation f = true -> all_alike (x ++ y)) ->
  (min_size f <= n)%nat -> 0 < e -> Forall2 (fun a b => accepts m cm a b e) x y ->
  exists vs, Forall2 (fun p v => call f E (fin (fst p)) (fin (snd p)) (Fin e) m cm = Ok (Fin v)) (combine x y) vs /\
    outcome (rowwise E (measure_x f) (map fin x) (map fin y) RWAuto (options_x e m cm)) = Ok (map Fin vs) /\
    outcome (rowwise E (measure_x f) (map fin x) (map fin y) RWNaive (options_x e m cm)) = Ok (map Fin vs) /\
    (outcome (rowwise E (measure_x f) (map fin x) (map fin y) RWOptimized (options_x e m cm)) = Ok (map Fin vs) \/
     outcome (rowwise E (measure_x f) (map fin x) (map fin y) RWOptimized (options_x e m cm)) = Err NotImplementedError).
Proof.
  intros HE Hr Hc Hn He Ha.
  destruct (C34_rowwise_map f (real_env E) n x y e m cm (real_env_valid E HE) Hr Hc Hn He Ha) as (vs & H & H1 & H2 & H3).
  assert (F : forall mode, outcome (rowwise E (measure_x f) (map fin x) (map fin y) mode (options_x e m cm))
            = rmap (map Fin) (outcome (rowwise (real_env E) (measure f) x y mode (options e m cm)))).
  { intros mode. rewrite (fin_rowwise E HE f n x y e m cm mode Hr Hc Hn He). destruct (rowwise (real_env E) _ _ _ _ _). reflexivity. }
  exists vs. rewrite !F, H1, H2. split; [|split; [reflexivity|split; [reflexivity|]]].
  - pose proof (pairs_in _ x y (proj1 (proj2 Hr))) as P. clear - H HE He Hn P. induction H as [|p v l vs Hp H IH]; constructor; [|inversion P; auto].
    inversion P as [|? ? (W & _ & S & _)]; subst.
    unfold call in *. rewrite (fin_call E HE e He f (fst p) (snd p) m cm W ltac:(lia)). unfold mmap, outcome in *. cbn [snd]. rewrite Hp. reflexivity.
  - destruct H3 as [->| ->]; auto.
Qed.

(** When the optimised path is taken. *)
Definition optimisable (n : nat) (x y : list (array R)) (e : R) (m : dcov_method) (cm : compile_mode) : Prop :=
  e = 1 /\ (4 <= n)%nat /\ Forall univariate (x ++ y) /\ (m = MAuto \/ m = MAvl) /\ cm <> CNoCompile.

Section When.
  Context (E : Env R) (HE : valid_env E).

  Lemma dcov_not_optimised unb n x y e m cm : rows n x y -> ~ optimisable n x y e m cm -> rowwise_dcov_sqr E unb x y (options e m cm) = Ok None.
  Proof.
    intros Hr Ho. destruct (rowwise_dcov_value E HE unb n x y e m cm Hr) as [H|(He & H4 & H)]; [exact H|]. exfalso. apply Ho. clear Ho.
    split; [exact He|]. split; [exact H4|].
    destruct Hr as (Hne & Hp & Ax & Ay & _). destruct x as [|x0 x]; [congruence|]. inversion Hp as [|? y0 ? y' H0 Hp']; subst. rename y' into y.
    set (xl := x0 :: x) in *. set (yl := y0 :: y) in *. set (r := map _ (combine xl yl)) in H. clearbody r.
    assert ((if negb (can_use_fast_algorithm E x0 y0 1) then Ok None else
      if method_auto_or_avl (MethodEnum m) then rowwise_avl_generic E xl yl unb cm else Ok None) = Ok (Some r)) as K by exact H. clear H.
    destruct (can_use_fast_algorithm E x0 y0 1) eqn:Hf; cbn [negb] in K; [|discriminate].
    unfold can_use_fast_algorithm in Hf. repeat (apply andb_prop in Hf as [Hf ?]).
    assert (univariate x0) as Ux by (unfold univariate, ncols; destruct (adata x0); cbn in Hf; auto; apply Nat.eqb_eq; auto).
    assert (univariate y0) as Uy by (unfold univariate, ncols; destruct (adata y0); cbn in *; auto; apply Nat.eqb_eq; auto).
    split; [|split].
    - apply Forall_app. split; [apply (all_univariate xl x0)|apply (all_univariate yl y0)]; auto; left; reflexivity.
    - destruct m; auto; discriminate K.
    - intros ->. destruct (method_auto_or_avl (MethodEnum m)); [|discriminate]. unfold rowwise_avl_generic in K.
      destruct (negb _); [discriminate|]. destruct (negb _); [discriminate|]. destruct (mapM _ xl); cbn [rbind] in K; [|discriminate].
      destruct (mapM _ yl); discriminate.
  Qed.

  Lemma dcor_not_optimised unb n x y e m cm : rows n x y -> all_alike (x ++ y) -> ~ optimisable n x y e m cm ->
    rowwise_dcor_sqr E unb x y (options e m cm) = Ok None.
  Proof.
    intros Hr Ha Ho. unfold rowwise_dcor_sqr. rewrite (proj2 (homogeneous_spec _) Ha).
    destruct (pair_lists n x y (proj1 (proj2 Hr))) as (Hlen & _). rewrite Hlen, Bool.eqb_reflx. cbn [andb].
    rewrite (dcov_not_optimised unb n); auto using rows_concat. intros (? & ? & U & ?). apply Ho. split; auto. split; auto. split; auto.
    rewrite Forall_forall in *. intros a Hin. apply U. rewrite !in_app_iff in *. tauto.
  Qed.

  (** Otherwise the mode AUTO does what NAIVE does, warnings included, and the mode OPTIMIZED raises NotImplementedError. *)
  Theorem C35_not_optimised f n x y e m cm : rows n x y -> (is_correlation f = true -> all_alike (x ++ y)) -> ~ optimisable n x y e m cm ->
    rowwise E (measure f) x y RWAuto (options e m cm) = rowwise E (measure f) x y RWNaive (options e m cm) /\
    outcome (rowwise E (measure f) x y RWOptimized (options e m cm)) = Err NotImplementedError.
  Proof.
    intros Hr Ha Ho.
    assert (rowwise_function E (measure f) x y (options e m cm) = Ok None) as H.
    { destruct f; cbn [measure rowwise_function]; eauto using dcov_not_optimised, dcor_not_optimised.
      - unfold rowwise_dcov. rewrite (dcov_not_optimised false n) by auto. reflexivity.
      - unfold rowwise_dcor. rewrite (dcor_not_optimised false n) by auto. reflexivity. }
    unfold rowwise. rewrite H. split; reflexivity.
  Qed.

  (** A method given as a string is not recognised by the optimised path, even 'auto' and 'avl'. *)
  Theorem C35_string_method f n x y e s cm : rows n x y -> (is_correlation f = true -> all_alike (x ++ y)) ->
    rowwise E (measure f) x y RWAuto (mkKw e (MethodStr s) cm) = rowwise E (measure f) x y RWNaive (mkKw e (MethodStr s) cm) /\
    outcome (rowwise E (measure f) x y RWOptimized (mkKw e (MethodStr s) cm)) = Err NotImplementedError.
  Proof.
    intros Hr Ha.
    assert (K : forall unb x y, rows n x y -> rowwise_dcov_sqr E unb x y (mkKw e (MethodStr s) cm) = Ok None).
    { clear. intros unb x y (Hne & Hp & _). destruct x as [|x0 x]; [congruence|]. inversion Hp; subst. cbn.
      destruct (can_use_fast_algorithm _ _ _ _); reflexivity. }
    assert (K' : forall unb, all_alike (x ++ y) -> rowwise_dcor_sqr E unb x y (mkKw e (MethodStr s) cm) = Ok None).
    { intros unb Hl. unfold rowwise_dcor_sqr. rewrite (proj2 (homogeneous_spec _) Hl).
      destruct (pair_lists n x y (proj1 (proj2 Hr))) as (Hlen & _). rewrite Hlen, Bool.eqb_reflx. cbn [andb].
      rewrite (K unb) by auto using rows_concat. reflexivity. }
    assert (rowwise_function E (measure f) x y (mkKw e (MethodStr s) cm) = Ok None) as H.
    { destruct f; cbn [measure rowwise_function]; auto.
      - unfold rowwise_dcov. rewrite K by auto. reflexivity.
      - unfold rowwise_dcor. rewrite K' by auto. reflexivity. }
    unfold rowwise. rewrite H. split; reflexivity.
  Qed.
End When.

(** A constant sample among the rows: its distance correlation is 0, in extended arithmetic too. *)
Definition cs : array R := mkArr Numpy F64 (Vec [3; 3; 3; 3; 3]).
Lemma const_rows : rows 5 [cs; xs] [ys; ys] /\ all_alike ([cs; xs] ++ [ys; ys]).
Proof.
  split.
  - split; [discriminate|]. split; [repeat constructor; cbn; auto; lia|]. split; [|split].
    + intros a b [<-|[<-|[]]] [<-|[<-|[]]]; reflexivity.
    + intros a b [<-|[<-|[]]] [<-|[<-|[]]]; reflexivity.
    + exists F64. split; auto. repeat constructor.
  - intros a b Ha Hb. cbn in Ha, Hb. repeat destruct Ha as [<-|Ha]; try tauto; repeat destruct Hb as [<-|Hb]; try tauto; reflexivity.
Qed.
Example C34_finite_meets : valid_xenv env_F /\ rows 5 [cs; xs] [ys; ys] /\ all_alike ([cs; xs] ++ [ys; ys]) /\
  Forall2 (fun a b => accepts MAuto CAuto a b 1) [cs; xs] [ys; ys] /\
  exists v, outcome (rowwise env_F (measure_x DcorSqr) (map fin [cs; xs]) (map fin [ys; ys]) RWOptimized (options_x 1 MAuto CAuto)) = Ok [Fin 0; Fin v].
Proof.
  destruct const_rows as [Hr Ha]. split; [apply env_F_valid|]. split; [exact Hr|]. split; [exact Ha|]. split; [repeat constructor; apply auto_accepts|].
  rewrite (fin_rowwise env_F env_F_valid DcorSqr 5 [cs; xs] [ys; ys] 1 MAuto CAuto RWOptimized Hr (fun _ => Ha)); [|cbn; lia|lra].
  pose proof (C34_optimised DcorSqr (real_env env_F) 5 [cs; xs] [ys; ys] MAuto CAuto RWOptimized (real_env_valid _ env_F_valid) Hr (fun _ => Ha)) as H.
  specialize (H ltac:(lia) ltac:(repeat constructor) ltac:(auto) ltac:(discriminate) ltac:(discriminate)).
  unfold mmap, outcome in *. cbn [snd]. rewrite H. cbn [combine map rmap fst snd]. eexists. do 3 f_equal.
  cbn [value]. unfold dcor2, corr. assert (dcov2 5 (distances 1 cs) (distances 1 cs) = 0) as ->.
  { unfold distances. apply dvar_zero_constant; [lia|]. intros i j Hi Hj. intros k Hk. cbn in Hk.
    do 5 (destruct i as [|i]; [do 5 (destruct j as [|j]; [destruct k; [reflexivity|lia]|]); lia|]). lia. }
  destruct (Req_EM_T _ 0) as [_|N]; [reflexivity|]. exfalso. apply N. ring.
Qed.
Example C35_meets_not_optimised : rows 5 two [ys; xs] /\ all_alike (two ++ [ys; xs]) /\
  ~ optimisable 5 two [ys; xs] 1 MMergesort CAuto /\ ~ optimisable 5 two [ys; xs] 1 MAuto CNoCompile /\ ~ optimisable 5 two [ys; xs] (1/2) MAuto CAuto /\
  optimisable 5 two [ys; xs] 1 MAuto CAuto.
Proof.
  split; [apply two_rows|]. split; [apply two_alike|]. unfold optimisable. repeat split.
  - intros (_ & _ & _ & [H|H] & _); discriminate.
  - intros (_ & _ & _ & _ & H). congruence.
  - intros (H & _). lra.
  - lia.
  - repeat constructor.
  - auto.
  - discriminate.
Qed.
