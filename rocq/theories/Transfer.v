(** On finite samples the model over the reals extended with infinities and NaN computes the
    same results as the model over the reals: no division by zero and no square root of a
    negative number occurs. *)
From Coq Require Import Reals Lra Lia List Arith Bool ZArith Permutation.
From Verif Require Import Num Numpy MUtils MDistances MInternals MMergesort MAvl MDcor Sums Spec Tab Samples Api.
Import ListNotations.
Local Open Scope R_scope.

Definition rmap {A B} (f : A -> B) (r : res A) : res B := match r with Ok a => Ok (f a) | Err e => Err e end.
Definition mmap {A B} (f : A -> B) (m : M A) : M B := (fst m, rmap f (snd m)).

Lemma rbind_map {A A' B B'} (f : A -> A') (g : B -> B') (m : res A) (m' : res A') k k' :
  m' = rmap f m -> (forall a, m = Ok a -> k' (f a) = rmap g (k a)) -> rbind m' k' = rmap g (rbind m k).
Proof. intros -> H. destruct m; cbn; auto. Qed.
Lemma bind_map {A A' B B'} (f : A -> A') (g : B -> B') (m : M A) (m' : M A') k k' :
  m' = mmap f m -> (forall a, snd m = Ok a -> k' (f a) = mmap g (k a)) -> bind m' k' = mmap g (bind m k).
Proof.
  intros -> H. destruct m as [w [a|e]]; cbn; auto. rewrite H by reflexivity. destruct (k a); reflexivity.
Qed.
Lemma lift_map {A B} (f : A -> B) r r' : r' = rmap f r -> lift r' = mmap f (lift r).
Proof. intros ->. reflexivity. Qed.
Lemma rmap_Ok {A B} (f : A -> B) a b : b = f a -> Ok b = rmap f (Ok a).
Proof. intros ->. reflexivity. Qed.
Lemma of_option_map {A B} (f : A -> B) e o : of_option e (option_map f o) = rmap f (of_option e o).
Proof. destruct o; reflexivity. Qed.

(** ** Lists *)

Lemma map2_maps {A B C A' B' C'} (f : A -> A') (g : B -> B') (h : C -> C') op op' l k :
  (forall a b, op' (f a) (g b) = h (op a b)) -> map2 op' (map f l) (map g k) = map h (map2 op l k).
Proof.
  intros H. unfold map2. revert k. induction l as [|a l IH]; intros [|b k]; cbn; auto. rewrite H, IH. reflexivity.
Qed.
Lemma map2_maps_r {A B C B' C'} (g : B -> B') (h : C -> C') (op : A -> B -> C) op' l k :
  (forall a b, op' a (g b) = h (op a b)) -> map2 op' l (map g k) = map h (map2 op l k).
Proof. intros H. rewrite <- (map_id l) at 1. apply map2_maps. auto. Qed.
Lemma map_maps {A B A' B'} (f : A -> A') (g : B -> B') op op' l :
  (forall a, op' (f a) = g (op a)) -> map op' (map f l) = map g (map op l).
Proof. intros H. rewrite !map_map. apply map_ext. auto. Qed.
Lemma upd_map {A B} (f : A -> B) l i v : upd (map f l) i (f v) = map f (upd l i v).
Proof. revert i. induction l as [|a l IH]; intros [|i]; cbn; auto. rewrite IH. reflexivity. Qed.
Lemma scatter_map {A B} (f : A -> B) l idx vals : scatter (map f l) idx (map f vals) = map f (scatter l idx vals).
Proof.
  revert l vals. induction idx as [|i idx IH]; intros l [|v vals]; cbn; auto. rewrite upd_map. apply IH.
Qed.
Lemma take_map {A B} (f : A -> B) d l idx : take (f d) (map f l) idx = map f (take d l idx).
Proof. unfold take. rewrite map_map. apply map_ext. intros. apply map_nth. Qed.
Lemma take_chk_map {A B} (f : A -> B) e l idx : take_chk e (map f l) idx = rmap (map f) (take_chk e l idx).
Proof.
  induction idx as [|i idx IH]; cbn; auto. rewrite nth_error_map, IH.
  destruct (nth_error l i), (take_chk e l idx); reflexivity.
Qed.
Lemma slice_map {A B} (f : A -> B) l lo hi : slice (map f l) lo hi = map f (slice l lo hi).
Proof. unfold slice. rewrite skipn_map, firstn_map. reflexivity. Qed.
Lemma repeat_map {A B} (f : A -> B) a n : repeat (f a) n = map f (repeat a n).
Proof. induction n; cbn; congruence. Qed.
Lemma take_chk_len {A} e (l : list A) idx r : take_chk e l idx = Ok r -> length r = length idx.
Proof.
  revert r. induction idx as [|i idx IH]; cbn; intros r; [intros [= <-]; reflexivity|].
  destruct (nth_error l i); [|discriminate]. destruct (take_chk e l idx); [|discriminate].
  intros [= <-]. cbn. rewrite (IH _ eq_refl). reflexivity.
Qed.
Lemma map_len_const {A B C} (c : C) (l : list A) (k : list B) : length l = length k -> map (fun _ => c) l = map (fun _ => c) k.
Proof. revert k. induction l; intros [|b k]; cbn; intros; try discriminate; f_equal; auto. Qed.

Lemma scatter_indep {A} n (l l' : list A) p v (d : A) : is_perm n p -> length l = n -> length l' = n -> length v = n ->
  scatter l p v = scatter l' p v.
Proof.
  intros Hp Hl Hl' Hv. apply (nth_ext _ _ d d); rewrite ?scatter_length; [lia|].
  intros i Hi. rewrite Hl in Hi. pose proof (is_perm_length n p Hp) as Lp.
  assert (Hin : In i p) by (apply (Permutation_in _ (Permutation_sym Hp)), in_seq; lia).
  destruct (In_nth p i 0%nat Hin) as (k & Hk & <-).
  rewrite !scatter_nth; auto; try lia; eauto using is_perm_NoDup; intros j Hj; rewrite ?Hl, ?Hl'; eapply is_perm_In; eauto.
Qed.

(** ** Finite numbers *)

Lemma fin_add a b : xadd (Fin a) (Fin b) = Fin (a + b). Proof. reflexivity. Qed.
Lemma fin_sub a b : xsub (Fin a) (Fin b) = Fin (a - b). Proof. reflexivity. Qed.
Lemma fin_mul a b : xmul (Fin a) (Fin b) = Fin (a * b). Proof. reflexivity. Qed.
Lemma fin_div a b : b <> 0 -> xdiv (Fin a) (Fin b) = Fin (a / b).
Proof. intros. cbn. destruct (Reqb_spec b 0); auto; lra. Qed.
Lemma fin_ltb a b : xltb (Fin a) (Fin b) = Rltb a b.
Proof.
  unfold xltb; cbn. destruct (Rleb_spec a b), (Reqb_spec a b), (Rltb_spec a b); cbn; auto; lra.
Qed.
Lemma fin_sqrt a : 0 <= a -> xsqrt (Fin a) = Fin (sqrt a).
Proof. intros. cbn. destruct (Rltb_spec a 0); auto; lra. Qed.
Lemma fin_sqrt_clamp a : sqrt_clamp XNum (Fin a) = Fin (sqrt_clamp RNum a).
Proof.
  unfold sqrt_clamp. cbn [nsqrt nltb nzero XNum RNum]. rewrite fin_ltb.
  destruct (Rltb_spec a 0); apply fin_sqrt; lra.
Qed.
Lemma fin_pow a e : 0 <= a -> 0 < e -> xpow (Fin a) (Fin e) = Fin (Rpow_py a e).
Proof.
  intros Ha He. cbn. destruct (Reqb_spec e 0); [lra|]. destruct (Rltb_spec a 0); [lra|].
  destruct (Reqb_spec a 0) as [->|].
  - destruct (Rltb_spec e 0); [lra|]. f_equal. unfold Rpow_py. destruct (Req_EM_T e 0); [lra|].
    destruct (Rle_dec 0 0); lra.
  - reflexivity.
Qed.

(** ** Sums *)

Lemma fin_sum l : np_sum XNum (map Fin l) = Fin (np_sum RNum l).
Proof.
  change (fold_left xadd (map Fin l) (Fin 0) = Fin (fold_left Rplus l 0)). generalize 0. induction l as [|a l IH]; intros z; cbn [map fold_left]; auto.
  rewrite fin_add. apply IH.
Qed.
Lemma fin_cumsum l : np_cumsum XNum (map Fin l) = map Fin (np_cumsum RNum l).
Proof.
  unfold np_cumsum. cbn [nzero XNum RNum]. generalize 0. induction l as [|a l IH]; intros z; cbn; auto. rewrite IH. reflexivity.
Qed.
Lemma fin_map2 opx opr l k : (forall a b, opx (Fin a) (Fin b) = Fin (opr a b)) ->
  map2 opx (map Fin l) (map Fin k) = map Fin (map2 opr l k).
Proof. apply map2_maps. Qed.
Lemma fin_ndot a b : ndot XNum (map Fin a) (map Fin b) = Fin (ndot RNum a b).
Proof.
  change (np_sum XNum (map2 xmul (map Fin a) (map Fin b)) = Fin (np_sum RNum (map2 Rmult a b))).
  rewrite (fin_map2 xmul Rmult) by reflexivity. apply fin_sum.
Qed.
Lemma fin_dot a b : np_dot XNum (map Fin a) (map Fin b) = rmap Fin (np_dot RNum a b).
Proof.
  unfold np_dot. rewrite !map_length. destruct (length a =? length b)%nat; cbn [rmap]; auto.
  rewrite fin_ndot. reflexivity.
Qed.
Lemma fin_mean l : l <> [] -> np_mean XNum (map Fin l) = Fin (np_mean RNum l).
Proof.
  intros H. unfold np_mean, nofnat. rewrite fin_sum, map_length. cbn [ndiv nofZ XNum RNum]. apply fin_div.
  destruct l; [congruence|]. apply not_0_IZR. cbn [length]. lia.
Qed.
Lemma fin_var l : l <> [] -> np_var XNum (map Fin l) = Fin (np_var RNum l).
Proof.
  intros H. unfold np_var. rewrite fin_mean by auto.
  rewrite (map_maps Fin Fin (fun v => (v - np_mean RNum l) * (v - np_mean RNum l))) by reflexivity.
  apply fin_mean. destruct l; [congruence|discriminate].
Qed.

(** ** Environments *)

(** The extended model: argsort sorts finite values, np.empty has the right size. *)
Record valid_xenv (E : Env xR) : Prop := {
  vx_num : e_num E = XNum;
  vx_argsort : forall l, sorts l (e_argsort E (map Fin l));
  vx_empty : forall n, length (e_empty E n) = n }.

(** The real model with the same external routines, on finite values. *)
Definition xtor (x : xR) : R := match x with Fin r => r | _ => 0 end.
Definition real_env (E : Env xR) : Env R :=
  mkEnv R RNum (fun l => e_argsort E (map Fin l)) (fun n => repeat 0 n)
    (fun m => let (v, w) := e_eigh E (map (map Fin) m) in (map xtor v, map (map xtor) w))
    (fun t df => xtor (e_tcdf E (Fin t) (Fin df))) (e_nsp_is_np E).

Lemma real_env_valid E : valid_xenv E -> valid_env (real_env E).
Proof. intros [A B C]. split; cbn; auto. intros. apply repeat_length. Qed.

(** A finite array. *)
Definition fin_nd (d : nd R) : nd xR := match d with Vec v => Vec (map Fin v) | Mat c rows => Mat c (map (map Fin) rows) end.
Definition fin (x : array R) : array xR := mkArr (ans x) (adt x) (fin_nd (adata x)).

Lemma fin_shape0 x : shape0 (fin x) = shape0 x.
Proof. unfold shape0, fin; cbn. destruct (adata x); cbn; apply map_length. Qed.
Lemma fin_1d d : transform_to_1d (fin_nd d) = rmap (map Fin) (transform_to_1d d).
Proof. destruct d as [v|c rows]; cbn; auto. destruct (c =? 1)%nat; cbn; auto. rewrite <- concat_map. reflexivity. Qed.
Lemma fin_2d d : transform_to_2d (fin_nd d) = (fst (transform_to_2d d), map (map Fin) (snd (transform_to_2d d))).
Proof. destruct d as [v|c rows]; cbn; auto. rewrite !map_map. reflexivity. Qed.

Section Transfer.
  Context (E : Env xR) (HE : valid_xenv E).
  Let EN : e_num E = XNum := vx_num E HE.
  Let ER := real_env E.

  (** *** distances.py *)

  Lemma fin_sq_norm u v : sq_norm E (map Fin u) (map Fin v) = Fin (sq_norm ER u v).
  Proof.
    unfold sq_norm. rewrite EN. rewrite (fin_map2 _ (fun a b => (a - b) * (a - b))) by reflexivity.
    apply fin_sum.
  Qed.
  Lemma sq_norm_nonneg u v : 0 <= sq_norm ER u v.
  Proof.
    unfold sq_norm. cbn [e_num ER real_env]. rewrite np_sum_lsum.
    unfold map2. induction (combine u v) as [|[a b] l IH]; cbn [map lsum fold_right fst snd]; [cbn; lra|].
    pose proof (Rle_0_sqr (a - b)) as H. unfold Rsqr in H. apply Rplus_le_le_0_compat; [exact H|exact IH].
  Qed.

  Context (e : R) (He : 0 < e).

  Lemma fin_half : half E (Fin e) = Fin (half ER e).
  Proof. unfold half. rewrite EN. cbn [ndiv nofZ XNum]. rewrite fin_div by lra. reflexivity. Qed.
  Lemma half_pos : 0 < half ER e.
  Proof. unfold half; cbn. lra. Qed.
  Lemma fin_dist_power d s : 0 <= s -> dist_power E d (Fin s) (Fin e) = Fin (dist_power ER d s e).
  Proof.
    intros Hs. pose proof half_pos. unfold dist_power. rewrite fin_half, EN.
    destruct d as [| | | | |[|]]; try (apply fin_pow; auto).
    cbn [npow XNum]. rewrite fin_pow by auto. apply fin_sqrt_clamp.
  Qed.
  Lemma fin_bcast n u : bcast_row n (map Fin u) = map Fin (bcast_row n u).
  Proof. destruct u as [|a [|b u]]; cbn; auto. apply repeat_map. Qed.

  Lemma fin_cdist_naive d cx x cy y : cdist_naive E d cx (map (map Fin) x) cy (map (map Fin) y) (Fin e)
    = rmap (map (map Fin)) (cdist_naive ER d cx x cy y e).
  Proof.
    unfold cdist_naive. destruct ((cx =? cy) || (cx =? 1) || (cy =? 1))%bool; cbn [rmap]; auto. f_equal.
    apply map_maps. intros yi. apply map_maps. intros xj. rewrite !fin_bcast, fin_sq_norm.
    apply fin_dist_power, sq_norm_nonneg.
  Qed.
  Lemma fin_cdist_scipy cx x cy y : cdist_scipy E cx (map (map Fin) x) cy (map (map Fin) y) (Fin e)
    = rmap (map (map Fin)) (cdist_scipy ER cx x cy y e).
  Proof.
    unfold cdist_scipy. destruct (cx =? cy)%nat; cbn [rmap]; auto. f_equal.
    apply map_maps. intros xi. apply map_maps. intros yj. rewrite fin_sq_norm, fin_half, EN.
    cbn [neqb nunit XNum xeqb]. pose proof half_pos. pose proof (sq_norm_nonneg xi yj).
    change (neqb (e_num ER) e (nunit (e_num ER))) with (Reqb e 1).
    destruct (Reqb e 1); [apply fin_sqrt|apply fin_pow]; auto.
  Qed.
  Lemma fin_can s d : can_be_numpy_double E s d = can_be_numpy_double ER s d.
  Proof. reflexivity. Qed.
  Lemma fin_pairwise x y : pairwise_distances E (fin x) (option_map fin y) (Fin e)
    = rmap (map (map Fin)) (pairwise_distances ER x y e).
  Proof.
    unfold pairwise_distances. destruct y as [y|]; cbn [option_map]; unfold fin; cbn [adata ans adt]; rewrite !fin_2d.
    - destruct (transform_to_2d (adata x)) as [cx rx], (transform_to_2d (adata y)) as [cy ry]. cbn [fst snd].
      unfold cdist. rewrite !fin_can. destruct (_ && _)%bool; [apply fin_cdist_scipy|apply fin_cdist_naive].
    - destruct (transform_to_2d (adata x)) as [cx rx]. cbn [fst snd].
      unfold pdist. rewrite !fin_can. destruct (can_be_numpy_double _ _ _); [apply fin_cdist_scipy|apply fin_cdist_naive].
  Qed.

  (** *** _dcor_internals.py *)

  Definition fin_terms (t : terms (T:=R)) : terms (T:=xR) :=
    mkTerms (Fin (t_mean_prod t)) (map Fin (t_a_axis t)) (Fin (t_a_total t)) (map Fin (t_b_axis t)) (Fin (t_b_total t))
      (option_map Fin (t_mp_a t)) (option_map Fin (t_mp_b t)) (t_kind t) (t_vkind t).

  Lemma fin_check : check_valid_dcov_exponent E (Fin e) = check_valid_dcov_exponent ER e.
  Proof.
    unfold check_valid_dcov_exponent, exponent_in_range. rewrite EN. cbn [nltb nzero nofZ XNum]. rewrite !fin_ltb. reflexivity.
  Qed.

  Lemma fin_sums a : symmetric_matrix_sums E (map (map Fin) a) =
    (map Fin (fst (symmetric_matrix_sums ER a)), Fin (snd (symmetric_matrix_sums ER a))).
  Proof.
    unfold symmetric_matrix_sums, row_sums. rewrite EN. cbn [fst snd].
    rewrite (map_maps (map Fin) Fin (np_sum RNum)) by (intros; apply fin_sum). f_equal. apply fin_sum.
  Qed.

  Lemma fin_naive x y cm rv : dcov_terms_naive E (fin x) (fin y) (Fin e) cm rv = mmap fin_terms (dcov_terms_naive ER x y e cm rv).
  Proof.
    unfold dcov_terms_naive. destruct cm; auto.
    all: apply (bind_map (fun ab => (map (map Fin) (fst ab), map (map Fin) (snd ab)))).
    1, 3: unfold compute_distances; rewrite fin_check;
      apply (bind_map (fun x => x)); [destruct (check_valid_dcov_exponent ER e) as [w [?|?]]; reflexivity|];
      intros _ _; apply (bind_map (map (map Fin))); [apply lift_map, (fin_pairwise x None)|];
      intros a _; apply (bind_map (map (map Fin))); [apply lift_map, (fin_pairwise y None)|]; intros b _; reflexivity.
    all: intros [a b] _; cbn [fst snd]; rewrite <- !concat_map;
      apply (bind_map Fin); [apply lift_map; rewrite EN; apply fin_dot|]; intros mp _;
      rewrite !fin_sums; destruct (symmetric_matrix_sums ER a) as [aa at_], (symmetric_matrix_sums ER b) as [ba bt]; cbn [fst snd];
      unfold ret, mmap; cbn [fst snd rmap]; unfold fin_terms; cbn;
      rewrite EN, !fin_ndot; destruct rv; reflexivity.
  Qed.

  Lemma fin_from_terms k mp aa at_ ba bt n (bc : bool) : (1 <= n)%nat -> (bc = true -> (4 <= n)%nat) ->
    dcov_from_terms E k (Fin mp) (map Fin aa) (Fin at_) (map Fin ba) (Fin bt) n bc
    = rmap Fin (dcov_from_terms ER k mp aa at_ ba bt n bc).
  Proof.
    intros Hn Hbc. unfold dcov_from_terms. rewrite EN. cbn [e_num ER real_env].
    assert (Hz : IZR (Z.of_nat n) <> 0) by (apply not_0_IZR; lia).
    rewrite (map_maps Fin Fin (fun v => v / IZR (Z.of_nat n))) by (intros; cbn [ndiv nofZ XNum]; apply fin_div; auto).
    apply (rbind_map Fin); [apply fin_dot|]. intros s _.
    match goal with |- (if ?b then _ else _) = _ => destruct b; cbn [rmap]; auto end.
    f_equal. cbn [ndiv nmul nsub nadd nofZ XNum RNum].
    rewrite !(fin_div _ (IZR (Z.of_nat n))) by auto.
    rewrite !fin_mul, !fin_div, !fin_mul, !fin_sub, !fin_add; auto.
    all: apply not_0_IZR; destruct bc; [specialize (Hbc eq_refl)|clear Hbc]; try (apply Z.pow_nonzero; lia); nia.
  Qed.

  (** *** _fast_dcov_avl.py *)

  Lemma fin_zget oob s p : zget oob (map Fin s) p = rmap Fin (zget oob s p).
  Proof.
    unfold zget. rewrite map_length. destruct (pyidx (length s) p); cbn; auto.
    rewrite nth_error_map. apply of_option_map.
  Qed.
  Lemma fin_zset oob s p v : zset oob (map Fin s) p (Fin v) = rmap (map Fin) (zset oob s p v).
  Proof. unfold zset. rewrite map_length. destruct (pyidx (length s) p); cbn; auto. rewrite upd_map. reflexivity. Qed.
  Lemma fin_zgets oob s ps : zgets oob (map Fin s) ps = rmap (map Fin) (zgets oob s ps).
  Proof.
    induction ps as [|p ps IH]; cbn [zgets]; auto.
    apply (rbind_map Fin); [apply fin_zget|]. intros v _. apply (rbind_map (map Fin)); [apply IH|]. intros vs _. reflexivity.
  Qed.
  Lemma fin_zsets oob ps : forall s vs, zsets oob (map Fin s) ps (map Fin vs) = rmap (map Fin) (zsets oob s ps vs).
  Proof.
    induction ps as [|p ps IH]; intros s [|v vs]; cbn [zsets map]; auto.
    apply (rbind_map (map Fin)); [apply fin_zset|]. intros s' _. apply IH.
  Qed.
  Definition fin2 (p : list R * list R) : list xR * list xR := (map Fin (fst p), map Fin (snd p)).
  Lemma fin_dyad_loop oob L ps y : forall c s,
    dyad_loop XNum oob L ps y (map Fin c) (map Fin s) = rmap fin2 (dyad_loop RNum oob L ps y c s).
  Proof.
    induction y as [|yi y IH]; intros [|ci c] s; cbn [dyad_loop map]; auto.
    apply (rbind_map (map Fin)); [apply fin_zgets|]. intros sb _.
    apply (rbind_map (map Fin)); [apply fin_zgets|]. intros sa _.
    apply (rbind_map (map Fin)).
    { rewrite (map_maps Fin Fin (fun v => v + ci)) by reflexivity. apply fin_zsets. }
    intros s' _. apply (rbind_map fin2); [apply IH|]. intros [g s''] _. unfold fin2; cbn. rewrite fin_sum. reflexivity.
  Qed.
  Lemma zeros_eq (sx : list xR) (sr : list R) : length sx = length sr ->
    map (fun _ => nzero XNum) sx = map Fin (map (fun _ => nzero RNum) sr).
  Proof. intros H. rewrite map_map. cbn. apply map_len_const. auto. Qed.
  Lemma fin_dyad_update oob y c L sx sr ps : length sx = length sr ->
    dyad_update XNum oob y (map Fin c) L sx ps = rmap fin2 (dyad_update RNum oob y c L sr ps).
  Proof. intros H. unfold dyad_update. rewrite (zeros_eq sx sr) by auto. apply fin_dyad_loop. Qed.
  Lemma fin_update_levels oob ps y ci ls : forall s,
    update_levels XNum oob ps y (Fin ci) ls (map Fin s) = rmap (map Fin) (update_levels RNum oob ps y ci ls s).
  Proof.
    induction ls as [|l ls IH]; intros s; cbn [update_levels]; auto.
    apply (rbind_map Fin); [apply fin_zget|]. intros v _.
    apply (rbind_map (map Fin)); [apply (fin_zset oob s _ (v + ci))|]. intros s' _. apply IH.
  Qed.
  Lemma fin_gamma_levels oob ps y ls s : forall g,
    gamma_levels XNum oob ps y ls (map Fin s) (Fin g) = rmap Fin (gamma_levels RNum oob ps y ls s g).
  Proof.
    induction ls as [|l ls IH]; intros g; cbn [gamma_levels]; auto. destruct (valid_3b y l); auto.
    apply (rbind_map Fin); [apply fin_zget|]. intros v _. apply (IH (g + v)).
  Qed.
  Lemma fin_compiled_loop oob L ps y : forall yp cp c g s,
    dyad_compiled_loop XNum oob L ps yp (Fin cp) y (map Fin c) (map Fin g) (map Fin s)
    = rmap fin2 (dyad_compiled_loop RNum oob L ps yp cp y c g s).
  Proof.
    induction y as [|yi y IH]; intros yp cp [|ci c] [|gi g] s; cbn [dyad_compiled_loop map]; auto.
    apply (rbind_map (map Fin)); [apply fin_update_levels|]. intros s' _.
    apply (rbind_map Fin); [apply fin_gamma_levels|]. intros gi' _.
    apply (rbind_map fin2); [apply IH|]. intros [g' s''] _. reflexivity.
  Qed.
  Lemma fin_dyad_compiled oob y c g L sx sr ps : length sx = length sr ->
    dyad_update_compiled XNum oob y (map Fin c) (map Fin g) L sx ps
    = rmap fin2 (match y, c, g with
                 | y0 :: y', c0 :: c', g0 :: gamma' => dyad_update_compiled RNum oob y c g L sr ps
                 | _, _, _ => Ok ([], map (fun _ => 0) sr) end).
  Proof.
    intros H. unfold dyad_update_compiled. rewrite (zeros_eq sx sr) by auto.
    destruct y as [|y0 y], c as [|c0 c], g as [|g0 g]; cbn [map]; auto.
    apply (rbind_map fin2); [apply fin_compiled_loop|]. intros [g' s'] _. reflexivity.
  Qed.

  Lemma fin_partial_sum oob comp y c ix iy sx sy cs L s0 s0' ps g : length s0 = length s0' ->
    partial_sum_2d XNum oob comp y (map Fin c) ix iy (map Fin sx) (map Fin sy) (Fin cs) L s0 ps (map Fin g)
    = rmap fin2 (partial_sum_2d RNum oob comp y c ix iy sx sy cs L s0' ps g).
  Proof.
    intros Hs. unfold partial_sum_2d.
    assert (H : (if comp then dyad_update_compiled XNum oob y (map Fin c) (map Fin g) L s0 ps
                 else dyad_update XNum oob y (map Fin c) L s0 ps)
             = rmap fin2 (if comp then dyad_update_compiled RNum oob y c g L s0' ps
                          else dyad_update RNum oob y c L s0' ps)).
    { destruct comp; [|apply fin_dyad_update; auto]. rewrite (fin_dyad_compiled oob y c g L s0 s0') by auto.
      f_equal. destruct y, c, g; reflexivity. }
    apply (rbind_map fin2 fin2 _ _ _ _ H). intros [gam s'] _. unfold fin2; cbn [fst snd rmap].
    do 2 f_equal.
    rewrite (map_maps Fin Fin (fun v => cs - v)) by reflexivity.
    change (nzero XNum) with (Fin 0). rewrite (take_map Fin).
    rewrite !(fin_map2 _ (fun a b => a - 2 * b)) by reflexivity.
    rewrite (fin_map2 _ (fun a b => a + 4 * b)) by reflexivity. apply (take_map Fin).
  Qed.

  Definition fin_args (g : impl_args (T:=R)) (s : list xR) : impl_args (T:=xR) :=
    mkArgs (map Fin (g_x g)) (map Fin (g_y g)) (g_ix g) (g_iy g) (map Fin (g_vx g)) (map Fin (g_vy g)) (g_iy_reord g)
      (map (map Fin) (g_c g)) (map (map Fin) (g_sx_c g)) (map (map Fin) (g_sy_c g)) (map Fin (g_c_sum g)) (g_l_max g) s
      (g_pos_sums g) (map (map Fin) (g_gamma g)).

  Lemma fin_args_ok x y : get_impl_args E (map Fin x) (map Fin y)
    = rmap (fun g => fin_args g (e_empty E (2 ^ (Nat.log2_up (length x) + 1)))) (get_impl_args ER x y).
  Proof.
    unfold get_impl_args. rewrite !map_length. rewrite EN.
    destruct (negb (3 <? length x)); [reflexivity|]. destruct (negb (length x =? length y)); [reflexivity|].
    cbn [rmap]. f_equal. unfold fin_args. cbn [e_argsort ER real_env e_num nzero nunit XNum RNum g_x g_y g_ix g_iy g_vx g_vy
      g_iy_reord g_c g_sx_c g_sy_c g_c_sum g_l_max g_pos_sums g_gamma].
    assert (Hexcl : forall l, map2 (nsub XNum) (np_cumsum XNum (map Fin l)) (map Fin l) = map Fin (map2 Rminus (np_cumsum RNum l) l)).
    { intros l. rewrite fin_cumsum. apply fin_map2. reflexivity. }
    rewrite (fin_map2 (nmul XNum) Rmult) by reflexivity. rewrite !(take_map Fin). cbn [map].
    rewrite (map_map Fin (fun _ => Fin 1)), <- (map_map (fun _ => 1) Fin). rewrite !(take_map Fin), !Hexcl, !fin_sum.
    rewrite !map_map. reflexivity.
  Qed.

  Lemma fin_partial_sums comp oob new_y g s0 (is_ : list nat) : forall s s', length s = length s' ->
    partial_sums E comp oob new_y (fin_args g s0) s is_ = rmap (map (map Fin)) (partial_sums ER comp oob new_y g s' is_).
  Proof.
    induction is_ as [|i is_ IH]; intros s s' Hs; cbn [partial_sums]; auto.
    apply (rbind_map fin2).
    - rewrite EN. cbn [fin_args g_c g_ix g_iy_reord g_sx_c g_sy_c g_c_sum g_l_max g_pos_sums g_gamma e_num ER real_env].
      change [] with (map Fin []) at 1 2 3 4. rewrite !map_nth.
      cbn [nzero XNum RNum]. rewrite (map_nth Fin). apply fin_partial_sum. auto.
    - intros [gam s1] _. unfold fin2; cbn [fst snd].
      apply (rbind_map (map (map Fin))); [|intros rest _; reflexivity].
      apply IH. apply map_length.
  Qed.

  Lemma fin_beta v ix : avl_beta E (map Fin v) ix = map Fin (avl_beta ER v ix).
  Proof.
    unfold avl_beta. rewrite EN, fin_cumsum. change (nzero XNum) with (Fin 0). rewrite !(take_map Fin).
    apply fin_map2. reflexivity.
  Qed.
  Lemma fin_row_sums x alpha beta : avl_row_sums E (map Fin x) alpha (map Fin beta) = map Fin (avl_row_sums ER x alpha beta).
  Proof.
    unfold avl_row_sums. rewrite EN, map_length, fin_sum.
    rewrite (map2_maps_r Fin Fin (fun a v => np_sum RNum x + IZR (2 * Z.of_nat a - Z.of_nat (length x)) * v)) by reflexivity.
    apply fin_map2. reflexivity.
  Qed.
  Lemma fin_total x alpha beta : avl_total E (map Fin x) alpha (map Fin beta) = Fin (avl_total ER x alpha beta).
  Proof.
    unfold avl_total. rewrite EN.
    rewrite (map2_maps_r Fin Fin (fun a v => IZR (Z.of_nat a) * v)) by reflexivity. rewrite !fin_sum. reflexivity.
  Qed.

  Lemma fin_avl comp oob k kv x y rv :
    terms_avl_impl E comp oob k kv (map Fin x) (map Fin y) rv = rmap fin_terms (terms_avl_impl ER comp oob k kv x y rv).
  Proof.
    unfold terms_avl_impl. rewrite fin_args_ok.
    destruct (get_impl_args ER x y) as [g|ex] eqn:Hg; cbn [rmap rbind]; auto.
    assert (Hlen : (4 <= length x)%nat /\ length x = length y /\ length (g_s g) = (2 ^ (Nat.log2_up (length x) + 1))%nat).
    { unfold get_impl_args in Hg. destruct (Nat.ltb_spec 3 (length x)); cbn [negb] in Hg; [|discriminate].
      destruct (Nat.eqb_spec (length x) (length y)); cbn [negb] in Hg; [|discriminate].
      injection Hg as <-. cbn [g_s]. split; [lia|]. split; auto. apply repeat_length. }
    destruct Hlen as (H4 & Hxy & Hs).
    cbn [fin_args g_ix g_iy g_vx g_vy g_iy_reord g_s]. rewrite !fin_beta, !fin_row_sums, !fin_total, !map_length.
    apply (rbind_map (map (map Fin))).
    { apply fin_partial_sums. rewrite Hs. apply (vx_empty E HE). }
    intros gs _. cbn [rmap]. f_equal. rewrite EN. unfold fin_terms. cbn [t_mean_prod t_a_axis t_a_total t_b_axis t_b_total t_mp_a t_mp_b t_kind t_vkind].
    change (@nil xR) with (map Fin []). rewrite !(map_nth (map Fin)).
    rewrite !(fin_map2 (nmul XNum) Rmult) by reflexivity. rewrite !(fin_map2 (nadd XNum) Rplus) by reflexivity.
    rewrite !(fin_map2 (nsub XNum) Rminus) by reflexivity. rewrite fin_sum.
    assert (x <> []) by (intros ->; cbn in H4; lia). assert (y <> []) by (intros ->; cbn in *; lia).
    rewrite !fin_var by auto. destruct rv; reflexivity.
  Qed.

  (** *** _fast_dcov_mergesort.py *)

  Definition fin_ms (st : mstate (T:=R)) : mstate (T:=xR) := mkMS (ms_cur st) (ms_idx st) (map (map Fin) (ms_ws st)).

  Lemma fin_push oob st v ws : push oob (fin_ms st) v (map (map Fin) ws) = rmap fin_ms (push oob st v ws).
  Proof. unfold push. cbn [fin_ms ms_idx ms_cur]. destruct (ms_idx st <? length (ms_cur st)); reflexivity. Qed.
  Lemma fin_rd {A B} oob (f : A -> B) l i : rd oob (map f l) i = rmap f (rd oob l i).
  Proof. unfold rd. rewrite nth_error_map. apply of_option_map. Qed.
  Lemma fin_add_weight oob p hi lo row cums :
    add_weight E oob p hi lo (map Fin row) (map Fin cums) = rmap (map Fin) (add_weight ER oob p hi lo row cums).
  Proof.
    unfold add_weight. apply (rbind_map Fin); [apply fin_rd|]. intros w _.
    apply (rbind_map Fin); [apply fin_rd|]. intros chi _. apply (rbind_map Fin); [apply fin_rd|]. intros clo _.
    cbn [rmap]. f_equal. rewrite EN. apply (upd_map Fin row p (w + (chi - clo))).
  Qed.
  Lemma fin_add_weights oob p hi lo ws : forall cums,
    add_weights E oob p hi lo (map (map Fin) ws) (map (map Fin) cums) = rmap (map (map Fin)) (add_weights ER oob p hi lo ws cums).
  Proof.
    induction ws as [|row ws IH]; intros [|cs cums]; cbn [add_weights map]; auto.
    apply (rbind_map (map Fin)); [apply fin_add_weight|]. intros r _. apply (rbind_map (map (map Fin))); [apply IH|]. reflexivity.
  Qed.
  Definition fin_ml (p : nat * nat * mstate (T:=R)) : nat * nat * mstate (T:=xR) := let '(a, b, st) := p in (a, b, fin_ms st).
  Lemma fin_merge_loop oob c_ok fuel y prev cums : forall s1 last1 s2 last2 st,
    merge_loop E oob c_ok fuel (map Fin y) prev (map (map Fin) cums) s1 last1 s2 last2 (fin_ms st)
    = rmap fin_ml (merge_loop ER oob c_ok fuel y prev cums s1 last1 s2 last2 st).
  Proof.
    induction fuel as [|fuel IH]; intros; cbn [merge_loop]; destruct ((s1 <=? last1) && (s2 <=? last2))%bool; auto.
    apply (rbind_map (fun p => p)); [destruct (rd oob prev s1); reflexivity|]. intros p1 _.
    apply (rbind_map (fun p => p)); [destruct (rd oob prev s2); reflexivity|]. intros p2 _.
    apply (rbind_map Fin); [apply fin_rd|]. intros y1 _. apply (rbind_map Fin); [apply fin_rd|]. intros y2 _.
    rewrite EN. cbn [nleb XNum xleb e_num ER real_env RNum]. destruct (Rleb y2 y1).
    - apply (rbind_map fin_ms); [apply fin_push|]. intros st' _. apply IH.
    - destruct c_ok; auto. apply (rbind_map (map (map Fin))); [apply fin_add_weights|]. intros ws _.
      apply (rbind_map fin_ms); [apply fin_push|]. intros st' _. apply IH.
  Qed.
  Lemma fin_copy_slice prev lo k st : copy_slice prev lo k (fin_ms st) = rmap fin_ms (copy_slice prev lo k st).
  Proof. unfold copy_slice. cbn [fin_ms ms_idx ms_cur ms_ws]. destruct (_ && _)%bool; reflexivity. Qed.
  Lemma fin_merge_pair oob c_ok n len y prev cums st p :
    merge_pair E oob c_ok n len (map Fin y) prev (map (map Fin) cums) (fin_ms st) p
    = rmap fin_ms (merge_pair ER oob c_ok n len y prev cums st p).
  Proof.
    unfold merge_pair. apply (rbind_map fin_ml); [apply fin_merge_loop|]. intros [[s1 s2] st'] _. cbn [fin_ml].
    destruct (s1 <=? _); [apply fin_copy_slice|]. destruct (s2 <=? _); [apply fin_copy_slice|reflexivity].
  Qed.
  Lemma fin_merge_pairs oob c_ok n len y prev cums pairs : forall st,
    merge_pairs E oob c_ok n len (map Fin y) prev (map (map Fin) cums) pairs (fin_ms st)
    = rmap fin_ms (merge_pairs ER oob c_ok n len y prev cums pairs st).
  Proof.
    induction pairs as [|p ps IH]; intros st; cbn [merge_pairs]; auto.
    apply (rbind_map fin_ms); [apply fin_merge_pair|]. intros st' _. apply IH.
  Qed.
  Lemma mapM_map {A B A' B'} (f : A -> A') (g : B -> B') k k' l : (forall a, k' (f a) = rmap g (k a)) ->
    mapM k' (map f l) = rmap (map g) (mapM k l).
  Proof.
    intros H. induction l as [|a l IH]; cbn [mapM map]; auto.
    apply (rbind_map g); [apply H|]. intros b _. apply (rbind_map (map g)); [apply IH|]. reflexivity.
  Qed.
  Lemma fin_cumsum_var oob prev w : cumsum_var E oob prev (map Fin w) = rmap (map Fin) (cumsum_var ER oob prev w).
  Proof.
    unfold cumsum_var. apply (rbind_map (map Fin)); [apply take_chk_map|]. intros ws _. cbn [rmap]. f_equal.
    rewrite EN, fin_cumsum. reflexivity.
  Qed.
  Lemma fin_merge_passes oob c_ok fuel n y weights : forall len prev cur ws,
    merge_passes E oob c_ok fuel n len (map Fin y) (map (map Fin) weights) prev cur (map (map Fin) ws)
    = rmap (map (map Fin)) (merge_passes ER oob c_ok fuel n len y weights prev cur ws).
  Proof.
    induction fuel as [|fuel IH]; intros; cbn [merge_passes]; destruct (len <? n); auto.
    apply (rbind_map (map (map Fin))); [apply mapM_map, fin_cumsum_var|]. intros cums _.
    apply (rbind_map fin_ms).
    - apply (fin_merge_pairs oob c_ok n len y prev cums (range_step n (2 * len)) (mkMS cur 0 ws)).
    - intros st _. apply IH.
  Qed.
  Lemma fin_weight_sums oob c_ok y weights :
    compute_weight_sums E oob c_ok (map Fin y) (map (map Fin) weights)
    = rmap (map (map Fin)) (compute_weight_sums ER oob c_ok y weights).
  Proof.
    unfold compute_weight_sums. rewrite map_length, <- fin_merge_passes. f_equal.
    rewrite !map_map. apply map_ext. intros _. rewrite EN. apply (repeat_map Fin 0).
  Qed.
  Lemma fin_aijbij oob c_ok x y :
    compute_aijbij_term E oob c_ok (map Fin x) (map Fin y) = rmap Fin (compute_aijbij_term ER oob c_ok x y).
  Proof.
    unfold compute_aijbij_term. rewrite !EN, (fin_map2 (nmul XNum) Rmult) by reflexivity.
    apply (rbind_map (map (map Fin))).
    { rewrite <- fin_weight_sums. f_equal. cbn [map]. rewrite !map_map. reflexivity. }
    intros ws _. change (@nil xR) with (map Fin []). rewrite !(map_nth (map Fin)).
    apply (rbind_map Fin); [apply fin_dot|]. intros t1 _. apply (rbind_map Fin); [apply fin_dot|]. intros t2 _.
    apply (rbind_map Fin); [apply fin_dot|]. intros t3 _. rewrite !fin_sum, map_length.
    rewrite (map_maps Fin Fin (fun v => IZR (Z.of_nat (length x)) * v)) by reflexivity.
    apply (rbind_map Fin); [apply fin_dot|]. intros nxy _.
    rewrite (fin_map2 _ (fun a b => np_sum RNum x * b + np_sum RNum y * a)) by reflexivity. rewrite fin_sum. reflexivity.
  Qed.
  Lemma fin_compute_row_sums oob x : compute_row_sums E oob (map Fin x) = rmap (map Fin) (compute_row_sums ER oob x).
  Proof.
    unfold compute_row_sums. rewrite EN, fin_cumsum, !map_length.
    apply (rbind_map Fin); [rewrite nth_error_map; apply of_option_map|]. intros last _. cbn [rmap]. f_equal.
    rewrite (map2_maps_r Fin Fin (fun i v => IZR (2 * Z.of_nat i - Z.of_nat (length x)) * v)) by reflexivity.
    rewrite (map_maps Fin Fin (fun s => last - 2 * s)) by reflexivity. apply fin_map2. reflexivity.
  Qed.
  Lemma row_sums_len oob x r : compute_row_sums ER oob x = Ok r -> length r = length x.
  Proof.
    unfold compute_row_sums. destruct (of_option oob _); cbn [rbind]; [|discriminate]. intros [= <-].
    unfold map2. rewrite !map_length, !combine_length, !map_length, combine_length, seq_length.
    assert (length (np_cumsum RNum x) = length x) as ->; [|lia].
    unfold np_cumsum. generalize (nzero RNum). induction x; intros z; cbn; auto.
  Qed.

  Lemma fin_mergesort oob c_ok k kv x y rv : (1 <= length x)%nat ->
    terms_mergesort_impl E oob c_ok k kv (map Fin x) (map Fin y) rv
    = rmap fin_terms (terms_mergesort_impl ER oob c_ok k kv x y rv).
  Proof.
    intros Hx. unfold terms_mergesort_impl. rewrite map_length.
    pose proof (is_perm_length _ _ (proj1 (vx_argsort E HE x))) as Lx.
    apply (rbind_map (map Fin)); [apply take_chk_map|]. intros x1 Hx1.
    apply (rbind_map (map Fin)); [apply take_chk_map|]. intros y1 Hy1.
    apply take_chk_len in Hx1, Hy1. cbn [e_argsort ER real_env] in Hx1, Hy1. rewrite Lx in Hx1, Hy1.
    apply (rbind_map Fin); [apply fin_aijbij|]. intros ab _.
    apply (rbind_map (map Fin)); [apply fin_compute_row_sums|]. intros a_i _.
    apply (rbind_map (map Fin)); [apply take_chk_map|]. intros y2 Hy2.
    apply take_chk_len in Hy2. cbn [e_argsort ER real_env] in Hy2.
    pose proof (proj1 (vx_argsort E HE y1)) as Py. pose proof (is_perm_length _ _ Py) as Ly.
    apply (rbind_map (map Fin)); [apply fin_compute_row_sums|]. intros b_i Hb. apply row_sums_len in Hb.
    cbn [rmap]. f_equal. rewrite map_length. cbn [e_argsort e_empty ER real_env].
    rewrite (scatter_indep (length y1) _ (map Fin (repeat 0 (length b_i))) _ _ (Fin 0) Py);
      rewrite ?(vx_empty E HE), ?map_length, ?repeat_length; try lia.
    rewrite scatter_map, EN, !fin_sum. unfold fin_terms.
    cbn [t_mean_prod t_a_axis t_a_total t_b_axis t_b_total t_mp_a t_mp_b t_kind t_vkind].
    assert (x1 <> []) by (intros ->; cbn in Hx1; lia). assert (y1 <> []) by (intros ->; cbn in Hy1; lia).
    rewrite !fin_var by auto. destruct rv; reflexivity.
  Qed.

  (** *** _dcor.py *)

  Lemma fin_try w auto impl impl' l : (forall c, impl' c = rmap fin_terms (impl c)) ->
    try_impls w auto impl' l = mmap fin_terms (try_impls w auto impl l).
  Proof.
    intros H. induction l as [|c l IH]; cbn [try_impls]; auto. rewrite H.
    destruct (impl c) as [t|[]]; cbn [rmap]; auto. destruct auto; auto. rewrite IH.
    destruct (try_impls w true impl l); reflexivity.
  Qed.

  Lemma fin_to_1d (x : array R) v : wf x -> transform_to_1d (adata x) = Ok v -> length v = shape0 x.
  Proof.
    unfold wf, shape0. destruct (adata x) as [w|c rows]; cbn; [intros _ [= <-]; auto|].
    destruct (Nat.eqb_spec c 1) as [->|]; [|discriminate]. intros Hw [= <-].
    induction Hw; cbn; auto. rewrite app_length, H, IHHw. reflexivity.
  Qed.

  Lemma fin_method m (x y : array R) cm rv : wf x -> (1 <= shape0 x)%nat ->
    method_terms E m (fin x) (fin y) (Fin e) cm rv = mmap fin_terms (method_terms ER m x y e cm rv).
  Proof.
    intros Wx Hn. assert (S1 : seq_env E = E) by (apply seq_env_same; rewrite EN; reflexivity).
    assert (S2 : seq_env ER = ER) by (apply seq_env_R; reflexivity).
    assert (Havl : terms_avl E (fin x) (fin y) (Fin e) cm rv = mmap fin_terms (terms_avl ER x y e cm rv)).
    { unfold terms_avl. rewrite EN. cbn [neqb nunit XNum xeqb]. change (neqb (e_num ER) e (nunit (e_num ER))) with (Reqb e 1).
      destruct (negb (Reqb e 1)); [reflexivity|]. unfold fin; cbn [adata ans adt].
      apply (bind_map (map Fin)); [apply lift_map, fin_1d|]. intros x1 _.
      apply (bind_map (map Fin)); [apply lift_map, fin_1d|]. intros y1 _.
      rewrite (together_ans (mkArr _ _ _) (mkArr _ _ _) x y) by reflexivity.
      destruct (together x y); [|reflexivity]. destruct (impls cm); [|reflexivity]. apply fin_try. intros c.
      unfold avl_impl. rewrite S1, S2. destruct c; [destruct (_ && _)%bool|]; auto using fin_avl. }
    assert (Hms : terms_mergesort E (fin x) (fin y) (Fin e) cm rv = mmap fin_terms (terms_mergesort ER x y e cm rv)).
    { unfold terms_mergesort. rewrite EN. cbn [neqb nunit XNum xeqb]. change (neqb (e_num ER) e (nunit (e_num ER))) with (Reqb e 1).
      destruct (negb (Reqb e 1)); [reflexivity|]. unfold fin; cbn [adata ans adt].
      apply (bind_map (map Fin)); [apply lift_map, fin_1d|]. intros x1 Hx1. cbn [snd lift] in Hx1. apply fin_to_1d in Hx1; auto.
      apply (bind_map (map Fin)); [apply lift_map, fin_1d|]. intros y1 _.
      rewrite (together_ans (mkArr _ _ _) (mkArr _ _ _) x y) by reflexivity.
      destruct (together x y); [|reflexivity]. destruct (impls cm); [|reflexivity]. apply fin_try. intros c.
      unfold mergesort_impl. rewrite S1, S2. destruct c; [destruct (_ && _)%bool|destruct (_ || _)%bool]; auto.
      all: apply fin_mergesort; lia. }
    destruct m; cbn [method_terms]; auto using fin_naive.
    unfold terms_auto, can_use_fast_algorithm. rewrite (together_ans (fin x) (fin y) x y) by reflexivity. rewrite !fin_shape0, EN. cbn [neqb nunit XNum xeqb ans fin adata].
    assert (Hrv : forall d, is_random_variable (fin_nd d) = is_random_variable d) by (destruct d; reflexivity).
    rewrite !Hrv. change (neqb (e_num ER) e (nunit (e_num ER))) with (Reqb e 1).
    destruct (_ && _)%bool; auto using fin_naive.
  Qed.

  Lemma fin_correlation c vx vy : correlation_of E (Fin c) (Fin vx) (Fin vy) = Fin (correlation_of ER c vx vy).
  Proof.
    unfold correlation_of. rewrite EN. cbn [nmul nabs XNum]. rewrite fin_mul. cbn [xabs]. rewrite fin_sqrt_clamp.
    change (sqrt_clamp (e_num ER) (nabs (e_num ER) (nmul (e_num ER) vx vy))) with (sqrt_clamp RNum (Rabs (vx * vy))).
    cbn [neqb nzero XNum xeqb ndiv]. change (neqb (e_num ER)) with Reqb. change (nzero (e_num ER)) with 0.
    destruct (Reqb_spec (sqrt_clamp RNum (Rabs (vx * vy))) 0); [reflexivity|]. apply fin_div. auto.
  Qed.

  Definition fin_stats (s : Stats R) : Stats xR :=
    mkStats (Fin (covariance_xy s)) (Fin (correlation_xy s)) (Fin (variance_x s)) (Fin (variance_y s)).

  Lemma fin_algo m (x y : array R) cm (bc : bool) : wf x -> (1 <= shape0 x)%nat -> (bc = true -> (4 <= shape0 x)%nat) ->
    algo_dcov_sqr E m (fin x) (fin y) (Fin e) cm bc = mmap Fin (algo_dcov_sqr ER m x y e cm bc).
  Proof.
    intros Wx Hn Hbc. unfold algo_dcov_sqr. apply (bind_map fin_terms); [apply fin_method; auto|]. intros t _.
    rewrite fin_shape0. apply lift_map. cbn [fin_terms t_mean_prod t_a_axis t_a_total t_b_axis t_b_total t_kind].
    apply fin_from_terms; auto.
  Qed.

  Lemma fin_stats_sqr m (x y : array R) cm (bc : bool) : wf x -> (1 <= shape0 x)%nat -> (bc = true -> (4 <= shape0 x)%nat) ->
    algo_stats_sqr E m (fin x) (fin y) (Fin e) cm bc = mmap fin_stats (algo_stats_sqr ER m x y e cm bc).
  Proof.
    intros Wx Hn Hbc. unfold algo_stats_sqr. rewrite fin_shape0.
    apply (bind_map fin_terms); [apply fin_method; auto|]. intros t _.
    cbn [fin_terms t_mean_prod t_a_axis t_a_total t_b_axis t_b_total t_kind t_vkind t_mp_a t_mp_b].
    apply (bind_map Fin); [apply lift_map, fin_from_terms; auto|]. intros c _.
    assert (Hmp : forall o : option R, match option_map Fin o with Some v => v | None => nzero (e_num E) end
                  = Fin (match o with Some v => v | None => nzero (e_num ER) end)).
    { intros [v|]; cbn [option_map]; auto. rewrite EN. reflexivity. }
    rewrite !Hmp.
    apply (bind_map Fin); [apply lift_map, fin_from_terms; auto|]. intros vx _.
    apply (bind_map Fin); [apply lift_map, fin_from_terms; auto|]. intros vy _.
    rewrite fin_correlation. reflexivity.
  Qed.

  Lemma bind_ok {A B} (a : A) (k : A -> M B) : bind (lift (Ok a)) k = k a.
  Proof. cbn. destruct (k a). reflexivity. Qed.

  Lemma fin_call f (x y : array R) m cm : wf x -> (min_size f <= shape0 x)%nat ->
    api_fn f E (fin x) (fin y) (Fin e) (MethodEnum m) cm = mmap Fin (api_fn f ER x y e (MethodEnum m) cm).
  Proof.
    intros Wx Hn.
    destruct f; cbn [min_size] in Hn; cbn [api_fn];
      unfold distance_covariance, distance_covariance_sqr, distance_correlation, distance_correlation_sqr,
        u_distance_covariance_sqr, u_distance_correlation_sqr; cbn [to_algorithm]; rewrite !bind_ok.
    - apply fin_algo; auto. discriminate.
    - apply (bind_map Fin); [apply fin_algo; auto; discriminate|]. intros v _. rewrite EN, fin_sqrt_clamp. reflexivity.
    - apply (bind_map fin_stats); [apply fin_stats_sqr; auto; discriminate|]. reflexivity.
    - apply (bind_map Fin); [|intros v _; rewrite EN, fin_sqrt_clamp; reflexivity].
      apply (bind_map fin_stats); [apply fin_stats_sqr; auto; discriminate|]. reflexivity.
    - apply fin_algo; auto; lia.
    - apply (bind_map fin_stats); [apply fin_stats_sqr; auto; lia|]. reflexivity.
  Qed.
End Transfer.
