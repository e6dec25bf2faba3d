(** C68: identities that hold bit for bit in double precision (and for every number type). *)
From Coq Require Import Reals ZArith List Bool Arith Lia Lra.
From Flocq Require Import Core IEEE754.BinarySingleNaN.
From Verif Require Import Num Numpy MUtils MDistances MInternals MMergesort MAvl MDcor MEnergy MHypothesis MHomogeneity MIndependence
  MPartial MFloat Sums Spec Tab Samples Api RefDist Calls RefCenter PSizes RefFloat FloatSum FloatNaive FloatApi FloatExact FloatEnv PFloat PNaiveFloat PFloatCorr.
Import ListNotations.
Local Open Scope monad_scope.

(** ** The statistics bundle *)

Section Bundle.
  Context {T : Type} (E : Env T).

  Definition no_var (t : terms (T:=T)) : terms (T:=T) :=
    mkTerms (t_mean_prod t) (t_a_axis t) (t_a_total t) (t_b_axis t) (t_b_total t) None None (t_kind t) (t_vkind t).
  Definition then_no_var (p : M (terms (T:=T))) : M (terms (T:=T)) := t <- p ;; ret (no_var t).

  Lemma try_no_var w au (i i' : bool -> res (terms (T:=T))) l : (forall c, i' c = rbind (i c) (fun t => Ok (no_var t))) ->
    try_impls w au i' l = then_no_var (try_impls w au i l).
  Proof.
    intros H. induction l as [|c l IH]; [reflexivity|]. cbn [try_impls]. rewrite H. destruct (i c) as [t|ex]; [reflexivity|].
    destruct ex; try reflexivity. cbn [rbind]. destruct au; [|reflexivity]. rewrite IH. unfold then_no_var, bind, emit, ret.
    destruct (try_impls w true i l) as [ws [t|ex]]; cbn; rewrite ?app_nil_r; reflexivity.
  Qed.

  Lemma avl_no_var (E0 : Env T) c oob k kv x y : terms_avl_impl E0 c oob k kv x y false = rbind (terms_avl_impl E0 c oob k kv x y true) (fun t => Ok (no_var t)).
  Proof.
    unfold terms_avl_impl. destruct (get_impl_args E0 x y) as [g|ex]; [|reflexivity]. cbn [rbind].
    destruct (partial_sums _ _ _ _ _ _ _); reflexivity.
  Qed.
  Lemma mergesort_no_var (E0 : Env T) oob c k kv x y : terms_mergesort_impl E0 oob c k kv x y false
    = rbind (terms_mergesort_impl E0 oob c k kv x y true) (fun t => Ok (no_var t)).
  Proof.
    unfold terms_mergesort_impl.
    repeat match goal with |- rbind ?a _ = _ => destruct a; cbn [rbind]; [|reflexivity] end. reflexivity.
  Qed.

  Lemma terms_no_var m x y e cm : method_terms E m x y e cm false = then_no_var (method_terms E m x y e cm true).
  Proof.
    assert (HA : terms_avl E x y e cm false = then_no_var (terms_avl E x y e cm true)).
    { unfold terms_avl. destruct (negb _); [reflexivity|]. destruct (transform_to_1d (adata x)); rewrite ?bind_ok, ?bind_err; [|reflexivity].
      destruct (transform_to_1d (adata y)); rewrite ?bind_ok, ?bind_err; [|reflexivity]. destruct (together x y); [|reflexivity].
      destruct (impls cm); [|reflexivity]. apply try_no_var. intros c. unfold avl_impl. destruct c; [destruct (_ && _)|]; try apply avl_no_var. reflexivity. }
    assert (HN : dcov_terms_naive E x y e cm false = then_no_var (dcov_terms_naive E x y e cm true)).
    { unfold dcov_terms_naive. destruct cm; try reflexivity;
        (destruct (compute_distances E x y e) as [w [[a b]|ex]]; [|reflexivity]); unfold then_no_var; cbn; destruct (np_dot _ _ _); cbn; rewrite ?app_nil_r; reflexivity. }
    destruct m; cbn [method_terms]; auto.
    - unfold terms_auto. destruct (_ && _); auto.
    - unfold terms_mergesort. destruct (negb _); [reflexivity|]. destruct (transform_to_1d (adata x)); rewrite ?bind_ok, ?bind_err; [|reflexivity].
      destruct (transform_to_1d (adata y)); rewrite ?bind_ok, ?bind_err; [|reflexivity]. destruct (together x y); [|reflexivity].
      destruct (impls cm); [|reflexivity]. apply try_no_var. intros c. unfold mergesort_impl.
      destruct c; [destruct (is_f64 (adt x) && is_f64 (adt y))|destruct (is_obj (adt x) || is_obj (adt y))]; try apply mergesort_no_var; reflexivity.
  Qed.

  Lemma stats_cov m x y e cm bc ws s : algo_stats_sqr E m x y e cm bc = (ws, Ok s) -> algo_dcov_sqr E m x y e cm bc = (ws, Ok (covariance_xy s)).
  Proof.
    unfold algo_stats_sqr, algo_dcov_sqr. rewrite terms_no_var. unfold then_no_var.
    destruct (method_terms E m x y e cm true) as [w [t|ex]]; [|discriminate]. cbn.
    destruct (dcov_from_terms E (t_kind t) (t_mean_prod t) _ _ _ _ _ _); [|discriminate]. cbn.
    destruct (dcov_from_terms _ _ _ _ _ _ _ _ _); [|discriminate]. cbn.
    destruct (dcov_from_terms _ _ _ _ _ _ _ _ _); [|discriminate]. cbn. rewrite !app_nil_r. intros H. injection H as <- <-. reflexivity.
  Qed.
End Bundle.

(** The bundle and the functions give the same covariance and correlation, with the same warnings: for every number type,
    method (also given by name), compile mode and exponent. *)
Theorem C68_bundle {T} (E : Env T) x y e m cm ws s :
  (distance_stats_sqr E x y e m cm = (ws, Ok s) ->
     distance_covariance_sqr E x y e m cm = (ws, Ok (covariance_xy s)) /\ distance_correlation_sqr E x y e m cm = (ws, Ok (correlation_xy s))) /\
  (u_distance_stats_sqr E x y e m cm = (ws, Ok s) ->
     u_distance_covariance_sqr E x y e m cm = (ws, Ok (covariance_xy s)) /\ u_distance_correlation_sqr E x y e m cm = (ws, Ok (correlation_xy s))) /\
  (distance_stats E x y e m cm = (ws, Ok s) ->
     distance_covariance E x y e m cm = (ws, Ok (covariance_xy s)) /\ distance_correlation E x y e m cm = (ws, Ok (correlation_xy s))).
Proof.
  unfold distance_stats, distance_stats_sqr, u_distance_stats_sqr, distance_covariance, distance_covariance_sqr, u_distance_covariance_sqr,
    distance_correlation, distance_correlation_sqr, u_distance_correlation_sqr.
  destruct (to_algorithm m) as [m'|ex]; rewrite ?bind_ok, ?bind_err; [|repeat split; discriminate].
  split; [|split].
  - intros H. rewrite (stats_cov E _ _ _ _ _ _ _ _ H), H. cbn. now rewrite app_nil_r.
  - intros H. rewrite (stats_cov E _ _ _ _ _ _ _ _ H), H. cbn. now rewrite app_nil_r.
  - destruct (algo_stats_sqr E m' x y e cm false) as [w [s'|ex]] eqn:H; [|discriminate]. cbn. rewrite (stats_cov E _ _ _ _ _ _ _ _ H).
    cbn. intros Q. injection Q as <- <-. rewrite !app_nil_r. auto.
Qed.

(** With NAIVE the variances of the bundle are the covariances of each sample with itself. *)
Theorem C68_bundle_variances {T} (E : Env T) x y e cm s :
  (outcome (distance_stats_sqr E x y e (MethodEnum MNaive) cm) = Ok s ->
     call DcovSqr E x x e MNaive cm = Ok (variance_x s) /\ call DcovSqr E y y e MNaive cm = Ok (variance_y s)) /\
  (outcome (u_distance_stats_sqr E x y e (MethodEnum MNaive) cm) = Ok s ->
     call UDcovSqr E x x e MNaive cm = Ok (variance_x s) /\ call UDcovSqr E y y e MNaive cm = Ok (variance_y s)).
Proof.
  assert (K : forall bc, outcome (algo_stats_sqr E MNaive x y e cm bc) = Ok s ->
    outcome (algo_dcov_sqr E MNaive x x e cm bc) = Ok (variance_x s) /\ outcome (algo_dcov_sqr E MNaive y y e cm bc) = Ok (variance_y s)).
  { intros bc. unfold algo_stats_sqr, algo_dcov_sqr. cbn [method_terms].
    assert (Cm : cm = CAuto \/ cm = CNoCompile \/ outcome (dcov_terms_naive E x y e cm true) = Err NotImplementedError) by (destruct cm; auto).
    destruct (pairwise_distances E x None e) as [a|ex] eqn:Ha.
    2:{ unfold dcov_terms_naive, compute_distances. rewrite Ha. destruct cm; cbn; destruct (check_valid_dcov_exponent E e) as [w [[]|]]; discriminate. }
    destruct (pairwise_distances E y None e) as [b|ex] eqn:Hb.
    2:{ unfold dcov_terms_naive, compute_distances. rewrite Ha, Hb. destruct cm; cbn; destruct (check_valid_dcov_exponent E e) as [w [[]|]]; discriminate. }
    unfold dcov_terms_naive, compute_distances. rewrite !Ha, !Hb.
    assert (Sx : length a = shape0 x /\ length b = shape0 y).
    { unfold pairwise_distances in Ha, Hb. pose proof (rows_2d x) as Rx. pose proof (rows_2d y) as Ry. destruct (transform_to_2d (adata x)) as [cx rx], (transform_to_2d (adata y)) as [cy ry].
      destruct (pdist_ok E (ans x) (adt x) cx rx e) as (m & Hm & L & _). destruct (pdist_ok E (ans y) (adt y) cy ry e) as (m' & Hm' & L' & _).
      cbn in Rx, Ry. split; congruence. }
    assert (Sq : Forall (fun r => length r = shape0 x) a /\ Forall (fun r => length r = shape0 y) b).
    { unfold pairwise_distances in Ha, Hb. pose proof (rows_2d x) as Rx. pose proof (rows_2d y) as Ry. destruct (transform_to_2d (adata x)) as [cx rx], (transform_to_2d (adata y)) as [cy ry].
      destruct (pdist_ok E (ans x) (adt x) cx rx e) as (m & Hm & L & F). destruct (pdist_ok E (ans y) (adt y) cy ry e) as (m' & Hm' & L' & F').
      cbn in Rx, Ry. rewrite Rx in *. rewrite Ry in *. split; congruence. }
    destruct Sx as [La Lb]. destruct Sq as [Fa Fb].
    pose proof (concat_square a _ _ Fa La) as Ca. pose proof (concat_square b _ _ Fb Lb) as Cb.
    assert (Q : forall v : list T, np_dot (e_num E) v v = Ok (ndot (e_num E) v v)) by (intros; unfold np_dot; now rewrite Nat.eqb_refl).
    destruct cm; try discriminate;
      cbn; destruct (check_valid_dcov_exponent E e) as [w [[]|]]; cbn; try discriminate; rewrite !Q; unfold np_dot at 1;
      (destruct (length (concat a) =? length (concat b)) eqn:L; cbn; [|discriminate]);
      apply Nat.eqb_eq in L; rewrite Ca, Cb in L; assert (Hn : shape0 y = shape0 x) by nia; rewrite Hn;
      (destruct (dcov_from_terms E AllNumpy (ndot (e_num E) (concat a) (concat b)) _ _ _ _ _ _); cbn; [|discriminate]);
      (destruct (dcov_from_terms E AllNumpy (ndot (e_num E) (concat a) (concat a)) _ _ _ _ _ _); cbn; [|discriminate]);
      (destruct (dcov_from_terms E AllNumpy (ndot (e_num E) (concat b) (concat b)) _ _ _ _ _ _); cbn; [|discriminate]);
      intros H; injection H as <-; auto. }
  unfold call, api_fn, distance_stats_sqr, u_distance_stats_sqr, distance_covariance_sqr, u_distance_covariance_sqr; cbn [to_algorithm].
  rewrite ?bind_ok. split; apply K.
Qed.

(** ** Symmetry *)

Section Symmetry.
  Context {T : Type} (E : Env T) (C : forall a b, nmul (e_num E) a b = nmul (e_num E) b a).

  Lemma map2_comm {A B} (f g : A -> A -> B) (H : forall a b, f a b = g b a) : forall u v, map2 f u v = map2 g v u.
  Proof. induction u as [|a u IH]; intros [|b v]; cbn; auto. f_equal; [apply H|apply IH]. Qed.
  Lemma combine_swap {A B} : forall (u : list A) (v : list B), combine u v = map (fun p => (snd p, fst p)) (combine v u).
  Proof. induction u as [|a u IH]; intros [|b v]; cbn; auto. now rewrite IH. Qed.
  Lemma same_shape_comm {A B} (a : list (list A)) (b : list (list B)) : same_shape a b = same_shape b a.
  Proof.
    unfold same_shape. rewrite Nat.eqb_sym. f_equal. rewrite (combine_swap a b). induction (combine b a) as [|p l IH]; cbn; auto.
    now rewrite Nat.eqb_sym, IH.
  Qed.
  Lemma mapM_ext {A B} (f g : A -> res B) l : (forall a, f a = g a) -> mapM f l = mapM g l.
  Proof. intros H. induction l as [|a l IH]; cbn; auto. now rewrite H, IH. Qed.
  Lemma mapM_map {A B D} (h : A -> B) (f : B -> res D) l : mapM f (map h l) = mapM (fun a => f (h a)) l.
  Proof. induction l as [|a l IH]; cbn; auto. now rewrite IH. Qed.
  Lemma bcast_comm {A B} (f g : A -> A -> res B) (H : forall a b, f a b = g b a) u v : bcast_axis f u v = bcast_axis g v u.
  Proof.
    unfold bcast_axis. rewrite Nat.eqb_sym. destruct (length v =? length u) eqn:L.
    - rewrite (combine_swap u v), mapM_map. apply mapM_ext. intros [p q]. cbn. apply H.
    - destruct u as [|a [|a' u]], v as [|b [|b' v]]; try discriminate; auto; apply mapM_ext; auto.
  Qed.
  Lemma elt_product_comm a b : elt_product E a b = elt_product E b a.
  Proof.
    unfold elt_product, elt_op. rewrite same_shape_comm. destruct (same_shape b a).
    - f_equal. apply map2_comm. intros. apply map2_comm. auto.
    - apply bcast_comm. intros. apply bcast_comm. intros. now rewrite C.
  Qed.
  Lemma u_product_comm a b : length a = length b -> u_product E a b = u_product E b a.
  Proof. intros L. unfold u_product. now rewrite elt_product_comm, L. Qed.
  Lemma clipped_comm ab aa bb : clipped_correlation E ab aa bb = clipped_correlation E ab bb aa.
  Proof. unfold clipped_correlation. now rewrite (C aa bb). Qed.
End Symmetry.

Lemma mul_comm (a b : b64) : b64_mul a b = b64_mul b a.
Proof.
  destruct a as [s|s| |s m e B], b as [t|t| |t m' e' B']; cbn; try (now rewrite ?(xorb_comm t s)).
  apply B2SF_inj. unfold b64_mul, Bmult. rewrite !B2SF_SF2B, (xorb_comm t s), (Pos.mul_comm m' m), (Z.add_comm e' e). reflexivity.
Qed.

(** The products of centred matrices and the partial functions are symmetric (so is the statistic of the distance covariance
    test). *)
Theorem C68_products_symmetric lib E a b : e_num E = B64Num lib ->
  mean_product E a b = mean_product E b a /\ (length a = length b -> u_product E a b = u_product E b a).
Proof.
  intros EN. assert (C : forall u v, nmul (e_num E) u v = nmul (e_num E) v u) by (rewrite EN; exact mul_comm).
  split; [unfold mean_product; now rewrite (elt_product_comm E C)|apply u_product_comm; auto].
Qed.

Theorem C68_partial_symmetric lib E x y z : e_num E = B64Num lib -> shape0 x = shape0 z -> shape0 y = shape0 z ->
  outcome (partial_distance_covariance E x y z) = outcome (partial_distance_covariance E y x z) /\
  outcome (partial_distance_correlation E x y z) = outcome (partial_distance_correlation E y x z).
Proof.
  intros EN Hx Hy. assert (C : forall u v, nmul (e_num E) u v = nmul (e_num E) v u) by (rewrite EN; exact mul_comm).
  destruct (udm_ok E x (nunit (e_num E))) as (a & Ha & Ma). destruct (udm_ok E y (nunit (e_num E))) as (b & Hb & Mb).
  destruct (udm_ok E z (nunit (e_num E))) as (c & Hc & Mc). rewrite Hx in Ma. rewrite Hy in Mb.
  assert (La : length a = length b) by (destruct Ma, Mb; congruence).
  assert (Lc : length a = length c) by (destruct Ma, Mc; congruence).
  split.
  - unfold partial_distance_covariance. repeat rewrite !outcome_bind, ?Ha, ?Hb, ?Hc; cbn [rbind].
    destruct (compl_ok E _ c Mc) as (q & -> & Hq & _). cbn [lift outcome snd rbind]. destruct (Hq a Ma) as (pa & Qa & Pa). destruct (Hq b Mb) as (pb & Qb & Pb).
    rewrite !outcome_bind, Qa, Qb. cbn [lift outcome snd rbind]. rewrite !outcome_bind, ?Qa, ?Qb. cbn [lift outcome snd rbind].
    apply u_product_comm; auto. destruct Pa, Pb; congruence.
  - unfold partial_distance_correlation. repeat rewrite !outcome_bind, ?Ha, ?Hb, ?Hc; cbn [rbind].
    destruct (up_same E _ a a Ma Ma) as [aa Aa]. destruct (up_same E _ b b Mb Mb) as [bb Bb]. destruct (up_same E _ c c Mc Mc) as [cc Cc].
    destruct (up_same E _ a b Ma Mb) as [ab Ab]. destruct (up_same E _ a c Ma Mc) as [ac Ac]. destruct (up_same E _ b c Mb Mc) as [bc Bc].
    assert (Ba : u_product E b a = Ok ab) by (rewrite <- Ab; apply u_product_comm; auto).
    rewrite Aa, Bb. cbn [lift outcome snd rbind].
    repeat (rewrite !outcome_bind, ?Aa, ?Bb, ?Cc, ?Ab, ?Ac, ?Bc, ?Ba; cbn [lift outcome snd rbind]).
    rewrite (clipped_comm E C ab bb aa). set (r1 := clipped_correlation E ab aa bb). set (r2 := clipped_correlation E ac aa cc). set (r3 := clipped_correlation E bc bb cc).
    cbv zeta. rewrite (C r3 r2), (C (sqrt_clamp _ _) (sqrt_clamp (e_num E) (nsub (e_num E) (nunit (e_num E)) (nmul (e_num E) r2 r2)))). reflexivity.
Qed.

(** ** Reflections *)

(** The sample with the coordinates [k], [s k = true], negated. *)
Definition flip (s : nat -> bool) (k : nat) (v : b64) : b64 := if s k then Bopp v else v.
Definition reflect_data (s : nat -> bool) (d : nd b64) : nd b64 :=
  match d with Vec v => Vec (map (flip s 0) v) | Mat c rows => Mat c (map (fun r => map2 (flip s) (seq 0 (length r)) r) rows) end.
Definition reflected (s : nat -> bool) (x : array b64) : array b64 := mkArr (ans x) (adt x) (reflect_data s (adata x)).

Section Reflection.
  Context (lib : flib) (E : Env b64) (EN : e_num E = B64Num lib).

  Lemma flip_sq s k a b : let d := b64_sub (flip s k a) (flip s k b) in let d' := b64_sub a b in b64_mul d d = b64_mul d' d'.
  Proof. unfold flip. destruct (s k); auto. apply sq_sub_opp. Qed.

  Definition frow (s : nat -> bool) (r : list b64) : list b64 := map2 (flip s) (seq 0 (length r)) r.
  Lemma frow_length s r : length (frow s r) = length r.
  Proof. unfold frow, map2. rewrite map_length, combine_length, seq_length. lia. Qed.

  Lemma sq_norm_flip s u v : sq_norm E (frow s u) (frow s v) = sq_norm E u v.
  Proof.
    unfold sq_norm. f_equal. rewrite EN. cbn [nsub nmul B64Num]. unfold frow. generalize 0%nat as k. revert v.
    induction u as [|a u IH]; intros [|b v] k; try reflexivity. cbn [length seq]. unfold map2 in *. cbn [combine map fst snd]. f_equal; [apply flip_sq|apply IH].
  Qed.

  Lemma reflect_2d s d : transform_to_2d (reflect_data s d) = (fst (transform_to_2d d), map (frow s) (snd (transform_to_2d d))).
  Proof. destruct d as [v|c rows]; cbn; auto. now rewrite !map_map. Qed.
  Lemma reflect_shape0 s x : shape0 (reflected s x) = shape0 x.
  Proof. destruct x as [sp dt [v|c rows]]; unfold shape0; cbn; now rewrite map_length. Qed.

  Definition good (c : nat) (r : list (list b64)) : Prop := Forall (fun u => length u = c) r.
  Lemma bcast_good c (u : list b64) : length u = c -> bcast_row c u = u.
  Proof. destruct u as [|a [|b u]]; cbn; intros <-; reflexivity. Qed.
  Lemma naive_flip s d c x y e : good c x -> good c y -> cdist_naive E d c (map (frow s) x) c (map (frow s) y) e = cdist_naive E d c x c y e.
  Proof.
    intros Hx Hy. unfold cdist_naive. rewrite Nat.eqb_refl. cbn [orb]. replace (if c =? 1 then c else c) with c by (destruct (c =? 1); auto).
    f_equal. rewrite map_map. apply map_ext_in. intros u Hu. rewrite map_map. apply map_ext_in. intros v Hv.
    unfold good in *. rewrite Forall_forall in *. rewrite !bcast_good by (rewrite ?frow_length; auto). now rewrite sq_norm_flip.
  Qed.
  Lemma scipy_flip s cx cy x y e : cdist_scipy E cx (map (frow s) x) cy (map (frow s) y) e = cdist_scipy E cx x cy y e.
  Proof.
    unfold cdist_scipy. destruct (cx =? cy); auto. f_equal. rewrite map_map. apply map_ext. intros u. rewrite map_map. apply map_ext. intros v.
    now rewrite sq_norm_flip.
  Qed.
  Lemma good_2d x : wf x -> good (ncols x) (snd (transform_to_2d (adata x))) /\ fst (transform_to_2d (adata x)) = ncols x.
  Proof.
    destruct x as [sp dt [v|c rows]]; unfold wf, ncols, good; cbn; auto. intros _. split; auto. apply Forall_map, Forall_forall. reflexivity.
  Qed.

  Lemma pw1_flip s x e : wf x -> pairwise_distances E (reflected s x) None e = pairwise_distances E x None e.
  Proof.
    intros Wx. unfold pairwise_distances, pdist. destruct (good_2d x Wx) as [G F]. cbn [ans adt adata reflected]. rewrite reflect_2d.
    destruct (transform_to_2d (adata x)) as [c r]. cbn [fst snd] in *. subst c. rewrite scipy_flip, naive_flip by auto. reflexivity.
  Qed.
  Lemma pw2_flip s x y e : wf x -> wf y -> ncols x = ncols y ->
    pairwise_distances E (reflected s x) (Some (reflected s y)) e = pairwise_distances E x (Some y) e.
  Proof.
    intros Wx Wy Hc. unfold pairwise_distances, cdist. destruct (good_2d x Wx) as [G F]. destruct (good_2d y Wy) as [G' F'].
    cbn [ans adt adata reflected]. rewrite !reflect_2d.
    destruct (transform_to_2d (adata x)) as [c r], (transform_to_2d (adata y)) as [c' r']. cbn [fst snd] in *. subst c c'.
    rewrite Hc in *. rewrite scipy_flip, naive_flip by auto. reflexivity.
  Qed.
End Reflection.

(** Negating coordinates changes no bit of the distances and of what is computed from them (each sample has its own pattern
    of signs, except in the functions that compare observations of two samples). *)
Theorem C68_reflection_dependence lib E s t x y e cm : e_num E = B64Num lib -> wf x -> wf y ->
  (forall f, api_fn f E (reflected s x) (reflected t y) e (MethodEnum MNaive) cm = api_fn f E x y e (MethodEnum MNaive) cm) /\
  distance_stats_sqr E (reflected s x) (reflected t y) e (MethodEnum MNaive) cm = distance_stats_sqr E x y e (MethodEnum MNaive) cm /\
  u_distance_stats_sqr E (reflected s x) (reflected t y) e (MethodEnum MNaive) cm = u_distance_stats_sqr E x y e (MethodEnum MNaive) cm /\
  distance_stats E (reflected s x) (reflected t y) e (MethodEnum MNaive) cm = distance_stats E x y e (MethodEnum MNaive) cm.
Proof.
  intros EN Wx Wy.
  assert (Ht : forall rv, method_terms E MNaive (reflected s x) (reflected t y) e cm rv = method_terms E MNaive x y e cm rv).
  { intros rv. cbn [method_terms]. unfold dcov_terms_naive, compute_distances. rewrite !(pw1_flip lib E EN) by auto. reflexivity. }
  split; [intros f; destruct f|]; cbn [api_fn]; unfold distance_stats, distance_stats_sqr, u_distance_stats_sqr, distance_covariance, distance_covariance_sqr, u_distance_covariance_sqr,
      distance_correlation, distance_correlation_sqr, u_distance_correlation_sqr, algo_dcov_sqr, algo_stats_sqr; cbn [to_algorithm]; rewrite ?bind_ok, ?Ht, ?reflect_shape0; auto.
Qed.

Theorem C68_reflection lib E {S} (G : Rng S) s t u x y z e num rs av es : e_num E = B64Num lib -> wf x -> wf y -> wf z ->
  pairwise_distances E (reflected s x) None e = pairwise_distances E x None e /\
  partial_distance_covariance E (reflected s x) (reflected t y) (reflected u z) = partial_distance_covariance E x y z /\
  partial_distance_correlation E (reflected s x) (reflected t y) (reflected u z) = partial_distance_correlation E x y z /\
  distance_covariance_test E G (reflected s x) (reflected t y) num e rs = distance_covariance_test E G x y num e rs /\
  partial_distance_covariance_test E G (reflected s x) (reflected t y) (reflected u z) num e rs = partial_distance_covariance_test E G x y z num e rs /\
  (ncols x = ncols y ->
     pairwise_distances E (reflected s x) (Some (reflected s y)) e = pairwise_distances E x (Some y) e /\
     energy_distance E (reflected s x) (reflected s y) e av es = energy_distance E x y e av es /\
     energy_test_statistic E (reflected s x) (reflected s y) e av es = energy_test_statistic E x y e av es).
Proof.
  intros EN Wx Wy Wz. assert (P := fun s x e => pw1_flip lib E EN s x e).
  assert (D : forall c s x e, wf x -> distance_matrix_generic E c (reflected s x) e = distance_matrix_generic E c x e).
  { intros. unfold distance_matrix_generic. rewrite P by auto. reflexivity. }
  unfold partial_distance_covariance, partial_distance_correlation, distance_covariance_test, partial_distance_covariance_test,
    u_distance_matrix. rewrite !D, !reflect_shape0 by auto. split; [apply P; auto|]. split; [reflexivity|]. split; [reflexivity|]. split; [reflexivity|].
  split; [reflexivity|]. intros Hc. unfold energy_test_statistic, energy_distance. rewrite !P, !(pw2_flip lib E EN), !reflect_shape0 by auto. auto.
Qed.

(** ** The distance matrix *)

Section Matrix.
  Context (lib : flib) (E : Env b64) (HE : valid_fenv lib E).
  Let EN : e_num E = B64Num lib := vf_num _ _ HE.

  Lemma sq_norm_swap u v : sq_norm E u v = sq_norm E v u.
  Proof. unfold sq_norm. f_equal. rewrite EN. cbn [nsub nmul B64Num]. apply map2_comm. intros. apply sq_sub_swap. Qed.

  (** What the code computes for the observations [u] and [v]. *)
  Definition fdist_of (x : array b64) (e : b64) (u v : list b64) : b64 :=
    if can_be_numpy_double E (ans x) (adt x)
    then (if Beqb e (b64_ofZ 1) then b64_sqrt (sq_norm E u v) else npow (B64Num lib) (sq_norm E u v) (half E e))
    else dist_power E (adt x) (sq_norm E u v) e.
  Definition frow_of (x : array b64) (i : nat) : list b64 := tab (ncols x) (fobs x i).
  Lemma fdist_swap x e u v : fdist_of x e u v = fdist_of x e v u.
  Proof. unfold fdist_of. now rewrite (sq_norm_swap u v). Qed.

  Lemma pairwise_fdist x e : wf x ->
    pairwise_distances E x None e = Ok (tab2 (shape0 x) (shape0 x) (fun i j => fdist_of x e (frow_of x i) (frow_of x j))).
  Proof.
    intros Wx. unfold pairwise_distances, pdist, fdist_of. rewrite fobs_2d by auto.
    destruct (can_be_numpy_double E (ans x) (adt x)).
    - unfold cdist_scipy. rewrite Nat.eqb_refl. f_equal. unfold tab2, tab. rewrite !map_map. apply map_ext. intros i. rewrite map_map. apply map_ext. intros j.
      rewrite EN. reflexivity.
    - unfold cdist_naive. rewrite Nat.eqb_refl. cbn [orb]. replace (if ncols x =? 1 then ncols x else ncols x) with (ncols x) by (destruct (ncols x =? 1); auto).
      f_equal. unfold tab2, tab. rewrite !map_map. apply map_ext. intros i. rewrite map_map. apply map_ext. intros j.
      rewrite !bcast_good by (rewrite map_length, seq_length; auto). rewrite (sq_norm_swap (map _ _)). reflexivity.
  Qed.
End Matrix.

(** ** Constant samples *)

Section Constant.
  Context (lib : flib) (E : Env b64) (HE : valid_fenv lib E).
  Let EN : e_num E = B64Num lib := vf_num _ _ HE.
  Let GL : good_lib lib := vf_lib _ _ HE.
  Notation fin v := (is_finite v = true).

  Lemma Forall2_combine {A B} (P : A -> B -> Prop) u v : Forall2 P u v -> Forall (fun p => P (fst p) (snd p)) (combine u v).
  Proof. induction 1; cbn; constructor; auto. Qed.
  Lemma Forall2_len {A B} (P : A -> B -> Prop) u v : Forall2 P u v -> length u = length v.
  Proof. induction 1; cbn; auto. Qed.

  Lemma ok_inj {A} (a b : A) : @Ok A a = Ok b -> a = b.
  Proof. congruence. Qed.

  Definition zp (a b : b64) : Prop := zpair (a, b).
  Lemma isz_fin a : isz a -> fin a.
  Proof. intros [s ->]. reflexivity. Qed.
  Lemma zp_l a b : isz a -> fin b -> zp a b.
  Proof. intros H F. split; [apply isz_fin; auto|]. split; auto. Qed.
  Lemma zp_r a b : fin a -> isz b -> zp a b.
  Proof. intros F H. split; [auto|]. split; [apply isz_fin; auto|auto]. Qed.

  Lemma dot_zero u v : Forall2 zp u v -> isz (ndot (B64Num lib) u v).
  Proof.
    intros H. eapply isz_dot_of; [apply (ndot_of lib u v GL (Forall2_len _ _ _ H))|]. apply Forall2_combine in H.
    eapply Forall_impl; [|exact H]. intros [p q]. auto.
  Qed.
  Lemma sum_zero l : Forall isz l -> isz (np_sum (B64Num lib) l).
  Proof. intros H. eapply isz_sum_of; [apply (np_sum_of lib l GL)|auto]. Qed.
  Lemma sum_fin l : fin (np_sum (B64Num lib) l) -> Forall (fun v => fin v) l.
  Proof. intros H. eapply fin_sum_of; [apply (np_sum_of lib l GL)|auto]. Qed.

  Lemma from_terms_zero mp aa at_ ba bt n (bc : bool) : isz mp -> Forall2 zp (map (fun v => b64_div v (b64_ofZ (Z.of_nat n))) aa) ba ->
    zp (b64_div at_ (b64_ofZ (Z.of_nat n))) bt -> (if bc then 4 <= n else 1 <= n) ->
    exists v, dcov_from_terms E AllNumpy mp aa at_ ba bt n bc = Ok v /\ isz v.
  Proof.
    intros Hm Hd Ht Hn. unfold dcov_from_terms. rewrite EN. cbn [nmul ndiv nadd nsub nofZ B64Num]. unfold np_dot.
    rewrite (Forall2_len _ _ _ Hd), Nat.eqb_refl. cbn [rbind]. eexists. split; [reflexivity|]. apply dot_zero in Hd. apply zpair_mul in Ht.
    assert (isz (b64_mul (b64_ofZ 2) (b64_div (ndot (B64Num lib) (map (fun v => b64_div v (b64_ofZ (Z.of_nat n))) aa) ba)
      (b64_ofZ (if bc then (Z.of_nat n - 2) * (Z.of_nat n - 3) else Z.of_nat n ^ 2))))) as H2.
    { apply isz_mul_r; [reflexivity|]. apply isz_div_ofZ; auto. destruct bc; nia. }
    apply isz_add; [apply isz_sub; auto|]; apply isz_div_ofZ; auto; [apply isz_div_ofZ; auto| |]; destruct bc; nia.
  Qed.

  Lemma from_terms_fin mp ba bt n bc w : dcov_from_terms E AllNumpy mp ba bt ba bt n bc = Ok w -> fin w ->
    Forall (fun v => fin v) (map (fun v => b64_div v (b64_ofZ (Z.of_nat n))) ba) /\ Forall (fun v => fin v) ba /\
    fin (b64_div bt (b64_ofZ (Z.of_nat n))) /\ fin bt.
  Proof.
    unfold dcov_from_terms. rewrite EN. cbn [nmul ndiv nadd nsub nofZ B64Num]. unfold np_dot. rewrite map_length, Nat.eqb_refl. cbn [rbind].
    intros H F. apply ok_inj in H. subst w. apply fin_add in F as [F1 F3]. apply fin_sub in F1 as [_ F2]. apply fin_mul in F2 as [_ F2].
    apply fin_div in F2. apply fin_div in F3. apply fin_mul in F3.
    pose proof (fin_dot_of _ _ (ndot_of lib (map (fun v => b64_div v (b64_ofZ (Z.of_nat n))) ba) ba GL ltac:(apply map_length)) F2) as FD.
    assert (C : forall (u v : list b64), length u = length v -> Forall (fun p => fin (fst p) /\ fin (snd p)) (combine u v) -> Forall (fun v => fin v) u /\ Forall (fun v => fin v) v).
    { clear. induction u as [|a u IH]; intros [|b v] L H; try discriminate; auto. cbn in *. inversion H as [|? ? [H1 H2] H3]; subst.
      destruct (IH v) as [I1 I2]; auto. }
    destruct (C _ _ (map_length _ _) FD) as [I1 I2]. tauto.
  Qed.

  (** All the observations are equal and finite. *)
  Definition fconstant (x : array b64) : Prop :=
    forall i k, i < shape0 x -> k < ncols x -> is_finite (fobs x i k) = true /\ fobs x i k = fobs x 0 k.
  (** [0 ** (e / 2)] is a zero (in every C library, for e > 0); nothing is assumed for the default exponent. *)
  Definition zero_power (e : b64) : Prop := e = b64_ofZ 1 \/ forall s, exact (f_pow lib (B754_zero s) (b64_div e (b64_ofZ 2))) 0.

  Lemma fdist_zero x e u v : is_float64 x -> zero_power e -> isz (sq_norm E u v) -> isz (fdist_of lib E x e u v).
  Proof.
    intros Fx He Hs. assert (P : isz (npow (B64Num lib) (sq_norm E u v) (half E e))).
    { cbn [npow B64Num]. destruct (Beqb (half E e) b64_half) eqn:Hh; [apply isz_sqrt; auto|]. destruct He as [->|He].
      - exfalso. unfold half in Hh. rewrite EN in Hh. revert Hh. vm_compute. discriminate.
      - unfold half. rewrite EN. destruct Hs as [s ->]. apply isz_exact, He. }
    red in Fx. unfold fdist_of, dist_power. rewrite EN. destruct (can_be_numpy_double _ _ _); [|rewrite Fx; auto]. destruct (Beqb e _); auto. apply isz_sqrt; auto.
  Qed.

  Lemma sq_norm_zero u v : Forall2 (fun a b => isz (b64_sub a b)) u v -> isz (sq_norm E u v).
  Proof.
    intros H. unfold sq_norm. rewrite EN. cbn [nsub nmul B64Num]. apply sum_zero. unfold map2. induction H as [|a b u v Hab H IH]; constructor; auto. cbn. apply isz_mul_l; auto. apply isz_fin; auto.
  Qed.
  Lemma constant_dist x e i j : fconstant x -> is_float64 x -> zero_power e -> i < shape0 x -> j < shape0 x ->
    isz (fdist_of lib E x e (frow_of x i) (frow_of x j)).
  Proof.
    intros Hx Fx He Hi Hj. apply fdist_zero; auto. apply sq_norm_zero. unfold frow_of. apply Forall2_tab. intros k Hk.
    destruct (Hx i k Hi Hk) as [F1 H1]. destruct (Hx j k Hj Hk) as [F2 H2]. rewrite H2, <- H1. apply isz_sub_self; auto.
  Qed.

  Definition row_tot (m : list (list b64)) : b64 := np_sum (B64Num lib) (row_sums (B64Num lib) m).
  Definition zmat (n : nat) (a : list (list b64)) : Prop := length a = n /\ Forall (fun r => length r = n /\ Forall isz r) a.
  Definition rmat (n : nat) (a : list (list b64)) : Prop := length a = n /\ Forall (fun r => length r = n) a.
  Lemma zmat_rmat n a : zmat n a -> rmat n a.
  Proof. intros [L H]. split; auto. eapply Forall_impl; [|exact H]. intros r [Hr _]; exact Hr. Qed.
  Lemma rmat_concat n a : rmat n a -> length (concat a) = n * n.
  Proof. intros [L H]. rewrite (concat_square a n n); auto. Qed.
  Lemma zmat_rows n a : zmat n a -> Forall isz (row_sums (B64Num lib) a) /\ length (row_sums (B64Num lib) a) = n /\ isz (row_tot a) /\ Forall isz (concat a).
  Proof.
    intros [L H]. assert (F : Forall isz (row_sums (B64Num lib) a)).
    { unfold row_sums. rewrite Forall_map. eapply Forall_impl; [|exact H]. intros r [_ Hr]. apply sum_zero; auto. }
    split; [auto|]. split; [unfold row_sums; rewrite map_length; auto|]. split; [apply sum_zero; auto|].
    clear L F. induction H as [|r a [_ Hr] H IH]; cbn; auto. apply Forall_app; auto.
  Qed.
  Lemma fin_rows n b : rmat n b -> Forall (fun v => fin v) (row_sums (B64Num lib) b) -> Forall (fun v => fin v) (concat b).
  Proof.
    intros [L H] F. unfold row_sums in F. rewrite Forall_map in F. clear L. induction F as [|r b Hr F IH]; cbn; auto. inversion H; subst. apply Forall_app; split; auto.
    apply sum_fin; auto.
  Qed.
  Lemma Forall2_of {A B} (P : A -> Prop) (Q : B -> Prop) (R : A -> B -> Prop) u v : (forall a b, P a -> Q b -> R a b) -> Forall P u -> Forall Q v -> length u = length v -> Forall2 R u v.
  Proof. intros H Hu. revert v. induction Hu; intros [|b v] Hv L; try discriminate; constructor; inversion Hv; subst; auto. Qed.
  Lemma isz_axis n l : 1 <= n -> Forall isz l -> Forall isz (map (fun v => b64_div v (b64_ofZ (Z.of_nat n))) l).
  Proof. intros Hn H. rewrite Forall_map. eapply Forall_impl; [|exact H]. intros v Hv. apply isz_div_ofZ; auto. lia. Qed.

  Lemma clamp_zero v : isz v -> isz (sqrt_clamp (B64Num lib) v).
  Proof. intros [s ->]. unfold sqrt_clamp. destruct s; vm_compute; eexists; reflexivity. Qed.
  Lemma corr_zero c vx vy : isz c -> (isz vx /\ fin vy) \/ (fin vx /\ isz vy) -> isz (correlation_of E c vx vy).
  Proof.
    intros Hc H. assert (Z : isz (b64_mul vx vy)) by (destruct H as [[? ?]|[? ?]]; [apply isz_mul_l|apply isz_mul_r]; auto).
    unfold correlation_of. rewrite EN. cbn [nmul B64Num]. destruct Z as [s ->]. exists false. destruct s; vm_compute; reflexivity.
  Qed.

  (** With one matrix of zeros and another whose own term is finite, every returned number is a zero. *)
  Lemma finish_zero f n a b va vb k kv w : (if corrected f then 4 <= n else 1 <= n) ->
    (zmat n a /\ rmat n b /\ dcov_from_terms E AllNumpy vb (row_sums (B64Num lib) b) (row_tot b) (row_sums (B64Num lib) b) (row_tot b) n (corrected f) = Ok w /\ isz va) \/
    (rmat n a /\ zmat n b /\ dcov_from_terms E AllNumpy va (row_sums (B64Num lib) a) (row_tot a) (row_sums (B64Num lib) a) (row_tot a) n (corrected f) = Ok w /\ isz vb) ->
    fin w ->
    exists v, finish E f n (mkTerms (ndot (B64Num lib) (concat a) (concat b)) (row_sums (B64Num lib) a) (row_tot a) (row_sums (B64Num lib) b) (row_tot b)
      (if wants_var f then Some va else None) (if wants_var f then Some vb else None) k kv) = Ok v /\ isz v.
  Proof.
    intros Hn H Fw. assert (Hn1 : 1 <= n) by (destruct (corrected f); lia).
    assert (HC : exists c, dcov_from_terms E AllNumpy (ndot (B64Num lib) (concat a) (concat b)) (row_sums (B64Num lib) a) (row_tot a) (row_sums (B64Num lib) b) (row_tot b) n (corrected f) = Ok c /\ isz c).
    { destruct H as [(Za & Rb & Hw & _)|(Ra & Zb & Hw & _)].
      - destruct (from_terms_fin _ _ _ _ _ _ Hw Fw) as (F1 & F2 & F3 & F4). destruct (zmat_rows n a Za) as (Z1 & Z2 & Z3 & Z4).
        assert (Lb : length (row_sums (B64Num lib) b) = n) by (unfold row_sums; rewrite map_length; apply Rb).
        apply from_terms_zero; auto.
        + apply dot_zero. apply (Forall2_of isz (fun v => fin v)); auto using zp_l; [eapply fin_rows; eauto|]. rewrite !(rmat_concat n); auto using zmat_rmat.
        + apply (Forall2_of isz (fun v => fin v)); auto using zp_l, isz_axis. rewrite map_length; etransitivity; [eassumption|symmetry; eassumption].
        + apply zp_l; auto. apply isz_div_ofZ; auto. lia.
      - destruct (from_terms_fin _ _ _ _ _ _ Hw Fw) as (F1 & F2 & F3 & F4). destruct (zmat_rows n b Zb) as (Z1 & Z2 & Z3 & Z4).
        assert (La : length (row_sums (B64Num lib) a) = n) by (unfold row_sums; rewrite map_length; apply Ra).
        apply from_terms_zero; auto.
        + apply dot_zero. apply (Forall2_of (fun v => fin v) isz); auto using zp_r; [eapply fin_rows; eauto|]. rewrite !(rmat_concat n); auto using zmat_rmat.
        + apply (Forall2_of (fun v => fin v) isz); auto using zp_r. rewrite map_length; etransitivity; [eassumption|symmetry; eassumption].
        + apply zp_r; auto. }
    destruct HC as (c & HC & Zc).
    unfold finish. cbn [t_kind t_vkind t_mean_prod t_a_axis t_a_total t_b_axis t_b_total t_mp_a t_mp_b].
    rewrite !(from_terms_kind E k AllNumpy) by exact Hn. rewrite HC. cbn [rbind].
    destruct (wants_var f) eqn:W.
    2:{ eexists. split; [reflexivity|]. rewrite EN. destruct f; auto using clamp_zero. }
    rewrite !(from_terms_kind E kv AllNumpy) by exact Hn.
    destruct H as [(Za & Rb & Hw & Hva)|(Ra & Zb & Hw & Hvb)]; rewrite Hw.
    - destruct (zmat_rows n a Za) as (Z1 & Z2 & Z3 & Z4).
      destruct (from_terms_zero va (row_sums (B64Num lib) a) (row_tot a) (row_sums (B64Num lib) a) (row_tot a) n (corrected f)) as (vx & -> & Hvx); auto.
      + apply (Forall2_of isz isz); auto using isz_axis; [intros; apply zp_l; auto; apply isz_fin; auto|rewrite map_length; reflexivity].
      + apply zp_l; [apply isz_div_ofZ; auto; lia|apply isz_fin; auto].
      + cbn [rbind]. eexists. split; [reflexivity|]. rewrite EN. assert (isz (correlation_of E c vx w)) by (apply corr_zero; auto). destruct f; auto using clamp_zero.
    - destruct (zmat_rows n b Zb) as (Z1 & Z2 & Z3 & Z4).
      destruct (from_terms_zero vb (row_sums (B64Num lib) b) (row_tot b) (row_sums (B64Num lib) b) (row_tot b) n (corrected f)) as (vx & -> & Hvx); auto.
      + apply (Forall2_of isz isz); auto using isz_axis; [intros; apply zp_l; auto; apply isz_fin; auto|rewrite map_length; reflexivity].
      + apply zp_l; [apply isz_div_ofZ; auto; lia|apply isz_fin; auto].
      + cbn [rbind]. eexists. split; [reflexivity|]. rewrite EN. assert (isz (correlation_of E c w vx)) by (apply corr_zero; auto). destruct f; auto using clamp_zero.
  Qed.

  Lemma tab2_rmat n f : rmat n (tab2 n n f).
  Proof. split; [apply tab_length|]. unfold tab2, tab. rewrite Forall_map. apply Forall_forall. intros. rewrite map_length, seq_length. auto. Qed.
  Lemma tab2_zmat n f : (forall i j, i < n -> j < n -> isz (f i j)) -> zmat n (tab2 n n f).
  Proof.
    intros H. split; [apply tab_length|]. unfold tab2, tab. rewrite Forall_map. apply Forall_forall. intros i Hi. apply in_seq in Hi.
    split; [rewrite map_length, seq_length; auto|]. rewrite Forall_map. apply Forall_forall. intros j Hj. apply in_seq in Hj. apply H; lia.
  Qed.

  Lemma naive_terms_eq x y e cm rv a b n : not_forced cm -> pairwise_distances E x None e = Ok a -> pairwise_distances E y None e = Ok b ->
    rmat n a -> rmat n b ->
    outcome (method_terms E MNaive x y e cm rv) = Ok (mkTerms (ndot (B64Num lib) (concat a) (concat b))
      (row_sums (B64Num lib) a) (row_tot a) (row_sums (B64Num lib) b) (row_tot b)
      (if rv then Some (ndot (B64Num lib) (concat a) (concat a)) else None) (if rv then Some (ndot (B64Num lib) (concat b) (concat b)) else None) AllNumpy AllNumpy).
  Proof.
    intros Hc Ha Hb Ra Rb. cbn [method_terms].
    assert (L : length (concat a) = length (concat b)) by (rewrite !(rmat_concat n); auto).
    unfold dcov_terms_naive, compute_distances. rewrite Ha, Hb.
    assert (D : np_dot (e_num E) (concat a) (concat b) = Ok (ndot (B64Num lib) (concat a) (concat b))) by (unfold np_dot; rewrite L, Nat.eqb_refl, EN; reflexivity).
    destruct Hc as [-> | ->]; rewrite outcome_bind; unfold check_valid_dcov_exponent; destruct (exponent_in_range E e); cbn; rewrite D; cbn; rewrite EN; reflexivity.
  Qed.
  Lemma constant_calls f x y e cm w : not_forced cm -> wf x -> wf y -> shape0 x = shape0 y -> min_size f <= shape0 x ->
    fconstant x -> is_float64 x -> zero_power e ->
    call (if corrected f then UDcovSqr else DcovSqr) E y y e MNaive cm = Ok w -> fin w ->
    (exists v, call f E x y e MNaive cm = Ok v /\ exact v 0) /\ (exists v, call f E y x e MNaive cm = Ok v /\ exact v 0).
  Proof.
    intros Hc Wx Wy S Hn Kx Fx He Hw Fw.
    pose proof (pairwise_fdist lib E HE x e Wx) as Px. pose proof (pairwise_fdist lib E HE y e Wy) as Py. rewrite <- S in Py.
    set (a := tab2 _ _ _) in Px. set (b := tab2 _ _ _) in Py. set (n := shape0 x) in *.
    assert (Za : zmat n a) by (apply tab2_zmat; intros; apply constant_dist; auto).
    assert (Rb : rmat n b) by apply tab2_rmat. pose proof (zmat_rmat _ _ Za) as Ra. clearbody a b.
    assert (HN : if corrected f then 4 <= n else 1 <= n) by (destruct f; cbn in *; lia).
    rewrite !call_terms in *. rewrite (naive_terms_eq y y e cm _ b b n) in Hw by auto.
    rewrite (naive_terms_eq x y e cm _ a b n) by auto. rewrite (naive_terms_eq y x e cm _ b a n) by auto. cbn [rbind] in *.
    rewrite <- S. fold n. rewrite <- S in Hw. fold n in Hw.
    assert (Hw' : dcov_from_terms E AllNumpy (ndot (B64Num lib) (concat b) (concat b)) (row_sums (B64Num lib) b) (row_tot b) (row_sums (B64Num lib) b) (row_tot b) n (corrected f) = Ok w).
    { clear - Hw. destruct f; cbn [corrected] in *; unfold finish in Hw; cbn [corrected wants_var t_kind t_mean_prod t_a_axis t_a_total t_b_axis t_b_total] in Hw;
        destruct (dcov_from_terms _ _ _ _ _ _ _ _ _); cbn [rbind] in Hw; congruence. }
    assert (Va : isz (ndot (B64Num lib) (concat a) (concat a))).
    { apply dot_zero. destruct (zmat_rows n a Za) as (_ & _ & _ & Z4). apply (Forall2_of isz isz); auto. intros; apply zp_l; auto; apply isz_fin; auto. }
    split.
    - destruct (finish_zero f n a b (ndot (B64Num lib) (concat a) (concat a)) (ndot (B64Num lib) (concat b) (concat b)) AllNumpy AllNumpy w) as (v & Hv & Zv); auto.
      exists v. split; [exact Hv|]. apply isz_exact; auto.
    - destruct (finish_zero f n b a (ndot (B64Num lib) (concat b) (concat b)) (ndot (B64Num lib) (concat a) (concat a)) AllNumpy AllNumpy w) as (v & Hv & Zv); auto.
      exists v. split; [exact Hv|]. apply isz_exact; auto.
  Qed.
End Constant.

(** The distance matrix of a float64 sample is symmetric bit for bit, whatever the exponent; its diagonal is zero when the observations are finite. *)
Theorem C68_distance_matrix lib E x e : valid_fenv lib E -> wf x ->
  exists d, pairwise_distances E x None e = Ok d /\
    (forall i j, i < shape0 x -> j < shape0 x -> nth j (nth i d []) B754_nan = nth i (nth j d []) B754_nan) /\
    (is_float64 x -> zero_power lib e -> forall i, i < shape0 x -> (forall k, k < ncols x -> is_finite (fobs x i k) = true) ->
      exact (nth i (nth i d []) B754_nan) 0).
Proof.
  intros HE Wx. eexists. split; [apply (pairwise_fdist lib E HE); auto|]. split.
  - intros i j Hi Hj. unfold tab2. rewrite !tab_nth by auto. apply (fdist_swap lib E HE).
  - intros Fx He i Hi Hf. unfold tab2. rewrite !tab_nth by auto. apply isz_exact, fdist_zero; auto. apply sq_norm_zero with (lib := lib); auto.
    unfold frow_of. apply Forall2_tab. intros k Hk. apply isz_sub_self; auto.
Qed.

(** A sample whose observations are all equal: every dependence measure is exactly zero, for both argument orders and in spite of rounding. *)
Theorem C68_constant lib E f x y e cm w : valid_fenv lib E -> not_forced cm -> wf x -> wf y -> shape0 x = shape0 y -> min_size f <= shape0 x ->
  fconstant x -> is_float64 x -> zero_power lib e ->
  call (if corrected f then UDcovSqr else DcovSqr) E y y e MNaive cm = Ok w -> is_finite w = true ->
  (exists v, call f E x y e MNaive cm = Ok v /\ exact v 0) /\ (exists v, call f E y x e MNaive cm = Ok v /\ exact v 0).
Proof. intros HE. intros. eapply constant_calls; eauto. Qed.

(** Exchanging the two samples is NOT one of these identities: the squared distance covariance of three integers changes in
    its last bits, because only the first sample's row sums are divided by n before the product (_dcor_internals.py:301-327). *)
Theorem C68_swap_refuted :
  exists x y v w, double_pair 3 x y /\ call DcovSqr env_F x y (b64_ofZ 1) MNaive CNoCompile = Ok v /\
    call DcovSqr env_F y x (b64_ofZ 1) MNaive CNoCompile = Ok w /\ (B2R v < B2R w)%R.
Proof.
  set (l := [0; 1; 3]%Z). set (l' := [1; 2; 7]%Z).
  assert (V : sf (call DcovSqr env_F (ints l) (ints l') (b64_ofZ 1) MNaive CNoCompile) = Ok (SpecFloat.S754_finite false 5671199530762842 (-51))) by (vm_compute; reflexivity).
  assert (W : sf (call DcovSqr env_F (ints l') (ints l) (b64_ofZ 1) MNaive CNoCompile) = Ok (SpecFloat.S754_finite false 5671199530762846 (-51))) by (vm_compute; reflexivity).
  destruct (sf_ok _ _ V ltac:(discriminate)) as [V1 V2]. destruct (sf_ok _ _ W ltac:(discriminate)) as [W1 W2].
  exists (ints l), (ints l'). eexists. eexists.
  split; [apply ints_pair; auto; try lia; repeat constructor; cbn; lia|]. split; [exact V1|]. split; [exact W1|].
  rewrite (B2SF_real _ _ _ _ V2), (B2SF_real _ _ _ _ W2).
  unfold F2R. cbn [Fnum Fexp cond_Zopp]. apply Rmult_lt_compat_r; [apply bpow_gt_0|]. apply IZR_lt. reflexivity.
Qed.

(** A constant sample of four observations against 1, 2, 4, 8: the premises of C68_constant hold for all six functions. *)
Example C68_meets f : let x := ints [3; 3; 3; 3]%Z in let y := ints [1; 2; 4; 8]%Z in
  (exists v, call f env_F x y (b64_ofZ 1) MNaive CAuto = Ok v /\ exact v 0) /\ (exists v, call f env_F y x (b64_ofZ 1) MNaive CAuto = Ok v /\ exact v 0) /\
  (exists v, call DcovSqr env_F y y (b64_ofZ 1) MNaive CAuto = Ok v /\ (0 < B2R v)%R).
Proof.
  intros x y.
  assert (V : sf (call DcovSqr env_F y y (b64_ofZ 1) MNaive CAuto) = Ok (SpecFloat.S754_finite false 5365616743546880 (-50))) by (vm_compute; reflexivity).
  assert (W : sf (call UDcovSqr env_F y y (b64_ofZ 1) MNaive CAuto) = Ok (SpecFloat.S754_finite false 6004799503160672 (-51))) by (vm_compute; reflexivity).
  destruct (sf_ok _ _ V ltac:(discriminate)) as [V1 V2]. destruct (sf_ok _ _ W ltac:(discriminate)) as [W1 W2].
  assert (Q : exists w, call (if corrected f then UDcovSqr else DcovSqr) env_F y y (b64_ofZ 1) MNaive CAuto = Ok w /\ is_finite w = true).
  { destruct (corrected f); eexists; (split; [eassumption|]); rewrite <- is_finite_SF_B2SF; [rewrite W2|rewrite V2]; reflexivity. }
  destruct Q as (w & Q1 & Q2).
  destruct (C68_constant plain env_F f x y (b64_ofZ 1) CAuto w env_F_valid) as [A B]; auto.
  - left; reflexivity.
  - split; cbn; auto.
  - split; cbn; auto.
  - destruct f; cbn; lia.
  - intros i k Hi Hk. unfold x in *. cbn in Hi, Hk. destruct k; [|lia]. assert (H : fobs (ints [3; 3; 3; 3]%Z) i 0 = b64_ofZ 3) by (do 4 (destruct i; [reflexivity|]); lia).
    rewrite H. split; reflexivity.
  - reflexivity.
  - left; reflexivity.
  - split; [exact A|]. split; [exact B|]. eexists. split; [exact V1|]. rewrite (B2SF_real _ _ _ _ V2). unfold F2R. cbn [Fnum Fexp cond_Zopp].
    apply Rmult_lt_0_compat; [apply IZR_lt; reflexivity|apply bpow_gt_0].
Qed.

(** Two samples with two coordinates; the first coordinate of one of them is negated. *)
Example C68_meets_reflection : let x := mkArr Numpy F64 (Mat 2 (map (map b64_ofZ) [[1; 2]; [3; 5]; [-4; 7]]%Z)) in
  wf x /\ reflected (fun k => k =? 0) x = mkArr Numpy F64 (Mat 2 (map (map b64_ofZ) [[-1; 2]; [-3; 5]; [4; 7]]%Z)) /\
  (exists s, outcome (distance_stats_sqr env_F x (ints [1; 5; 2]%Z) (b64_ofZ 1) (MethodEnum MNaive) CAuto) = Ok s).
Proof.
  intros x. split; [repeat constructor|]. split.
  - unfold reflected, x. cbn [ans adt adata reflect_data]. f_equal. f_equal. cbn [map map2 seq length combine fst snd flip Nat.eqb].
    assert (O : Bopp (b64_ofZ 1) = b64_ofZ (-1) /\ Bopp (b64_ofZ 3) = b64_ofZ (-3) /\ Bopp (b64_ofZ (-4)) = b64_ofZ 4) by (repeat split; apply B2SF_inj; vm_compute; reflexivity).
    destruct O as (-> & -> & ->). reflexivity.
  - assert (K : (match outcome (distance_stats_sqr env_F x (ints [1; 5; 2]%Z) (b64_ofZ 1) (MethodEnum MNaive) CAuto) with Ok _ => true | Err _ => false end) = true)
      by (vm_compute; reflexivity).
    destruct (outcome _) as [s|ex]; [eauto|discriminate].
Qed.
