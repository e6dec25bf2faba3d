(** Refinement for integer samples: the integer part of a computation is exact modulo 2^64. *)
From Coq Require Import Reals Lra Lia List Arith Bool ZArith.
From Verif Require Import Num Numpy MUtils MDistances MInternals MMergesort MAvl MDcor MInteger Sums Spec Tab
  Samples Centering RefDist RefAvl RefDcor Api Witness RefApi Calls Transfer Hom.
Import ListNotations.
Local Open Scope R_scope.

(** Contracts of the external routines on integers: argsort sorts integer arrays, np.empty has the
    requested size. *)
Record valid_henv (w : Z -> Z) (E : Env hR) : Prop := {
  vh_num : e_num E = HNum w;
  vh_argsort : forall l : list Z, sorts (map IZR l) (e_argsort E (map HI l));
  vh_empty : forall n, length (e_empty E n) = n }.

Definition fits64 (z : Z) : Prop := (- 2 ^ 63 <= z < 2 ^ 63)%Z.

Lemma wrap64_id z : fits64 z -> wrap 64 z = z.
Proof. unfold fits64, wrap. intros H. rewrite Z.mod_small; lia. Qed.
Lemma wrap64_eq z : wrap 64 z = ((z + 2 ^ 63) mod 2 ^ 64 - 2 ^ 63)%Z.
Proof. reflexivity. Qed.
Lemma wrap64_cong z : exists k, wrap 64 z = (z + k * 2 ^ 64)%Z.
Proof.
  rewrite wrap64_eq. exists (- ((z + 2 ^ 63) / 2 ^ 64))%Z.
  pose proof (Z.div_mod (z + 2 ^ 63) (2 ^ 64) ltac:(lia)). lia.
Qed.
Lemma wrap64_add z k : wrap 64 (z + k * 2 ^ 64) = wrap 64 z.
Proof.
  rewrite !wrap64_eq. f_equal. replace (z + k * 2 ^ 64 + 2 ^ 63)%Z with (z + 2 ^ 63 + k * 2 ^ 64)%Z by ring.
  apply Z.mod_add. lia.
Qed.

Definition wI (z : Z) : hR := HI (wrap 64 z).
Lemma wI_add a b : hop (wrap 64) Z.add xadd (wI a) (wI b) = wI (a + b).
Proof.
  cbn. unfold wI. f_equal. destruct (wrap64_cong a) as [k ->], (wrap64_cong b) as [l ->].
  rewrite <- (wrap64_add (a + b) (k + l)). f_equal. ring.
Qed.
Lemma wI_sub a b : hop (wrap 64) Z.sub xsub (wI a) (wI b) = wI (a - b).
Proof.
  cbn. unfold wI. f_equal. destruct (wrap64_cong a) as [k ->], (wrap64_cong b) as [l ->].
  rewrite <- (wrap64_add (a - b) (k - l)). f_equal. ring.
Qed.
Lemma wI_mul a b : hop (wrap 64) Z.mul xmul (wI a) (wI b) = wI (a * b).
Proof.
  cbn. unfold wI. f_equal. destruct (wrap64_cong a) as [k ->], (wrap64_cong b) as [l ->].
  rewrite <- (wrap64_add (a * b) (a * l + k * b + k * l * 2 ^ 64)). f_equal. ring.
Qed.
Lemma wI_scal z a : hop (wrap 64) Z.mul xmul (HI z) (wI a) = wI (z * a).
Proof.
  cbn. unfold wI. f_equal. destruct (wrap64_cong a) as [l ->].
  rewrite <- (wrap64_add (z * a) (z * l)). f_equal. ring.
Qed.

(** Environments of exact integers and of reals with the same sorting. *)
Definition ZNum : Num Z := WNum (fun z => z).
Section Envs.
  Context (w : Z -> Z) (E : Env hR) (HE : valid_henv w E).
  Definition int_env : Env Z :=
    mkEnv Z ZNum (fun l => e_argsort E (map HI l)) (fun n => repeat 0%Z n) (fun _ => ([], [])) (fun _ _ => 0%Z) (e_nsp_is_np E).
  Definition hreal_argsort (l : list R) : list nat :=
    let l' := map (fun r => (up r - 1)%Z) l in
    if list_eq_dec Req_EM_T (map IZR l') l then e_argsort E (map HI l') else argsort_R l.
  Definition hreal_env : Env R :=
    mkEnv R RNum hreal_argsort (fun n => repeat 0 n) (fun _ => ([], [])) (fun _ _ => 0) (e_nsp_is_np E).

  Lemma up_IZR z : (up (IZR z) - 1)%Z = z.
  Proof.
    destruct (archimed (IZR z)) as [H1 H2]. assert (up (IZR z) = z + 1)%Z; [|lia].
    apply lt_IZR in H1. apply (Rplus_le_compat_r (IZR z)) in H2.
    replace (IZR (up (IZR z)) - IZR z + IZR z) with (IZR (up (IZR z))) in H2 by ring.
    replace (1 + IZR z) with (IZR (1 + z)) in H2 by (rewrite plus_IZR; reflexivity).
    apply le_IZR in H2. lia.
  Qed.
  Lemma hreal_argsort_int l : hreal_argsort (map IZR l) = e_argsort E (map HI l).
  Proof.
    unfold hreal_argsort. assert (map (fun r => (up r - 1)%Z) (map IZR l) = l) as ->.
    { rewrite map_map. rewrite <- (map_id l) at 2. apply map_ext, up_IZR. }
    destruct (list_eq_dec _ _ _); [reflexivity|contradiction].
  Qed.
  Lemma hreal_env_valid : valid_env hreal_env.
  Proof.
    split; cbn; auto using repeat_length. intros l. unfold hreal_argsort.
    destruct (list_eq_dec _ _ _) as [H|H]; [|apply (ve_argsort _ (env_R_valid true))].
    rewrite <- H at 1. apply (vh_argsort _ _ HE).
  Qed.
End Envs.

Section EnvsAvl.
  Context (E : Env hR) (HE : valid_henv (wrap 64) E).
  Notation int_env := (int_env E).
  Notation hreal_env := (hreal_env E).

  (** AVL on int64 vectors: the exact integer result, reduced; whose real version is the textbook one. *)
  Lemma avl_int oob k kv (x y : list Z) : Forall fits64 x -> Forall fits64 y ->
    exists r, terms_avl_impl int_env false oob k kv x y false = r /\
      terms_avl_impl E false oob k kv (map HI x) (map HI y) false = rmap (hom_terms wI) r /\
      terms_avl_impl hreal_env false oob k kv (map IZR x) (map IZR y) false = rmap (hom_terms IZR) r.
  Proof.
    intros Fx Fy. eexists. split; [reflexivity|].
    assert (HwI : forall l, Forall fits64 l -> map HI l = map wI l).
    { intros l Hl. apply map_ext_in. intros z Hz. rewrite Forall_forall in Hl. unfold wI. rewrite wrap64_id; auto. }
    split.
    - rewrite (HwI x), (HwI y) by auto. apply (hom_avl int_env E wI fits64); auto; try (unfold sequential; rewrite ?(vh_num _ _ HE); intros; reflexivity).
      all: try rewrite (vh_num _ _ HE); cbn [e_num int_env ZNum WNum nadd nsub nmul nzero nunit nofZ HNum].
      all: auto using wI_add, wI_sub, wI_mul, wI_scal, repeat_length.
      + unfold fits64. lia.
      + intros l Hl. rewrite <- HwI by auto. reflexivity.
      + intros. cbn. apply repeat_length.
      + apply (vh_empty _ _ HE).
    - apply (hom_avl int_env hreal_env IZR (fun _ => True)); auto; try (intros l; reflexivity).
      all: cbn [e_num int_env hreal_env ZNum WNum RNum nadd nsub nmul nzero nunit nofZ].
      all: intros; auto using plus_IZR, minus_IZR, mult_IZR, eq_sym.
      + apply hreal_argsort_int.
      + cbn. apply repeat_length.
      + cbn. apply repeat_length.
      + apply Forall_forall; auto.
      + apply Forall_forall; auto.
  Qed.
End EnvsAvl.

(** ** From integers and floats to floats *)

Section Float.
  Context (w : Z -> Z) (E : Env hR) (EN : e_num E = HNum w).
  (** any environment of extended reals; only its numbers matter *)
  Context (EX : Env xR) (HX : valid_xenv EX).

  Lemma dot_H a b : ndot (HNum w) a b = np_sum (HNum w) (map2 (nmul (HNum w)) a b).
  Proof. reflexivity. Qed.
  Lemma dot_X a b : ndot XNum a b = np_sum XNum (map2 xmul a b).
  Proof. reflexivity. Qed.
  Lemma hsum_acc l : forall a, fold_left (hop w Z.add xadd) (map HF l) (HF a) = HF (fold_left xadd l a).
  Proof. induction l as [|b l IH]; intros a; cbn; auto. Qed.
  Lemma hsum l : l <> [] -> np_sum (HNum w) (map HF l) = HF (np_sum XNum l).
  Proof. intros H. destruct l as [|a l]; [contradiction|]. unfold np_sum. cbn. apply hsum_acc. Qed.
  Lemma hdot (a : list xR) (b : list hR) : a <> [] -> length a = length b ->
    np_dot (HNum w) (map HF a) b = rmap HF (np_dot XNum a (map hx b)).
  Proof.
    intros Ha Hl. unfold np_dot. rewrite !map_length, Hl, Nat.eqb_refl. cbn [rmap]. f_equal. rewrite dot_H, dot_X.
    assert (map2 (nmul (HNum w)) (map HF a) b = map HF (map2 xmul a (map hx b))) as ->.
    { clear Ha. revert b Hl. induction a as [|u a IH]; intros [|v b] Hl; try discriminate; auto.
      cbn. f_equal. apply IH. cbn in Hl. lia. }
    apply hsum. destruct a, b; try discriminate; try contradiction.
  Qed.

  Lemma h_from_terms k mp aa at_ ba bt n (bc : bool) : aa <> [] -> length aa = length ba ->
    dcov_from_terms E k mp aa at_ ba bt n bc
    = rmap HF (dcov_from_terms EX k (hx mp) (map hx aa) (hx at_) (map hx ba) (hx bt) n bc).
  Proof.
    intros Ha Hl. unfold dcov_from_terms. rewrite EN, (vx_num _ HX).
    assert (map (fun v => ndiv (HNum w) v (nofZ (HNum w) (Z.of_nat n))) aa
            = map HF (map (fun v => ndiv XNum v (nofZ XNum (Z.of_nat n))) (map hx aa))) as ->.
    { rewrite !map_map. reflexivity. }
    rewrite hdot; [|destruct aa; [contradiction|discriminate]|rewrite !map_length; auto].
    apply (rbind_map HF); [reflexivity|]. intros s _.
    match goal with |- (if ?b then _ else _) = _ => destruct b; cbn [rmap]; auto end.
  Qed.
End Float.

(** Terms of the model whose numbers, as reals, are [t]. *)
Definition denotes (rv : bool) (t : terms (T:=R)) (th : terms (T:=hR)) : Prop :=
  t_kind th = t_kind t /\ t_vkind th = t_vkind t /\
  hx (t_mean_prod th) = Fin (t_mean_prod t) /\ map hx (t_a_axis th) = map Fin (t_a_axis t) /\
  hx (t_a_total th) = Fin (t_a_total t) /\ map hx (t_b_axis th) = map Fin (t_b_axis t) /\
  hx (t_b_total th) = Fin (t_b_total t) /\
  (rv = true -> option_map hx (t_mp_a th) = option_map Fin (t_mp_a t) /\
                option_map hx (t_mp_b th) = option_map Fin (t_mp_b t)).

Lemma valid_xenv_ex : exists EX, valid_xenv EX.
Proof.
  exists (mkEnv xR XNum (fun l => argsort_R (map xtor l)) (fun n => repeat NaN n) (fun _ => ([], [])) (fun _ _ => NaN) true).
  split; cbn; auto using repeat_length. intros l. rewrite map_map. cbn. rewrite map_id. apply (ve_argsort _ (env_R_valid true)).
Qed.

Section Finish.
  Context (w : Z -> Z) (E : Env hR) (EN : e_num E = HNum w) (ER : Env R) (HR : valid_env ER).

  Definition hf (r : R) : hR := HF (Fin r).

  Lemma h_value k mp aa at_ ba bt mph aah ath bah bth n (bc : bool) :
    hx mph = Fin mp -> map hx aah = map Fin aa -> hx ath = Fin at_ -> map hx bah = map Fin ba -> hx bth = Fin bt ->
    aa <> [] -> length aa = length ba -> (1 <= n)%nat -> (bc = true -> (4 <= n)%nat) ->
    dcov_from_terms E k mph aah ath bah bth n bc = rmap hf (dcov_from_terms ER k mp aa at_ ba bt n bc).
  Proof.
    intros D1 D2 D3 D4 D5 Ha Hl Hn Hb. destruct valid_xenv_ex as [EX HX].
    assert (La : length aah = length aa) by (apply (f_equal (@length _)) in D2; rewrite !map_length in D2; auto).
    assert (Lb : length bah = length ba) by (apply (f_equal (@length _)) in D4; rewrite !map_length in D4; auto).
    rewrite (h_from_terms w E EN EX HX); [|intros H0; rewrite H0 in La; destruct aa; [contradiction|discriminate]|congruence].
    rewrite D1, D2, D3, D4, D5. rewrite fin_from_terms by auto.
    assert (forall (ER' : Env R), e_num ER' = RNum -> forall k mp aa at_ ba bt n bc,
      dcov_from_terms ER' k mp aa at_ ba bt n bc = dcov_from_terms ER k mp aa at_ ba bt n bc) as HRR.
    { intros ER' H'. intros. unfold dcov_from_terms. rewrite H', (ve_num _ HR). reflexivity. }
    rewrite (HRR (real_env EX)) by reflexivity.
    destruct (dcov_from_terms ER _ _ _ _ _ _ _ _); reflexivity.
  Qed.

  Lemma h_sqrt_clamp a r : hx a = Fin r -> hx (sqrt_clamp (HNum w) a) = Fin (sqrt_clamp RNum r).
  Proof.
    intros H. rewrite <- fin_sqrt_clamp. unfold sqrt_clamp. cbn [nsqrt nltb nzero HNum XNum hx]. rewrite H.
    destruct (xltb (Fin r) (Fin 0)); cbn [hx]; rewrite ?H; reflexivity.
  Qed.
  Lemma h_correlation c vx vy : hx (correlation_of E (hf c) (hf vx) (hf vy)) = Fin (correlation_of ER c vx vy).
  Proof.
    unfold correlation_of. rewrite EN, (ve_num _ HR).
    set (d := sqrt_clamp (HNum w) _). assert (Hd : hx d = Fin (sqrt_clamp RNum (nabs RNum (nmul RNum vx vy)))).
    { apply h_sqrt_clamp. reflexivity. }
    clearbody d. cbn [neqb nzero ndiv HNum RNum]. rewrite Hd. set (dr := sqrt_clamp RNum _) in *. cbn [hx xeqb].
    destruct (Reqb_spec dr 0); [reflexivity|]. cbn [hx]. apply fin_div. auto.
  Qed.

  Lemma h_finish f t th n : denotes (wants_var f) t th -> t_a_axis t <> [] -> length (t_a_axis t) = length (t_b_axis t) ->
    (min_size f <= n)%nat -> rmap hx (finish E f n th) = rmap Fin (finish ER f n t).
  Proof.
    intros (K1 & K2 & D1 & D2 & D3 & D4 & D5 & D6) Ha Hl Hn.
    assert (Hb : t_b_axis t <> []) by (intros H; rewrite H in Hl; destruct (t_a_axis t); [contradiction|discriminate]).
    assert (Hn1 : (1 <= n)%nat) by (destruct f; cbn in Hn; lia).
    assert (Hc : corrected f = true -> (4 <= n)%nat) by (destruct f; cbn in *; try discriminate; lia).
    unfold finish. rewrite K1, K2, (h_value _ _ _ _ _ _ _ _ _ _ _ _ _ D1 D2 D3 D4 D5) by auto.
    destruct (dcov_from_terms ER (t_kind t) _ _ _ _ _ _ _) as [c|ex]; cbn [rmap rbind].
    2: destruct (wants_var f); reflexivity.
    destruct (wants_var f) eqn:Hv.
    - destruct (D6 eq_refl) as [Da Db].
      assert (Dv : forall o o', option_map hx o = option_map Fin o' ->
        hx (match o with Some v => v | None => nzero (e_num E) end) = Fin (match o' with Some v => v | None => nzero (e_num ER) end)).
      { intros [v|] [v'|]; cbn [option_map]; try discriminate. congruence. rewrite EN, (ve_num _ HR). reflexivity. }
      rewrite (h_value _ _ _ _ _ _ _ _ _ _ _ _ _ (Dv _ _ Da) D2 D3 D2 D3) by auto.
      destruct (dcov_from_terms ER (t_vkind t) _ _ _ _ _ _ _) as [vx|ex]; cbn [rmap rbind]; auto.
      rewrite (h_value _ _ _ _ _ _ _ _ _ _ _ _ _ (Dv _ _ Db) D4 D5 D4 D5) by auto.
      destruct (dcov_from_terms ER (t_vkind t) _ _ _ _ _ _ _) as [vy|ex]; cbn [rmap rbind]; auto.
      f_equal. pose proof (h_correlation c vx vy) as Hcor.
      destruct f; auto; rewrite EN, (ve_num _ HR); apply h_sqrt_clamp; auto.
    - cbn [rmap]. f_equal. destruct f; auto; rewrite EN, (ve_num _ HR); apply h_sqrt_clamp; auto.
  Qed.
End Finish.

Lemma terms_ok_axis n a b rv t : (1 <= n)%nat -> terms_ok n a b rv t ->
  t_a_axis t <> [] /\ length (t_a_axis t) = length (t_b_axis t).
Proof.
  intros Hn (_ & H2 & _ & H4 & _). rewrite H2, H4, !tab_length. split; auto.
  intros H. apply (f_equal (@length _)) in H. rewrite tab_length in H. cbn in H. lia.
Qed.

(** ** The shape of integer arrays *)

Lemma amap_shape0 {A B} (f : A -> B) x : shape0 (amap f x) = shape0 x.
Proof. destruct x as [s d [v|c rows]]; cbn; apply map_length. Qed.
Lemma amap_ncols {A B} (f : A -> B) x : ncols (amap f x) = ncols x.
Proof. destruct x as [s d [v|c rows]]; reflexivity. Qed.
Lemma amap_1d {A B} (f : A -> B) x : transform_to_1d (adata (amap f x)) = rmap (map f) (transform_to_1d (adata x)).
Proof.
  destruct x as [s d [v|c rows]]; cbn; auto. destruct (c =? 1); cbn; auto. rewrite concat_map. reflexivity.
Qed.
Lemma amap_2d {A B} (f : A -> B) x :
  transform_to_2d (adata (amap f x)) = (ncols x, map (map f) (snd (transform_to_2d (adata x)))).
Proof. destruct x as [s d [v|c rows]]; cbn; auto. rewrite !map_map. reflexivity. Qed.

(** Entries of an array. *)
Definition entries {A} (x : array A) : list A := match adata x with Vec v => v | Mat _ rows => concat rows end.
Lemma entries_1d {A} (x : array A) v : transform_to_1d (adata x) = Ok v -> v = entries x.
Proof. destruct x as [s d [u|c rows]]; cbn; [congruence|]. destruct (c =? 1); congruence. Qed.

(** ** AVL on int64 samples *)

Section AvlInt.
  Context (E : Env hR) (HE : valid_henv (wrap 64) E) (x y : array Z) (n : nat).
  Hypothesis Hp : paired n (reals x) (reals y).
  Hypothesis Hn : (4 <= n)%nat.
  Hypothesis Ux : univariate x.
  Hypothesis Uy : univariate y.
  Hypothesis Sx : adt x = SInt.
  Hypothesis Nx : ans x = Numpy.
  Hypothesis Fx : Forall fits64 (entries x).
  Hypothesis Fy : Forall fits64 (entries y).
  Notation a := (distances 1 (reals x)).
  Notation b := (distances 1 (reals y)).

  Lemma avl_terms_int cm : not_forced cm -> exists tz : terms (T:=Z),
    outcome (terms_avl E (ints x) (ints y) (HI 1) cm false) = Ok (hom_terms wI tz) /\
    terms_ok n a b false (hom_terms IZR tz).
  Proof.
    intros Hcm. destruct Hp as (Wx & Wy & Lx & Ly & _).
    pose proof (hreal_env_valid _ E HE) as HR.
    assert (Hux : ncols (reals x) = 1%nat) by (unfold reals; rewrite amap_ncols; auto).
    assert (Huy : ncols (reals y) = 1%nat) by (unfold reals; rewrite amap_ncols; auto).
    pose proof (transform_to_1d_tab (reals x) Wx Hux) as Tx. pose proof (transform_to_1d_tab (reals y) Wy Huy) as Ty.
    unfold reals in Tx, Ty. rewrite amap_1d in Tx, Ty. fold (reals x) in Tx. fold (reals y) in Ty.
    destruct (transform_to_1d (adata x)) as [vx|] eqn:Ex; [|discriminate].
    destruct (transform_to_1d (adata y)) as [vy|] eqn:Ey; [|discriminate]. cbn [rmap] in Tx, Ty.
    injection Tx as Tx. injection Ty as Ty. rewrite Lx in Tx. rewrite Ly in Ty.
    pose proof (entries_1d x vx Ex) as Vx. pose proof (entries_1d y vy Ey) as Vy. rewrite <- Vx in Fx. rewrite <- Vy in Fy.
    assert (exists tz, terms_avl_impl E false IndexError AllNumpy AllNumpy (map HI vx) (map HI vy) false = Ok (hom_terms wI tz)
      /\ terms_ok n a b false (hom_terms IZR tz)) as (tz & T1 & T2).
    { destruct (avl_int E HE IndexError AllNumpy AllNumpy vx vy Fx Fy) as (r & _ & H1 & H2).
      rewrite Tx, Ty in H2.
      destruct (terms_avl_impl_ok (hreal_env E) HR n (fun i => obs (reals x) i 0) (fun i => obs (reals y) i 0) Hn
        false IndexError AllNumpy AllNumpy false) as (t & Ht & _ & _ & Hok).
      rewrite Ht in H2. destruct r as [tz|]; [|discriminate]. cbn [rmap] in H1, H2. injection H2 as H2.
      exists tz. split; [auto|]. rewrite <- H2. eapply terms_ok_ext; [| |exact Hok]; intros; symmetry; apply distances_1; auto. }
    exists tz. split; [|exact T2].
    unfold terms_avl. rewrite (vh_num _ _ HE). cbn [neqb nunit HNum hx xeqb]. rewrite Reqb_refl. cbn [negb].
    unfold ints. rewrite !amap_1d, Ex, Ey. cbn [rmap]. rewrite !outcome_bind. cbn [outcome lift snd]. rewrite outcome_bind. cbn [outcome lift snd].
    rewrite (together_l (amap HI x)) by exact Nx. cbn [adt amap]. rewrite Sx.
    destruct Hcm as [-> | ->]; cbn [impls is_auto].
    - unfold try_impls, avl_impl. cbn [is_f64 andb]. rewrite T1. reflexivity.
    - unfold try_impls, avl_impl. rewrite T1. reflexivity.
  Qed.

  Lemma method_avl_int m cm : not_forced cm -> m = MAvl \/ m = MAuto /\ ans y = Numpy ->
    method_terms E m (ints x) (ints y) (HI 1) cm false = terms_avl E (ints x) (ints y) (HI 1) cm false.
  Proof.
    intros Hcm [-> | [-> Ny]]; [reflexivity|]. cbn [method_terms]. unfold terms_auto, can_use_fast_algorithm.
    destruct Hp as (_ & _ & Lx & Ly & _). unfold reals in Lx, Ly. rewrite amap_shape0 in Lx, Ly.
    unfold ints. rewrite !amap_shape0, Lx, Ly. rewrite (together_l (amap HI x)) by exact Nx. cbn [is_numpy andb].
    assert (Hrv : forall z : array Z, univariate z -> is_random_variable (adata (amap HI z)) = true).
    { intros [s d [v|c rows]] U; cbn in *; auto. unfold univariate in U. cbn in U. subst c. reflexivity. }
    rewrite !Hrv by auto.
    assert ((3 <? n)%nat = true) as -> by (apply Nat.ltb_lt; lia). cbn [andb].
    rewrite (vh_num _ _ HE). cbn [neqb nunit HNum hx xeqb]. rewrite Reqb_refl. reflexivity.
  Qed.
End AvlInt.

(** ** Naive distances of integer samples *)

Section NaiveInt.
  Context (d : idtype) (Hk : (1 <= width d)%Z) (E : Env hR) (HE : valid_henv (reduce d) E).
  Let EN : e_num E = HNum (reduce d) := vh_num _ _ HE.
  Let ER := hreal_env E.
  Let HR : valid_env ER := hreal_env_valid _ E HE.

  Lemma reduce_id z : (0 <= z < limit d)%Z -> reduce d z = z.
  Proof.
    destruct d as [k|k]; cbn in *; unfold wrap, uwrap; intros H.
    - rewrite Z.mod_small; [lia|]. assert (2 ^ k = 2 * 2 ^ (k - 1))%Z by (rewrite <- Z.pow_succ_r by lia; f_equal; lia). lia.
    - apply Z.mod_small. auto.
  Qed.
  Lemma reduce_cong z : exists q, reduce d z = (z + q * 2 ^ width d)%Z.
  Proof.
    destruct d as [k|k]; cbn in *; unfold wrap, uwrap; assert (0 < 2 ^ k)%Z by (apply Z.pow_pos_nonneg; lia).
    - exists (- ((z + 2 ^ (k - 1)) / 2 ^ k))%Z. pose proof (Z.div_mod (z + 2 ^ (k - 1)) (2 ^ k) ltac:(lia)). lia.
    - exists (- (z / 2 ^ k))%Z. pose proof (Z.div_mod z (2 ^ k) ltac:(lia)). lia.
  Qed.
  Lemma reduce_add z q : reduce d (z + q * 2 ^ width d) = reduce d z.
  Proof.
    destruct d as [k|k]; cbn in *; unfold wrap, uwrap; assert (0 < 2 ^ k)%Z by (apply Z.pow_pos_nonneg; lia).
    - f_equal. replace (z + q * 2 ^ k + 2 ^ (k - 1))%Z with (z + 2 ^ (k - 1) + q * 2 ^ k)%Z by ring. apply Z.mod_add. lia.
    - apply Z.mod_add. lia.
  Qed.
  Lemma reduce_sq z : reduce d (reduce d z * reduce d z) = reduce d (z * z).
  Proof.
    destruct (reduce_cong z) as [q ->]. set (m := (2 ^ width d)%Z).
    rewrite <- (reduce_add (z * z) (2 * z * q + q * q * m)). fold m. f_equal. ring.
  Qed.

  Fixpoint isq (u v : list Z) : Z :=
    match u, v with p :: u', q :: v' => ((p - q) * (p - q) + isq u' v')%Z | _, _ => 0%Z end.
  Lemma isq_nonneg u : forall v, (0 <= isq u v)%Z.
  Proof. induction u as [|p u IH]; intros [|q v]; cbn [isq]; try lia. specialize (IH v). pose proof (Z.square_nonneg (p - q)). lia. Qed.

  Lemma fold_plus l : forall b, fold_left Rplus l b = b + fold_left Rplus l 0.
  Proof. induction l as [|c l IH]; intros b; cbn; [ring|]. rewrite IH, (IH (0 + c)). ring. Qed.
  Lemma isq_real u : forall v, sq_norm ER (map IZR u) (map IZR v) = IZR (isq u v).
  Proof.
    unfold sq_norm, np_sum. rewrite (ve_num _ HR). change (nsum RNum) with (seq_sum Rplus 0). unfold seq_sum. cbn [nadd nzero nsub nmul RNum].
    induction u as [|p u IH]; intros [|q v]; try reflexivity.
    cbn [map isq]. rewrite plus_IZR, mult_IZR, minus_IZR, <- IH.
    unfold map2 at 1. cbn [combine map fst snd fold_left]. rewrite fold_plus.
    unfold map2. ring.
  Qed.
  Lemma isq_int_acc u : forall v (a : Z), (0 <= a)%Z -> (a + isq u v < limit d)%Z ->
    fold_left (nadd (HNum (reduce d)))
      (map2 (fun p q => let r := nsub (HNum (reduce d)) p q in nmul (HNum (reduce d)) r r) (map HI u) (map HI v)) (HI a)
    = HI (a + isq u v)%Z.
  Proof.
    induction u as [|p u IH]; intros [|q v] a Ha Hs; try (cbn; rewrite Z.add_0_r; reflexivity).
    cbn [isq] in *. pose proof (isq_nonneg u v). assert (Hsq : (0 <= (p - q) * (p - q))%Z) by apply Z.square_nonneg.
    set (sq := ((p - q) * (p - q))%Z) in *.
    specialize (IH v (a + sq)%Z ltac:(lia) ltac:(lia)). rewrite Z.add_assoc, <- IH.
    cbn [map]. unfold map2. cbn [combine map fst snd fold_left]. f_equal.
    cbn [nadd nsub nmul HNum hop]. rewrite reduce_sq. fold sq. rewrite (reduce_id sq) by lia. rewrite reduce_id by lia. reflexivity.
  Qed.
  Lemma isq_int u v : (isq u v < limit d)%Z -> sq_norm E (map HI u) (map HI v) = HI (isq u v).
  Proof. intros H. unfold sq_norm, np_sum. rewrite EN. apply (isq_int_acc u v 0); lia. Qed.

  Lemma bcast_same {A} c (u : list A) : length u = c -> bcast_row c u = u.
  Proof. destruct u as [|a [|b u]]; cbn; intros <-; reflexivity. Qed.

  Context (h : hR) (e : R) (Hh : hx h = Fin e) (He : 0 < e).

  Lemma idist_power dt u v : (dt = SInt \/ dt = UInt) -> (isq u v < limit d)%Z ->
    dist_power E dt (sq_norm E (map HI u) (map HI v)) h = hf (dist_power ER dt (sq_norm ER (map IZR u) (map IZR v)) e).
  Proof.
    intros Hd Hl. rewrite isq_int, isq_real by auto. unfold dist_power, half. rewrite EN, (ve_num _ HR).
    cbn [npow ndiv nofZ HNum RNum hx]. rewrite Hh.
    assert (Hp : HF (xpow (Fin (IZR (isq u v))) (xdiv (Fin e) (Fin 2))) = hf (Rpow_py (IZR (isq u v)) (e / 2))).
    { unfold hf. f_equal. rewrite fin_div by lra. apply fin_pow; [apply (IZR_le 0), isq_nonneg|lra]. }
    destruct Hd as [-> | ->]; exact Hp.
  Qed.

  (** Every squared distance between observations can be held by the dtype. *)
  Definition squares_fit (x : array Z) : Prop :=
    forall i j, (i < shape0 x)%nat -> (j < shape0 x)%nat ->
    dist (ncols x) (obs (reals x) i) (obs (reals x) j) ^ 2 < IZR (limit d).

  Definition int_dtype (x : array Z) : Prop := adt x = SInt \/ adt x = UInt.
  (** Not handed over to scipy. *)
  Definition not_scipy (x : array Z) : Prop := ans x = Numpy -> e_nsp_is_np E = false \/ adt x = UInt.

  Lemma not_scipy_false x : not_scipy x -> int_dtype x -> can_be_numpy_double E (ans x) (adt x) = false /\ can_be_numpy_double ER (ans x) (adt x) = false.
  Proof.
    unfold not_scipy, can_be_numpy_double. change (e_nsp_is_np ER) with (e_nsp_is_np E). intros H Hd.
    destruct (ans x); auto. destruct (H eq_refl) as [-> | ->]; auto. split; apply andb_false_r.
  Qed.

  Lemma pairwise_int x : wf x -> int_dtype x -> not_scipy x -> squares_fit x ->
    pairwise_distances E (ints x) None h = rmap (map (map hf)) (pairwise_distances ER (reals x) None e).
  Proof.
    intros Wx Hd Hs Hf. unfold pairwise_distances, ints, reals. rewrite !amap_2d. cbn [ans adt amap].
    unfold pdist. destruct (not_scipy_false x Hs Hd) as [-> ->].
    unfold cdist_naive. rewrite Nat.eqb_refl. cbn [orb rmap]. f_equal.
    replace (if ncols x =? 1 then ncols x else ncols x)%nat with (ncols x) by (destruct (ncols x =? 1)%nat; auto).
    set (rows := snd (transform_to_2d (adata x))).
    assert (Wr : wf (reals x)). { destruct x as [s dt [v|c rws]]; cbn in *; auto. rewrite Forall_map. eapply Forall_impl; [|exact Wx]. cbn. intros. rewrite map_length. auto. }
    assert (Hrows : map (map IZR) rows = tab2 (shape0 x) (ncols x) (obs (reals x))).
    { pose proof (transform_to_2d_tab (reals x) Wr) as H. unfold reals in H at 1. rewrite amap_2d in H. injection H as _ H.
      unfold reals in H. rewrite amap_shape0, amap_ncols in H. exact H. }
    assert (Hin : forall u v, In u rows -> In v rows -> (isq u v < limit d)%Z /\ length u = ncols x).
    { intros u v Hu Hv. destruct (In_nth rows u [] Hu) as (i & Hi & Ei). destruct (In_nth rows v [] Hv) as (j & Hj & Ej).
      assert (Lr : length rows = shape0 x) by (apply (f_equal (@length _)) in Hrows; rewrite map_length in Hrows; unfold tab2 in Hrows; rewrite tab_length in Hrows; auto).
      assert (Hr : forall k, (k < length rows)%nat -> map IZR (nth k rows []) = tab (ncols x) (obs (reals x) k)).
      { intros k Hk'. rewrite <- (map_nth (map IZR)), Hrows. unfold tab2. rewrite tab_nth by lia. reflexivity. }
      split.
      - apply lt_IZR. rewrite <- isq_real, <- Ei, <- Ej, !Hr by auto. rewrite (sq_norm_tab ER (ve_num _ HR)).
        specialize (Hf i j ltac:(lia) ltac:(lia)). unfold dist in Hf. rewrite pow2_sqrt in Hf by apply rsum_sq_nonneg. exact Hf.
      - rewrite <- Ei, <- (map_length IZR), Hr by auto. apply tab_length. }
    rewrite !map_map. apply map_ext_in. intros v Hv. rewrite !map_map. apply map_ext_in. intros u Hu.
    destruct (Hin u v Hu Hv) as [Hlt Lu]. destruct (Hin v u Hv Hu) as [_ Lv].
    rewrite !bcast_same by (rewrite map_length; auto). apply idist_power; auto.
  Qed.
End NaiveInt.

Lemma hf_sum w l : l <> [] -> np_sum (HNum w) (map hf l) = hf (np_sum RNum l).
Proof.
  intros H. unfold hf. rewrite <- (map_map Fin HF), hsum, fin_sum; auto. destruct l; [contradiction|discriminate].
Qed.
Lemma hf_mul w a b : map2 (hop w Z.mul xmul) (map hf a) (map hf b) = map hf (map2 Rmult a b).
Proof. apply (map2_maps hf hf hf). reflexivity. Qed.
Lemma tab2_rows n (f : nat -> nat -> R) : (1 <= n)%nat ->
  (forall u, In u (tab2 n n f) -> u <> []) /\ concat (tab2 n n f) <> [] /\ row_sums RNum (tab2 n n f) <> [].
Proof.
  intros Hn. split; [|destruct n as [|n']; [lia|split; discriminate]].
  intros u Hu. unfold tab2, tab in Hu. apply in_map_iff in Hu. destruct Hu as (i & <- & _). intros H. apply (f_equal (@length _)) in H.
  rewrite map_length, seq_length in H. cbn in H. lia.
Qed.
Lemma hf_row_sums w n f : (1 <= n)%nat -> row_sums (HNum w) (map (map hf) (tab2 n n f)) = map hf (row_sums RNum (tab2 n n f)).
Proof. intros Hn. unfold row_sums. rewrite !map_map. apply map_ext_in. intros u Hu. apply hf_sum. apply (tab2_rows n f Hn). auto. Qed.
Lemma map2_nonempty {A B C} (f : A -> B -> C) l k : l <> [] -> k <> [] -> map2 f l k <> [].
Proof. destruct l, k; try contradiction. discriminate. Qed.
Lemma wf_reals (z : array Z) : wf z -> wf (reals z).
Proof.
  destruct z as [s dt [v|c rws]]; unfold wf; cbn; auto. rewrite Forall_map. apply Forall_impl. intros. rewrite map_length. auto.
Qed.

Lemma naive_int d (Hk : (1 <= width d)%Z) E (HE : valid_henv (reduce d) E) h e x y n cm rv :
  hx h = Fin e -> 0 < e -> wf x -> wf y -> shape0 x = n -> shape0 y = n -> (1 <= n)%nat ->
  int_dtype x -> int_dtype y -> not_scipy E x -> not_scipy E y -> squares_fit d x -> squares_fit d y -> not_forced cm ->
  exists t, outcome (dcov_terms_naive E (ints x) (ints y) h cm rv) = Ok (hom_terms hf t) /\
    terms_ok n (distances e (reals x)) (distances e (reals y)) rv t.
Proof.
  intros Hh He Wx Wy Lx Ly Hn Dx Dy Sx Sy Fx Fy Hcm.
  pose proof (hreal_env_valid _ E HE) as HR. pose proof (wf_reals x Wx) as Wrx. pose proof (wf_reals y Wy) as Wry.
  assert (outcome (dcov_terms_naive E (ints x) (ints y) h cm rv) = outcome (dcov_terms_naive E (ints x) (ints y) h CNoCompile rv)) as ->
    by (destruct Hcm; subst; reflexivity).
  assert (Hch : outcome (check_valid_dcov_exponent E h) = Ok tt) by (unfold check_valid_dcov_exponent; destruct (exponent_in_range E h); reflexivity).
  unfold dcov_terms_naive, compute_distances. rewrite !outcome_bind, Hch.
  rewrite (pairwise_int d Hk E HE h e Hh He x), (pairwise_int d Hk E HE h e Hh He y) by auto.
  rewrite !(pairwise_distances_one _ (ve_num _ HR)) by auto.
  assert (Lr : forall z : array Z, shape0 (reals z) = shape0 z) by (intros; apply amap_shape0). rewrite !Lr, Lx, Ly.
  destruct (tab2_rows n (distances e (reals x)) Hn) as (_ & Ca & Ra).
  destruct (tab2_rows n (distances e (reals y)) Hn) as (_ & Cb & Rb).
  rewrite (vh_num _ _ HE). simpl. unfold np_dot. rewrite <- !concat_map, !map_length, !concat_length_tab2, Nat.eqb_refl. simpl. rewrite !dot_H. cbn [nmul HNum].
  unfold symmetric_matrix_sums. rewrite (vh_num _ _ HE), !hf_row_sums, !hf_mul, !hf_sum by auto using map2_nonempty.
  exists (mkTerms (np_sum RNum (map2 Rmult (concat (tab2 n n (distances e (reals x)))) (concat (tab2 n n (distances e (reals y))))))
    (row_sums RNum (tab2 n n (distances e (reals x)))) (np_sum RNum (row_sums RNum (tab2 n n (distances e (reals x)))))
    (row_sums RNum (tab2 n n (distances e (reals y)))) (np_sum RNum (row_sums RNum (tab2 n n (distances e (reals y)))))
    (if rv then Some (np_sum RNum (map2 Rmult (concat (tab2 n n (distances e (reals x)))) (concat (tab2 n n (distances e (reals x)))))) else None)
    (if rv then Some (np_sum RNum (map2 Rmult (concat (tab2 n n (distances e (reals y)))) (concat (tab2 n n (distances e (reals y)))))) else None)
    AllNumpy AllNumpy).
  split.
  - unfold hom_terms; simpl. destruct rv; reflexivity.
  - unfold terms_ok; simpl.
    rewrite !map2_concat_tab2, !np_sum_concat_tab2, !row_sums_tab2, !np_sum_tab.
    repeat split; auto; subst rv; auto.
Qed.

Lemma hf_denotes rv t : denotes rv t (hom_terms hf t).
Proof.
  unfold denotes, hom_terms. cbn. rewrite !map_map. repeat split; auto.
  all: destruct (t_mp_a t), (t_mp_b t); reflexivity.
Qed.
