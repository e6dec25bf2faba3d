(** Covariances of integer valued double precision samples: the terms are the exact integers. *)
From Coq Require Import Reals Lra Lia List Arith Bool ZArith Permutation.
From Flocq Require Import Core IEEE754.BinarySingleNaN.
From Verif Require Import Num Numpy MUtils MDistances MInternals MMergesort MAvl MDcor MInteger MFloat Sums Spec Tab
  Samples Centering RefDist RefAvl RefDcor Api Witness RefApi Calls AvlGeneric Transfer Hom RefInteger RefFloat FloatError FloatSum FloatAvl.
Import ListNotations.
Local Open Scope R_scope.

(** Double precision arithmetic whose sums add every element once, in any order; argsort returns a permutation of the positions and sorts finite doubles; np.empty has
    the requested size. *)
Record valid_fenv (lib : flib) (E : Env b64) : Prop := {
  vf_num : e_num E = B64Num lib;
  vf_lib : good_lib lib;
  vf_perm : forall l, is_perm (length l) (e_argsort E l);
  vf_sorts : forall l : list b64, Forall (fun v => is_finite v = true) l -> sorts (map B2R l) (e_argsort E l);
  vf_empty : forall n, length (e_empty E n) = n }.
Lemma valid_seq lib E : valid_fenv lib E -> valid_fenv (seq_lib lib) (seq_env E).
Proof.
  intros [HN HG HP HS HE]. split; auto using good_seq_lib. cbn [seq_env e_num]. rewrite HN. apply seq_num_lib.
Qed.

(** The integer array [x] as doubles. *)
Definition doubles (x : array Z) : array b64 := amap b64_ofZ x.

(** The double [v] is exactly the real [r]. *)
Definition exact (v : b64) (r : R) : Prop := is_finite v = true /\ B2R v = r.
Lemma exact_eqz v w r : exact v r -> exact w r -> eqz v w.
Proof. intros (Fv & Rv) (Fw & Rw). apply eqz_of_real; auto. congruence. Qed.
Definition exacts (l : list b64) (rs : list R) : Prop := Forall2 exact l rs.
Lemma exacts_eqz l : forall l' rs, exacts l rs -> exacts l' rs -> eqzs l l'.
Proof.
  induction l as [|v l IH]; intros l' rs H H'; inversion H; subst; inversion H'; subst; constructor; eauto using exact_eqz.
  eapply IH; eauto.
Qed.

Definition exact_terms (n : nat) (a b : nat -> nat -> R) (t : terms (T:=b64)) : Prop :=
  exact (t_mean_prod t) (rsum2 n n (fun i j => a i j * b i j)) /\
  exacts (t_a_axis t) (tab n (fun i => rsum n (a i))) /\ exact (t_a_total t) (rsum2 n n a) /\
  exacts (t_b_axis t) (tab n (fun i => rsum n (b i))) /\ exact (t_b_total t) (rsum2 n n b).

Lemma rep_exact K a z : rep K a z -> exact a (IZR z).
Proof. intros (F & Rr & _). split; auto. Qed.
Lemma reps_exact K l : forall zs, reps K l zs -> exacts l (map IZR zs).
Proof. induction l as [|a l IH]; intros zs H; inversion H; subst; cbn [map]; constructor; [eapply rep_exact; eauto|apply IH; auto]. Qed.
Lemma rep_exact_terms n a b t tz : terms_rep t tz -> terms_ok n a b false (hom_terms IZR tz) -> exact_terms n a b t.
Proof.
  intros (R1 & R2 & R3 & R4 & R5) (M1 & M2 & M3 & M4 & M5 & _).
  cbn [t_mean_prod t_a_axis t_a_total t_b_axis t_b_total hom_terms] in M1, M2, M3, M4, M5.
  red. rewrite <- M1, <- M2, <- M3, <- M4, <- M5. split; [|split; [|split; [|split]]]; eauto using rep_exact, reps_exact.
Qed.

(** ** AVL *)

Section Avl.
  Context (lib : flib) (E : Env b64) (HE : valid_fenv lib E).

  (** the same sorting, as integers *)
  Definition h_argsort (l : list hR) : list nat :=
    let l' := map (fun h => match h with HI z => z | HF _ => 0%Z end) l in
    if forallb (fun z => (Z.abs z <=? 2 ^ 53)%Z) l' then e_argsort E (map b64_ofZ l') else argsort_R (map IZR l').
  Definition h_env : Env hR :=
    mkEnv hR (HNum (wrap 64)) h_argsort (fun n => repeat (HI 0) n) (fun _ => ([], [])) (fun _ _ => HI 0) (e_nsp_is_np E).
  Lemma h_env_valid : valid_henv (wrap 64) h_env.
  Proof.
    split; cbn; auto using repeat_length. intros l. unfold h_argsort. rewrite map_map, map_id.
    destruct (forallb _ l) eqn:Hl; [|apply (ve_argsort _ (env_R_valid true))].
    rewrite forallb_forall in Hl.
    assert (Hr : forall z, In z l -> rep (Z.abs z) (b64_ofZ z) z) by (intros; apply rep_ofZ, Z.leb_le, Hl; auto).
    assert (map IZR l = map B2R (map b64_ofZ l)) as ->.
    { rewrite map_map. apply map_ext_in. intros z Hz. symmetry. apply (Hr z Hz). }
    apply (vf_sorts _ _ HE). apply Forall_map, Forall_forall. intros z Hz. apply (Hr z Hz).
  Qed.

  Lemma avl_exact (x y : list Z) X Y n k kv oob : length x = n -> length y = n -> (4 <= n)%nat ->
    Forall (fun z => Z.abs z <= X)%Z x -> Forall (fun z => Z.abs z <= Y)%Z y -> (1 <= X)%Z -> (1 <= Y)%Z ->
    (32 * Z.of_nat (Nat.log2_up n) * Z.of_nat n ^ 2 * (X * Y) <= 2 ^ 53)%Z ->
    exists t, terms_avl_impl E false oob k kv (map b64_ofZ x) (map b64_ofZ y) false = Ok t /\
      exact_terms n (fun i j => Rabs (IZR (nth i x 0%Z) - IZR (nth j x 0%Z))) (fun i j => Rabs (IZR (nth i y 0%Z) - IZR (nth j y 0%Z))) t.
  Proof.
    intros Lx Ly Hn HX HY X1 Y1 HB.
    pose proof h_env_valid as HH. pose proof (hreal_env_valid _ h_env HH) as HR.
    assert (X * Y <= 2 ^ 53)%Z as BXY.
    { pose proof (Nat.log2_up_le_mono 4 n Hn) as HL. change (Nat.log2_up 4) with 2%nat in HL.
      assert (1 <= 32 * Z.of_nat (Nat.log2_up n) * Z.of_nat n ^ 2)%Z by nia. nia. }
    assert (X <= X * Y)%Z as BX by nia. assert (Y <= X * Y)%Z as BY by nia.
    assert (Fx : Forall fits64 x) by (eapply Forall_impl; [|exact HX]; cbn; unfold fits64; intros; lia).
    assert (Fy : Forall fits64 y) by (eapply Forall_impl; [|exact HY]; cbn; unfold fits64; intros; lia).
    destruct (avl_int h_env HH oob k kv x y Fx Fy) as (r & H0 & _ & H2).
    assert (Tx : forall l : list Z, length l = n -> map IZR l = tab n (fun i => IZR (nth i l 0%Z))).
    { intros l Hl. rewrite <- Hl. rewrite (tab_of_list 0%Z l) at 1. rewrite tab_map. reflexivity. }
    rewrite (Tx x), (Tx y) in H2 by auto.
    destruct (terms_avl_impl_ok _ HR n (fun i => IZR (nth i x 0%Z)) (fun i => IZR (nth i y 0%Z)) Hn false oob k kv false) as (t & Ht & _ & _ & Hok).
    rewrite Ht in H2. destruct r as [tz|]; [|discriminate]. cbn [rmap] in H2. injection H2 as H2. subst t.
    assert (rel terms_rep (terms_avl_impl E false oob k kv (map b64_ofZ x) (map b64_ofZ y) false) (terms_avl_impl (int_env h_env) false oob k kv x y false)) as Hs.
    { apply (avl_sim lib (vf_lib _ _ HE)) with (X := X) (Y := Y) (n := n); auto.
      - apply (vf_num _ _ HE).
      - intros l Hl. cbn [int_env e_argsort h_env]. unfold h_argsort. rewrite map_map, map_id.
        assert (forallb (fun z => (Z.abs z <=? 2 ^ 53)%Z) l = true) as -> ; [|reflexivity].
        apply forallb_forall. rewrite Forall_forall in Hl. intros z Hz. apply Z.leb_le, Hl; auto.
      - apply (vf_empty _ _ HE).
      - intros. cbn. apply repeat_length.
      - intros l. cbn [int_env e_argsort]. pose proof (vh_argsort _ _ HH l) as (H & _). rewrite map_length in H. apply is_perm_length, H. }
    rewrite H0 in Hs. destruct (terms_avl_impl E _ _ _ _ _ _ _) as [t|]; [|contradiction].
    exists t. split; auto. eapply rep_exact_terms; eauto.
  Qed.
End Avl.

(** ** Naive *)

Lemma nnz_ofZ z : (Z.abs z <= 2 ^ 53)%Z -> nnz (b64_ofZ z).
Proof.
  intros Hz H0. destruct (rep_ofZ z Hz) as (_ & Rz & _). rewrite Rz in H0. apply eq_IZR in H0. subst z. reflexivity.
Qed.

Lemma sum_one_pos l s : sum_of l s -> forall a, l = [a] -> a <> B754_zero true -> s = a.
Proof.
  induction 1 as [s|a|l l' a b Ha IHa Hb IHb|l l' a Hp Ha IH]; intros c Hl Hc; try discriminate.
  - congruence.
  - assert (Z : forall v : b64, eqz v (B754_zero false) -> exists t, v = B754_zero t) by (intros v [->|(t & _ & -> & _)]; eauto).
    destruct l as [|u [|u' l]]; cbn [app] in Hl.
    + destruct (Z a (sum_nil _ _ Ha eq_refl)) as [t ->]. rewrite (IHb c Hl Hc). destruct c as [[]|[]| |[] m e He]; try reflexivity; [congruence|].
      destruct t; reflexivity.
    + injection Hl as -> ->. rewrite (IHa c eq_refl Hc). destruct (Z b (sum_nil _ _ Hb eq_refl)) as [t ->].
      destruct c as [[]|[]| |[] m e He]; try reflexivity; [congruence|]. destruct t; reflexivity.
    + discriminate.
  - subst l'. apply Permutation_sym, Permutation_length_1_inv in Hp. auto.
Qed.

Definition zdist (l : list Z) : list (list Z) := map (fun u => map (fun v => Z.abs (u - v)) l) l.

Section Naive.
  Context (lib : flib) (E : Env b64) (HE : valid_fenv lib E).
  Let EN : e_num E = B64Num lib := vf_num _ _ HE.

  Lemma sq_norm_1 X u v : (Z.abs u <= X)%Z -> (Z.abs v <= X)%Z -> (4 * X ^ 2 <= 2 ^ 53)%Z ->
    let s := sq_norm E [b64_ofZ u] [b64_ofZ v] in
    rep (2 ^ 53) s (Z.abs (u - v) * Z.abs (u - v)) /\ b64_sqrt s = b64_ofZ (Z.abs (u - v)).
  Proof.
    intros Hu Hv HX s. assert (X2 : (2 * X * (2 * X) = 4 * X ^ 2)%Z) by ring.
    assert (X0 : (0 <= X)%Z) by lia.
    assert (XB : (2 * X <= 2 ^ 53)%Z) by nia.
    assert (Hd : rep (X + X) (b64_sub (b64_ofZ u) (b64_ofZ v)) (u - v)).
    { apply rep_sub; [| |lia]; (eapply rep_weaken; [apply rep_ofZ; lia|lia]). }
    assert (Hdd : rep ((X + X) * (X + X)) (b64_mul (b64_sub (b64_ofZ u) (b64_ofZ v)) (b64_sub (b64_ofZ u) (b64_ofZ v))) ((u - v) * (u - v))).
    { apply rep_mul; auto. lia. }
    assert (Hs : rep (2 ^ 53) s (Z.abs (u - v) * Z.abs (u - v))).
    { unfold s, sq_norm, map2. rewrite EN. cbn [combine map fst snd B64Num nsub nmul].
      replace (Z.abs (u - v) * Z.abs (u - v))%Z with (np_sum ZNum [((u - v) * (u - v))%Z]) by (rewrite <- Z.abs_mul, Z.abs_eq by apply Z.square_nonneg; apply sum_Z_one).
      eapply rep_weaken; [eapply (rep_sum_of ((X + X) * (X + X))); [apply np_sum_of, (vf_lib _ _ HE)|repeat constructor; apply Hdd|cbn [length]; lia]|cbn [length]; lia]. }
    split; auto. assert (Z.abs (u - v) <= 2 ^ 53)%Z by lia.
    assert (Hq := rep_sqrt _ _ _ Hs ltac:(lia) ltac:(lia)).
    eapply rep_eq; [exact Hq|apply rep_ofZ; lia| |apply nnz_ofZ; lia].
    apply nnz_sqrt.
    unfold s, sq_norm, map2. rewrite EN. cbn [combine map fst snd B64Num nsub nmul].
    set (q := b64_mul _ _) in *.
    assert (Nq : nnz q) by (apply (nnz_mul_sign (X + X) (X + X) _ _ (u - v) (u - v)); auto; lia).
    rewrite (sum_one_pos _ _ (np_sum_of lib [q] (vf_lib _ _ HE)) q eq_refl); auto.
    intros H0. red in Nq. rewrite H0 in Nq. discriminate Nq. reflexivity.
  Qed.

  Lemma half_one : half E (nunit (e_num E)) = b64_half.
  Proof. unfold half. rewrite EN. reflexivity. Qed.
  Lemma half_half : Beqb b64_half b64_half = true.
  Proof. vm_compute. reflexivity. Qed.
  Lemma one_one : Beqb (b64_ofZ 1) (b64_ofZ 1) = true.
  Proof. vm_compute. reflexivity. Qed.

  Lemma rows_1 (x : array Z) : wf (reals x) -> univariate x -> snd (transform_to_2d (adata x)) = map (fun z => [z]) (entries x).
  Proof.
    destruct x as [s d [v|c rows]]; unfold univariate, entries; cbn; auto. intros W ->.
    induction rows as [|r rows IH]; auto. inversion W as [|? ? Hr Hrs]; subst. rewrite map_length in Hr.
    destruct r as [|a [|b r]]; try discriminate. cbn. f_equal. auto.
  Qed.

  Lemma pairwise_F X (x : array Z) : wf (reals x) -> univariate x -> (adt x = F64) ->
    Forall (fun z => Z.abs z <= X)%Z (entries x) -> (4 * X ^ 2 <= 2 ^ 53)%Z ->
    pairwise_distances E (doubles x) None (b64_ofZ 1) = Ok (map (map b64_ofZ) (zdist (entries x))).
  Proof.
    intros Wx Ux Fx HX HB. unfold pairwise_distances, doubles. rewrite amap_2d, Ux, rows_1 by auto. cbn [ans adt amap].
    rewrite map_map. set (l := entries x) in *. unfold zdist. rewrite map_map. rewrite Forall_forall in HX.
    unfold pdist. destruct (can_be_numpy_double E (ans x) (adt x)).
    - unfold cdist_scipy. cbn [Nat.eqb]. f_equal. rewrite !map_map. apply map_ext_in. intros u Hu. rewrite !map_map. apply map_ext_in. intros v Hv.
      rewrite EN. cbn [neqb nunit nsqrt B64Num]. rewrite one_one. apply (sq_norm_1 X); auto.
    - unfold cdist_naive. cbn [Nat.eqb orb]. f_equal. rewrite !map_map. apply map_ext_in. intros u Hu. rewrite !map_map. apply map_ext_in. intros v Hv.
      unfold bcast_row. unfold dist_power. rewrite Fx. change (b64_ofZ 1) with (nunit (B64Num lib)). rewrite <- EN, half_one, EN. cbn [npow B64Num].
      rewrite half_half. replace (u - v)%Z with (- (v - u))%Z by ring. rewrite Z.abs_opp. apply (sq_norm_1 X); auto.
  Qed.
End Naive.

Section NaiveExact.
  Context (lib : flib) (E : Env b64) (HE : valid_fenv lib E).
  Let EN : e_num E = B64Num lib := vf_num _ _ HE.

  Let GL : good_lib lib := vf_lib _ _ HE.

  Lemma sum_IZR zs : np_sum RNum (map IZR zs) = IZR (np_sum ZNum zs).
  Proof. induction zs as [|z zs IH]; [reflexivity|]. cbn [map]. rewrite sum_R_cons, sum_Z_cons, plus_IZR, IH. reflexivity. Qed.
  Lemma sum_exact K l zs : reps K l zs -> (len l * K <= 2 ^ 53)%Z -> exact (np_sum (B64Num lib) l) (np_sum RNum (map IZR zs)).
  Proof. intros H HK. rewrite sum_IZR. eapply rep_exact, (reps_sum lib GL K); auto. Qed.

  (** rows of integers whose doubles are summed *)
  Lemma rows_exact K rows m : Forall (fun r => length r = m /\ Forall (fun z => Z.abs z <= K)%Z r) rows -> (K <= 2 ^ 53)%Z -> (Z.of_nat m * K <= 2 ^ 53)%Z ->
    exacts (row_sums (B64Num lib) (map (map b64_ofZ) rows)) (row_sums RNum (map (map IZR) rows)).
  Proof.
    intros H HK HB. unfold row_sums. rewrite !map_map. induction H as [|r rows [Hl Hr] _ IH]; cbn [map]; constructor; auto.
    apply (sum_exact K); [apply reps_ofZ; auto|]. unfold len. rewrite map_length, Hl. auto.
  Qed.
  Lemma map_IZR_mul p q : map IZR (map2 Z.mul p q) = map2 Rmult (map IZR p) (map IZR q).
  Proof. revert q. induction p as [|a p IH]; intros [|b q]; auto. unfold map2 in *. cbn. rewrite mult_IZR. f_equal. apply IH. Qed.

  Lemma dot_exact K L a b p q : reps K a p -> reps L b q -> length a = length b -> (len a * (K * L) <= 2 ^ 53)%Z ->
    exact (ndot (B64Num lib) a b) (np_sum RNum (map2 Rmult (map IZR p) (map IZR q))).
  Proof.
    intros Ha Hb Hl HK. rewrite <- map_IZR_mul, sum_IZR. unfold map2. eapply rep_exact, (rep_dot_of K L (combine a b)).
    - apply ndot_of; auto.
    - clear HK. revert b q Hb Hl. induction Ha as [|u z a p Hu Ha IH]; intros b q Hb Hl; destruct Hb as [|v w b q Hv Hb]; try discriminate; constructor; auto.
    - rewrite combine_length, <- Hl, Nat.min_id. auto.
  Qed.
  Lemma total_exact K rows m : Forall (fun r => length r = m /\ Forall (fun z => Z.abs z <= K)%Z r) rows -> (K <= 2 ^ 53)%Z ->
    (Z.of_nat m * K <= 2 ^ 53)%Z -> (len rows * (Z.of_nat m * K) <= 2 ^ 53)%Z ->
    exact (np_sum (B64Num lib) (row_sums (B64Num lib) (map (map b64_ofZ) rows))) (np_sum RNum (row_sums RNum (map (map IZR) rows))).
  Proof.
    intros H HK HB HT. unfold row_sums. rewrite !map_map.
    rewrite (map_ext _ (fun r => IZR (np_sum ZNum r))) by (intros; apply sum_IZR). rewrite <- (map_map (np_sum ZNum) IZR).
    apply (sum_exact (Z.of_nat m * K)); [|unfold len in *; rewrite map_length; auto].
    clear HT. induction H as [|r rows [Hl Hr] _ IH]; cbn [map]; constructor; auto.
    rewrite <- Hl at 1. rewrite <- (map_length b64_ofZ r). apply (reps_sum lib GL K); [apply reps_ofZ; auto|].
    unfold len. rewrite map_length, Hl. auto.
  Qed.

  Lemma zdist_rows X l : (Forall (fun z => Z.abs z <= X)%Z l) ->
    Forall (fun r => length r = length l /\ Forall (fun z => Z.abs z <= 2 * X)%Z r) (zdist l).
  Proof.
    intros H. rewrite Forall_forall in H. unfold zdist. apply Forall_map, Forall_forall. intros u Hu. split; [apply map_length|].
    apply Forall_map, Forall_forall. intros v Hv. pose proof (H u Hu). pose proof (H v Hv). lia.
  Qed.
  Lemma zdist_length l : length (zdist l) = length l.
  Proof. apply map_length. Qed.
  Lemma concat_rows_length {A} (rows : list (list A)) m : Forall (fun r => length r = m) rows -> length (concat rows) = (length rows * m)%nat.
  Proof. induction 1; cbn; auto. rewrite app_length. lia. Qed.
  Lemma concat_Forall {A} (P : A -> Prop) rows : Forall (Forall P) rows -> Forall P (concat rows).
  Proof. induction 1; cbn; auto. apply Forall_app; auto. Qed.

  Lemma zdist_IZR (x : array Z) : wf (reals x) -> univariate x ->
    map (map IZR) (zdist (entries x)) = tab2 (shape0 x) (shape0 x) (distances 1 (reals x)).
  Proof.
    intros Wx Ux. assert (Ux' : univariate (reals x)) by (unfold univariate, reals; rewrite amap_ncols; auto).
    pose proof (transform_to_1d_tab (reals x) Wx Ux') as T. unfold reals in T. rewrite amap_1d, amap_shape0 in T. fold (reals x) in T.
    destruct (transform_to_1d (adata x)) as [v|] eqn:Ev; [|discriminate]. cbn [rmap] in T. injection T as T.
    rewrite <- (entries_1d x v Ev). unfold zdist.
    assert (E2 : map (map IZR) (map (fun u => map (fun w => Z.abs (u - w)) v) v)
      = map (fun u => map (fun w => Rabs (u - w)) (map IZR v)) (map IZR v)).
    { rewrite !map_map. apply map_ext. intros u. rewrite !map_map. apply map_ext. intros w. rewrite abs_IZR, minus_IZR. reflexivity. }
    rewrite E2, T. unfold tab2. rewrite tab_map. apply tab_ext. intros i Hi. rewrite tab_map. apply tab_ext. intros j Hj.
    symmetry. apply distances_1. auto.
  Qed.

  Lemma entries_length (x : array Z) : wf (reals x) -> univariate x -> length (entries x) = shape0 x.
  Proof.
    intros Wx Ux. pose proof (f_equal (@length _) (zdist_IZR x Wx Ux)) as H. rewrite map_length, zdist_length in H.
    unfold tab2 in H. rewrite tab_length in H. auto.
  Qed.

  Lemma check_exponent_F e : outcome (check_valid_dcov_exponent E e) = Ok tt.
  Proof. unfold check_valid_dcov_exponent. destruct (exponent_in_range E e); reflexivity. Qed.

  Lemma naive_exact (x y : array Z) X Y n cm :
    paired n (reals x) (reals y) -> univariate x -> univariate y -> adt x = F64 -> adt y = F64 ->
    Forall (fun z => Z.abs z <= X)%Z (entries x) -> Forall (fun z => Z.abs z <= Y)%Z (entries y) -> (1 <= X)%Z -> (1 <= Y)%Z ->
    (4 * X ^ 2 <= 2 ^ 53)%Z -> (4 * Y ^ 2 <= 2 ^ 53)%Z -> (4 * Z.of_nat n ^ 2 * (X * Y) <= 2 ^ 53)%Z -> not_forced cm ->
    exists t, outcome (dcov_terms_naive E (doubles x) (doubles y) (b64_ofZ 1) cm false) = Ok t /\
      exact_terms n (distances 1 (reals x)) (distances 1 (reals y)) t.
  Proof.
    intros (Wx & Wy & Lx & Ly & N1) Ux Uy Fx Fy HX HY X1 Y1 BX BY BXY Hcm.
    assert (outcome (dcov_terms_naive E (doubles x) (doubles y) (b64_ofZ 1) cm false)
            = outcome (dcov_terms_naive E (doubles x) (doubles y) (b64_ofZ 1) CNoCompile false)) as ->
      by (destruct Hcm; subst; reflexivity).
    unfold reals in Lx, Ly. rewrite amap_shape0 in Lx, Ly.
    pose proof (zdist_IZR x Wx Ux) as Zx. pose proof (zdist_IZR y Wy Uy) as Zy. rewrite Lx in Zx. rewrite Ly in Zy.
    pose proof (entries_length x Wx Ux) as lx. pose proof (entries_length y Wy Uy) as ly. rewrite Lx in lx. rewrite Ly in ly.
    pose proof (zdist_rows X _ HX) as Rx. pose proof (zdist_rows Y _ HY) as Ry. rewrite lx in Rx. rewrite ly in Ry.
    unfold dcov_terms_naive, compute_distances.
    rewrite !outcome_bind, check_exponent_F.
    rewrite (pairwise_F lib E HE X x), (pairwise_F lib E HE Y y) by auto. rewrite EN. cbn [outcome lift snd bind ret].
    set (zx := zdist (entries x)) in *. set (zy := zdist (entries y)) in *.
    assert (Lzx : length zx = n) by (unfold zx; rewrite zdist_length; auto).
    assert (Lzy : length zy = n) by (unfold zy; rewrite zdist_length; auto).
    rewrite <- !concat_map.
    assert (Cx : length (concat zx) = (n * n)%nat).
    { rewrite (concat_rows_length zx n), Lzx; auto. eapply Forall_impl; [|exact Rx]. cbn. tauto. }
    assert (Cy : length (concat zy) = (n * n)%nat).
    { rewrite (concat_rows_length zy n), Lzy; auto. eapply Forall_impl; [|exact Ry]. cbn. tauto. }
    unfold np_dot. rewrite !map_length, Cx, Cy, Nat.eqb_refl. cbn [outcome lift snd].
    eexists. split; [reflexivity|]. unfold exact_terms. cbn [t_mean_prod t_a_axis t_a_total t_b_axis t_b_total].
    assert (Bn : (4 * (Z.of_nat n * (Z.of_nat n * (X * Y))) <= 2 ^ 53)%Z) by (eapply Z.le_trans; [|exact BXY]; apply Z.eq_le_incl; ring).
    assert (n1 : (1 <= Z.of_nat n)%Z) by lia.
    assert (Hb : forall K, (0 <= K <= X * Y)%Z -> (4 * (Z.of_nat n * (Z.of_nat n * K)) <= 2 ^ 53)%Z /\ (Z.of_nat n * K <= Z.of_nat n * (Z.of_nat n * K))%Z /\ (K <= Z.of_nat n * K)%Z).
    { intros K HK. split; [|split; nia]. eapply Z.le_trans; [|exact Bn]. apply Z.mul_le_mono_nonneg_l; [lia|].
      apply Z.mul_le_mono_nonneg_l; [lia|]. apply Z.mul_le_mono_nonneg_l; lia. }
    pose proof (Hb X ltac:(nia)) as (A1 & A2 & A3). pose proof (Hb Y ltac:(nia)) as (B1 & B2 & B3). pose proof (Hb (X * Y)%Z ltac:(nia)) as (C1 & C2 & C3).
    rewrite EN. split; [|split; [|split; [|split]]].
    - rewrite <- (np_sum_concat_tab2 n n), <- map2_concat_tab2, <- Zx, <- Zy, <- !concat_map.
      apply (dot_exact (2 * X) (2 * Y)).
      + apply reps_ofZ; [lia|]. apply concat_Forall. eapply Forall_impl; [|exact Rx]. cbn. tauto.
      + apply reps_ofZ; [lia|]. apply concat_Forall. eapply Forall_impl; [|exact Ry]. cbn. tauto.
      + rewrite !map_length, Cx, Cy. reflexivity.
      + unfold len. rewrite map_length, Cx, Nat2Z.inj_mul. lia.
    - rewrite <- (row_sums_tab2 n n), <- Zx. apply (rows_exact (2 * X) _ n); auto; lia.
    - unfold rsum2. rewrite <- (np_sum_tab n), <- (row_sums_tab2 n n), <- Zx. apply (total_exact (2 * X) _ n); auto; try lia. unfold len. rewrite Lzx. lia.
    - rewrite <- (row_sums_tab2 n n), <- Zy. apply (rows_exact (2 * Y) _ n); auto; lia.
    - unfold rsum2. rewrite <- (np_sum_tab n), <- (row_sums_tab2 n n), <- Zy. apply (total_exact (2 * Y) _ n); auto; try lia. unfold len. rewrite Lzy. lia.
  Qed.
End NaiveExact.

(** ** From the terms to the result *)

Lemma exacts_length l rs : exacts l rs -> length l = length rs.
Proof. induction 1; cbn; congruence. Qed.
Lemma eqz_clamp lib v w : eqz v w -> eqz (sqrt_clamp (B64Num lib) v) (sqrt_clamp (B64Num lib) w).
Proof. intros [->|(s & t & -> & ->)]; [left; auto|]. destruct s, t; vm_compute; try (left; reflexivity); right; eauto. Qed.
Lemma finish_exact lib E f n a b t t' : e_num E = B64Num lib -> wants_var f = false -> (4 <= n)%nat -> exact_terms n a b t -> exact_terms n a b t' ->
  exists v w, finish E f n t = Ok v /\ finish E f n t' = Ok w /\ eqz v w.
Proof.
  intros EN Hw Hn (A1 & A2 & A3 & A4 & A5) (B1 & B2 & B3 & B4 & B5).
  pose proof (exact_eqz _ _ _ A1 B1) as E1. pose proof (exacts_eqz _ _ _ A2 B2) as E2. pose proof (exact_eqz _ _ _ A3 B3) as E3.
  pose proof (exacts_eqz _ _ _ A4 B4) as E4. pose proof (exact_eqz _ _ _ A5 B5) as E5.
  assert (Ls : length (t_a_axis t) = n /\ length (t_b_axis t) = n /\ length (t_a_axis t') = n /\ length (t_b_axis t') = n).
  { repeat split; (etransitivity; [eapply exacts_length; eauto|apply tab_length]). }
  clear A1 A2 A3 A4 A5 B1 B2 B3 B4 B5. destruct Ls as (L1 & L2 & L3 & L4).
  assert (H : forall k t, dcov_from_terms E k (t_mean_prod t) (t_a_axis t) (t_a_total t) (t_b_axis t) (t_b_total t) n (corrected f)
    = dcov_from_terms E AllNumpy (t_mean_prod t) (t_a_axis t) (t_a_total t) (t_b_axis t) (t_b_total t) n (corrected f)).
  { intros. apply from_terms_kind. destruct (corrected f); lia. }
  unfold finish. rewrite Hw, (H (t_kind t) t), (H (t_kind t') t'). unfold dcov_from_terms, np_dot. rewrite !map_length, L1, L2, L3, L4, Nat.eqb_refl. cbv iota.
  do 2 eexists. split; [reflexivity|]. split; [reflexivity|]. rewrite EN. cbn [nadd nsub nmul ndiv nofZ B64Num].
  match goal with |- eqz (match f with Dcov | Dcor => sqrt_clamp _ ?v | _ => _ end) (match f with Dcov | Dcor => sqrt_clamp _ ?w | _ => _ end) =>
    assert (G : eqz v w) end.
  { assert (forall l l' c, eqzs l l' -> eqzs (map (fun v => b64_div v c) l) (map (fun v => b64_div v c) l')).
    { induction 1; constructor; auto using eqz_div. }
    apply eqz_add; [apply eqz_sub; [auto using eqz_div|]|auto using eqz_div, eqz_mul].
    apply eqz_mul; [apply eqz_refl|]. apply eqz_div. apply eqz_ndot; auto. }
  destruct f; auto using eqz_clamp.
Qed.

(** Modes in which a method runs on float64 numpy arrays. *)
Definition float_mode (m : dcov_method) (cm : compile_mode) : Prop :=
  match m with MNaive => not_forced cm | _ => not_forced cm \/ cm = CCompileCpu end.

Section Calls.
  Context (lib : flib) (E : Env b64) (HE : valid_fenv lib E).
  Let EN : e_num E = B64Num lib := vf_num _ _ HE.
  Context (x y : array Z) (X Y : Z) (n : nat).
  Context (Hp : paired n (reals x) (reals y)) (Ux : univariate x) (Uy : univariate y) (Fx : adt x = F64) (Fy : adt y = F64).
  Context (Sx : ans x = Numpy) (Sy : ans y = Numpy).
  Context (HX : Forall (fun z => Z.abs z <= X)%Z (entries x)) (HY : Forall (fun z => Z.abs z <= Y)%Z (entries y)) (X1 : (1 <= X)%Z) (Y1 : (1 <= Y)%Z).
  Context (Hn : (4 <= n)%nat).
  Context (HB : (32 * Z.of_nat (Nat.log2_up n) * Z.of_nat n ^ 2 * (X * Y) <= 2 ^ 53)%Z).
  Context (BX : (4 * X ^ 2 <= 2 ^ 53)%Z) (BY : (4 * Y ^ 2 <= 2 ^ 53)%Z).

  Lemma wf_amap {A B} (f : Z -> A) (g : Z -> B) z : wf (amap f z) -> wf (amap g z).
  Proof.
    destruct z as [s d [v|c rows]]; cbn; auto. rewrite !Forall_map. intros H. eapply Forall_impl; [|exact H].
    cbn. intros r Hr. rewrite map_length in *. auto.
  Qed.
  Lemma fshape : shape_env E.
  Proof. split; [apply (vf_perm _ _ HE)|apply (vf_empty _ _ HE)]. Qed.
  Lemma f00 : nadd (e_num E) (nzero (e_num E)) (nzero (e_num E)) = nzero (e_num E).
  Proof. rewrite EN. reflexivity. Qed.

  Lemma avl_call_exact cm : not_forced cm \/ cm = CCompileCpu ->
    exists t, outcome (terms_avl E (doubles x) (doubles y) (b64_ofZ 1) cm false) = Ok t /\
      exact_terms n (distances 1 (reals x)) (distances 1 (reals y)) t.
  Proof.
    intros Hcm. destruct Hp as (Wx & Wy & Lx & Ly & _).
    assert (WFx : wf (doubles x)) by (eapply wf_amap; exact Wx). assert (WFy : wf (doubles y)) by (eapply wf_amap; exact Wy).
    assert (Lx' := Lx). assert (Ly' := Ly). unfold reals in Lx', Ly'. rewrite amap_shape0 in Lx', Ly'.
    assert (Ux' : univariate (reals x)) by (unfold univariate, reals; rewrite amap_ncols; auto).
    assert (Uy' : univariate (reals y)) by (unfold univariate, reals; rewrite amap_ncols; auto).
    pose proof (transform_to_1d_tab (reals x) Wx Ux') as Tx. pose proof (transform_to_1d_tab (reals y) Wy Uy') as Ty.
    unfold reals in Tx, Ty. rewrite amap_1d in Tx, Ty. fold (reals x) in Tx. fold (reals y) in Ty.
    destruct (transform_to_1d (adata x)) as [vx|] eqn:Ex; [|discriminate].
    destruct (transform_to_1d (adata y)) as [vy|] eqn:Ey; [|discriminate]. cbn [rmap] in Tx, Ty.
    injection Tx as Tx. injection Ty as Ty. rewrite Lx in Tx. rewrite Ly in Ty.
    pose proof (entries_1d x vx Ex) as Vx. pose proof (entries_1d y vy Ey) as Vy.
    assert (lx : length vx = n) by (apply (f_equal (@length _)) in Tx; rewrite map_length, tab_length in Tx; auto).
    assert (ly : length vy = n) by (apply (f_equal (@length _)) in Ty; rewrite map_length, tab_length in Ty; auto).
    rewrite <- Vx in HX. rewrite <- Vy in HY.
    assert (Ht : exists t, outcome (terms_avl E (doubles x) (doubles y) (b64_ofZ 1) cm false) = Ok t /\
      exact_terms n (fun i j => Rabs (IZR (nth i vx 0%Z) - IZR (nth j vx 0%Z))) (fun i j => Rabs (IZR (nth i vy 0%Z) - IZR (nth j vy 0%Z))) t).
    { rewrite (avl_outcome E fshape (doubles x) (doubles y) (b64_ofZ 1) false (map b64_ofZ vx) (map b64_ofZ vy) cm).
      - destruct (compiles cm _ _).
        + rewrite (avl_compiled E fshape) by apply f00. apply (avl_exact (seq_lib lib) (seq_env E) (valid_seq _ _ HE) vx vy X Y n); auto.
        + apply (avl_exact lib E HE vx vy X Y n); auto.
      - rewrite EN. apply one_one.
      - unfold doubles. cbn [adata amap]. pose proof (amap_1d b64_ofZ x) as H. rewrite Ex in H. exact H.
      - unfold doubles. pose proof (amap_1d b64_ofZ y) as H. rewrite Ey in H. exact H.
      - exact (together_l (doubles x) (doubles y) Sx).
      - destruct Hcm as [Hcm | ->]; [left; auto|right]. unfold forced_f64, is_float64, doubles. cbn. auto. }
    destruct Ht as (t & T1 & T2).
    assert (T3 : exact_terms n (distances 1 (reals x)) (distances 1 (reals y)) t).
    { assert (forall z (vz : list Z), univariate (reals z) -> map IZR vz = tab n (fun i => obs (reals z) i 0) ->
        forall i j, (i < n)%nat -> (j < n)%nat -> Rabs (IZR (nth i vz 0%Z) - IZR (nth j vz 0%Z)) = distances 1 (reals z) i j) as Hd.
      { intros z vz Uz Tz i j Hi Hj. rewrite distances_1 by auto. rewrite <- !(map_nth IZR), Tz, !tab_nth by auto. reflexivity. }
      destruct T2 as (M1 & M2 & M3 & M4 & M5).
      assert (forall (c d : nat -> nat -> R), (forall i j, (i < n)%nat -> (j < n)%nat -> c i j = d i j) -> rsum2 n n c = rsum2 n n d) as He.
      { intros c d H. unfold rsum2. apply rsum_ext. intros. apply rsum_ext. intros. auto. }
      assert (forall (c d : nat -> nat -> R), (forall i j, (i < n)%nat -> (j < n)%nat -> c i j = d i j) -> tab n (fun i => rsum n (c i)) = tab n (fun i => rsum n (d i))) as Ht.
      { intros c d H. apply tab_ext. intros. apply rsum_ext. intros. auto. }
      red. rewrite <- (He _ _ (Hd x vx Ux' Tx)), <- (He _ _ (Hd y vy Uy' Ty)), <- (Ht _ _ (Hd x vx Ux' Tx)), <- (Ht _ _ (Hd y vy Uy' Ty)).
      split; [|auto]. erewrite He; [exact M1|]. intros i j Hi Hj. cbn beta. rewrite (Hd x vx), (Hd y vy) by auto. reflexivity. }
    rewrite T1. eauto.
  Qed.

  Lemma call_exact m cm : m <> MMergesort -> float_mode m cm ->
    exists t, outcome (method_terms E m (doubles x) (doubles y) (b64_ofZ 1) cm false) = Ok t /\
      exact_terms n (distances 1 (reals x)) (distances 1 (reals y)) t.
  Proof.
    intros Hm Hcm. destruct m; try contradiction; cbn [method_terms float_mode] in *.
    - unfold terms_auto, can_use_fast_algorithm. unfold doubles at 1 2 3 4 5 6. rewrite !amap_shape0. rewrite (together_l (amap _ x)) by exact Sx. cbn [is_numpy andb].
      assert (Hrv : forall z : array Z, univariate z -> is_random_variable (adata (amap b64_ofZ z)) = true).
      { intros [s d [v|c rows]] U; cbn in *; auto. unfold univariate in U. cbn in U. subst c. reflexivity. }
      rewrite !Hrv by auto. destruct Hp as (_ & _ & Lx & Ly & _). unfold reals in Lx, Ly. rewrite amap_shape0 in Lx, Ly. rewrite Lx, Ly.
      assert ((3 <? n)%nat = true) as -> by (apply Nat.ltb_lt; lia). cbn [andb].
      rewrite EN. cbn [neqb nunit B64Num]. rewrite one_one. apply avl_call_exact. auto.
    - apply (naive_exact lib E HE x y X Y n cm); auto. eapply Z.le_trans; [|exact HB].
      pose proof (Nat.log2_up_le_mono 4 n Hn) as HL. change (Nat.log2_up 4) with 2%nat in HL.
      assert (0 <= Z.of_nat n ^ 2 * (X * Y))%Z by nia. nia.
    - apply avl_call_exact. auto.
  Qed.
End Calls.
