(** C64: samples of exact fractions.

    An array of Python [Fraction] objects has the object dtype; the operators of [Fraction] are exact and their results are in lowest terms.
    [fractions x]: the array [x] as exact reals. *)
From Coq Require Import Reals QArith Qreals Qreduction Lra Lia List Arith Bool ZArith Cantor ClassicalDedekindReals.
From Verif Require Import Num Numpy MUtils MDistances MInternals MMergesort MAvl MDcor MInteger Sums Spec Centering Tab
  Samples Api RefDist RefAvl RefDcor RefApi SpecFacts Witness Calls Transfer Hom RefInteger PInteger.
Import ListNotations.
Local Open Scope R_scope.

(** Exact arithmetic of fractions, an argsort that sorts fractions, np.empty of the right size. *)
Record valid_qenv (E : Env Q) : Prop := {
  vq_num : e_num E = QNum;
  vq_argsort : forall l : list Q, sorts (map Q2R l) (e_argsort E l);
  vq_empty : forall n, length (e_empty E n) = n }.

Definition fractions (x : array Q) : array R := amap Q2R x.
Definition lowest (q : Q) : Prop := Qred q = q.

(** ** The real number a fraction stands for *)

Lemma Q2R_red q : Q2R (Qred q) = Q2R q.
Proof. apply Qeq_eqR, Qred_correct. Qed.
Lemma lowest_inj p q : lowest p -> lowest q -> Q2R p = Q2R q -> p = q.
Proof. intros Hp Hq H. rewrite <- Hp, <- Hq. apply Qred_complete, eqR_Qeq, H. Qed.
Lemma lowest_list l : forall m, Forall lowest l -> Forall lowest m -> map Q2R l = map Q2R m -> l = m.
Proof.
  induction l as [|p l IH]; intros [|q m] Hl Hm H; try discriminate; auto. inversion Hl; inversion Hm; subst. cbn in H. injection H as I1 I2.
  f_equal; auto using lowest_inj.
Qed.
Lemma Q2R_Z z : Q2R (inject_Z z) = IZR z.
Proof. unfold Q2R. cbn. field. Qed.
Lemma Q2R_over p z : (z <> 0)%Z -> Q2R (Qred (p / inject_Z z)) = Q2R p / IZR z.
Proof.
  intros Hz. rewrite Q2R_red. rewrite Q2R_div; [rewrite Q2R_Z; reflexivity|]. unfold Qeq. cbn. lia.
Qed.

(** An enumeration of the fractions, to recognise the reals that are rational. *)
Definition nth_fraction (k : nat) : Q :=
  let (a, b) := Cantor.of_nat k in let (u, v) := Cantor.of_nat a in (Z.of_nat u - Z.of_nat v) # (Pos.of_succ_nat b).
Lemma nth_fraction_all q : exists k, nth_fraction k = q.
Proof.
  destruct q as [z d]. exists (Cantor.to_nat (Cantor.to_nat (Z.to_nat z, Z.to_nat (- z)), Nat.pred (Pos.to_nat d))). unfold nth_fraction.
  rewrite !Cantor.cancel_of_to. f_equal; [lia|]. apply Pos2Nat.inj. rewrite SuccNat2Pos.id_succ. pose proof (Pos2Nat.is_pos d). lia.
Qed.
Definition fraction_of (r : R) : Q :=
  match sig_forall_dec (fun k => Q2R (nth_fraction k) <> r) (fun k => match Req_EM_T (Q2R (nth_fraction k)) r with left e => right (fun f => f e) | right f => left f end) with
  | inleft (exist k _) => Qred (nth_fraction k)
  | inright _ => 0%Q
  end.
Lemma fraction_of_Q q : lowest q -> fraction_of (Q2R q) = q.
Proof.
  intros Hq. unfold fraction_of. destruct (sig_forall_dec _ _) as [[k Hk]|H].
  - destruct (Req_EM_T (Q2R (nth_fraction k)) (Q2R q)) as [e|n]; [|contradiction]. rewrite <- Hq. apply Qred_complete, eqR_Qeq, e.
  - destruct (nth_fraction_all q) as [k Hk]. exfalso. apply (H k). rewrite Hk. reflexivity.
Qed.

Section Env.
  Context (E : Env Q) (HE : valid_qenv E).
  Definition qreal_argsort (l : list R) : list nat :=
    let l' := map fraction_of l in if list_eq_dec Req_EM_T (map Q2R l') l then e_argsort E l' else argsort_R l.
  Definition qreal_env : Env R := mkEnv R RNum qreal_argsort (fun n => repeat 0 n) (fun _ => ([], [])) (fun _ _ => 0) (e_nsp_is_np E).
  Lemma qreal_argsort_Q l : Forall lowest l -> qreal_argsort (map Q2R l) = e_argsort E l.
  Proof.
    intros Hl. unfold qreal_argsort. assert (map fraction_of (map Q2R l) = l) as ->.
    { rewrite map_map. rewrite <- (map_id l) at 2. apply map_ext_in. intros q Hq. rewrite Forall_forall in Hl. apply fraction_of_Q; auto. }
    destruct (list_eq_dec _ _ _); [reflexivity|contradiction].
  Qed.
  Lemma qreal_env_valid : valid_env qreal_env.
  Proof.
    split; cbn; auto using repeat_length. intros l. unfold qreal_argsort.
    destruct (list_eq_dec _ _ _) as [H|H]; [|apply (ve_argsort _ (env_R_valid true))].
    rewrite <- H at 1. apply (vq_argsort _ HE).
  Qed.

  Lemma avl_Q oob k kv x y : Forall lowest x -> Forall lowest y ->
    terms_avl_impl qreal_env false oob k kv (map Q2R x) (map Q2R y) false = rmap (hom_terms Q2R) (terms_avl_impl E false oob k kv x y false).
  Proof.
    intros Hx Hy. apply (hom_avl E qreal_env Q2R lowest); auto; rewrite ?(vq_num _ HE); cbn [e_num qreal_env QNum RNum nadd nsub nmul nzero nunit nofZ].
    - apply RMicromega.Q2R_0.
    - apply RMicromega.Q2R_1.
    - intros. rewrite Q2R_red, Q2R_plus. reflexivity.
    - intros. rewrite Q2R_red, Q2R_minus. reflexivity.
    - intros. rewrite Q2R_red, Q2R_mult. reflexivity.
    - intros. rewrite Q2R_red, Q2R_mult, Q2R_Z. reflexivity.
    - reflexivity.
    - intros l Hl. apply qreal_argsort_Q; auto.
    - apply (vq_empty _ HE).
    - intros. cbn. apply repeat_length.
    - intros l. reflexivity.
    - intros l. reflexivity.
  Qed.

  Lemma sum_Q l : np_sum RNum (map Q2R l) = Q2R (np_sum QNum l).
  Proof.
    unfold np_sum. change (nsum RNum) with (seq_sum Rplus 0). change (nsum QNum) with (seq_sum (fun x y => Qred (x + y)) 0%Q). unfold seq_sum.
    replace 0%R with (Q2R 0) by apply RMicromega.Q2R_0. generalize 0%Q. induction l as [|a l IH]; intros z; cbn [fold_left map]; [reflexivity|].
    rewrite <- IH. rewrite Q2R_red, Q2R_plus. reflexivity.
  Qed.

  Lemma finish_Q f n t : f = DcovSqr \/ f = UDcovSqr -> (4 <= n)%nat -> t_kind t = AllNumpy ->
    rmap Q2R (finish E f n t) = finish qreal_env f n (hom_terms Q2R t).
  Proof.
    intros Hf Hn Hk. assert (Hw : wants_var f = false) by (destruct Hf as [-> | ->]; reflexivity). unfold finish. rewrite Hw.
    assert (P : forall T (E : Env T) (v : T), match f with Dcov | Dcor => sqrt_clamp (e_num E) v | _ => v end = v) by (intros; destruct Hf as [-> | ->]; reflexivity).
    unfold dcov_from_terms. cbv zeta. cbn [t_kind t_mean_prod t_a_axis t_a_total t_b_axis t_b_total hom_terms]. rewrite Hk.
    unfold np_dot. rewrite !map_length. destruct (length (t_a_axis t) =? length (t_b_axis t))%nat eqn:El; [|reflexivity]. cbn [rbind rmap].
    rewrite !(vq_num _ HE). cbn [e_num qreal_env].
    assert (D : ndot RNum (map (fun v => ndiv RNum v (nofZ RNum (Z.of_nat n))) (map Q2R (t_a_axis t))) (map Q2R (t_b_axis t))
      = Q2R (ndot QNum (map (fun v => ndiv QNum v (nofZ QNum (Z.of_nat n))) (t_a_axis t)) (t_b_axis t))).
    { change (ndot RNum) with (fun a b => np_sum RNum (map2 Rmult a b)). change (ndot QNum) with (fun a b => np_sum QNum (map2 (nmul QNum) a b)). cbv beta.
      rewrite <- sum_Q. f_equal.
      assert (map (fun v => ndiv RNum v (nofZ RNum (Z.of_nat n))) (map Q2R (t_a_axis t)) = map Q2R (map (fun q => ndiv QNum q (nofZ QNum (Z.of_nat n))) (t_a_axis t))) as ->.
      { rewrite !map_map. apply map_ext. intros q. cbn [ndiv nofZ RNum QNum]. rewrite Q2R_over by lia. reflexivity. }
      apply map2_maps. intros. cbn [nmul QNum]. rewrite Q2R_red, Q2R_mult. reflexivity. }
    rewrite D. clear D.
    destruct Hf as [-> | ->]; cbn [corrected rmap]; f_equal; cbn [nadd nsub nmul ndiv nofZ QNum RNum].
    all: assert (Hz : (4 <= Z.of_nat n)%Z) by lia; generalize dependent (Z.of_nat n); intros z Hz.
    all: assert (D1 : (z <> 0)%Z) by lia; assert (D2 : (z ^ 2 <> 0)%Z) by (apply Z.pow_nonzero; lia); assert (D3 : (z ^ 3 <> 0)%Z) by (apply Z.pow_nonzero; lia).
    all: assert (D4 : (z - 3 <> 0)%Z) by lia; assert (D5 : ((z - 2) * (z - 3) <> 0)%Z) by nia; assert (D6 : ((z - 1) * (z - 2) * (z - 3) <> 0)%Z) by nia.
    all: repeat first [rewrite Q2R_over by assumption | rewrite Q2R_red | rewrite Q2R_plus | rewrite Q2R_minus | rewrite Q2R_mult | rewrite Q2R_Z]; reflexivity.
  Qed.
End Env.

(** Two numpy arrays of fractions in lowest terms, with one column and the same number of observations. *)
Definition fraction_pair (n : nat) (x y : array Q) : Prop :=
  paired n (fractions x) (fractions y) /\ univariate x /\ univariate y /\ adt x = Obj true /\ adt y = Obj true /\ ans x = Numpy /\ ans y = Numpy /\
  Forall lowest (entries x) /\ Forall lowest (entries y).

Section Avl.
  Context (E : Env Q) (HE : valid_qenv E) (n : nat) (x y : array Q) (Hp : fraction_pair n x y) (Hn : (4 <= n)%nat).

  Lemma avl_terms_Q cm : not_forced cm -> exists t, outcome (terms_avl E x y 1%Q cm false) = Ok t /\ t_kind t = AllNumpy /\
    terms_ok n (distances 1 (fractions x)) (distances 1 (fractions y)) false (hom_terms Q2R t).
  Proof.
    intros Hcm. destruct Hp as ((Wx & Wy & Lx & Ly & _) & Ux & Uy & Sx & Sy & Nx & Ny & Fx & Fy).
    pose proof (qreal_env_valid E HE) as HR.
    assert (Hux : ncols (fractions x) = 1%nat) by (unfold fractions; rewrite amap_ncols; auto).
    assert (Huy : ncols (fractions y) = 1%nat) by (unfold fractions; rewrite amap_ncols; auto).
    pose proof (transform_to_1d_tab (fractions x) Wx Hux) as Tx. pose proof (transform_to_1d_tab (fractions y) Wy Huy) as Ty.
    unfold fractions in Tx, Ty. rewrite amap_1d in Tx, Ty. fold (fractions x) in Tx. fold (fractions y) in Ty.
    destruct (transform_to_1d (adata x)) as [vx|] eqn:Ex; [|discriminate].
    destruct (transform_to_1d (adata y)) as [vy|] eqn:Ey; [|discriminate]. cbn [rmap] in Tx, Ty.
    injection Tx as Tx. injection Ty as Ty. rewrite Lx in Tx. rewrite Ly in Ty.
    pose proof (entries_1d x vx Ex) as Vx. pose proof (entries_1d y vy Ey) as Vy. rewrite <- Vx in Fx. rewrite <- Vy in Fy.
    assert (exists t, terms_avl_impl E false IndexError AllNumpy AllNumpy vx vy false = Ok t /\ t_kind t = AllNumpy
      /\ terms_ok n (distances 1 (fractions x)) (distances 1 (fractions y)) false (hom_terms Q2R t)) as (t & T1 & K & T2).
    { pose proof (avl_Q E HE IndexError AllNumpy AllNumpy vx vy Fx Fy) as H2. rewrite Tx, Ty in H2.
      destruct (terms_avl_impl_ok (qreal_env E) HR n (fun i => obs (fractions x) i 0) (fun i => obs (fractions y) i 0) Hn
        false IndexError AllNumpy AllNumpy false) as (t & Ht & Kt & _ & Hok).
      rewrite Ht in H2. destruct (terms_avl_impl E false IndexError AllNumpy AllNumpy vx vy false) as [tz|]; [|discriminate]. cbn [rmap] in H2. injection H2 as H2.
      exists tz. split; [auto|]. rewrite <- H2. split; [|eapply terms_ok_ext; [| |exact Hok]; intros; symmetry; apply distances_1; auto].
      rewrite H2 in Kt. exact Kt. }
    exists t. split; [|split; [exact K|exact T2]].
    unfold terms_avl. rewrite (vq_num _ HE). change (neqb QNum 1%Q (nunit QNum)) with true. cbn [negb].
    rewrite Ex, Ey. rewrite !outcome_bind. cbn [outcome lift snd]. rewrite outcome_bind. cbn [outcome lift snd].
    rewrite (together_l x y Nx), Sx.
    destruct Hcm as [-> | ->]; cbn [impls is_auto].
    - unfold try_impls, avl_impl. cbn [is_f64 andb]. rewrite T1. reflexivity.
    - unfold try_impls, avl_impl. rewrite T1. reflexivity.
  Qed.

  Lemma method_avl_Q m cm : avl_or_auto m -> method_terms E m x y 1%Q cm false = terms_avl E x y 1%Q cm false.
  Proof.
    intros [-> | ->]; [reflexivity|]. destruct Hp as ((_ & _ & Lx & Ly & _) & Ux & Uy & Sx & Sy & Nx & Ny & _).
    cbn [method_terms]. unfold terms_auto, can_use_fast_algorithm.
    unfold fractions in Lx, Ly. rewrite amap_shape0 in Lx, Ly. rewrite Lx, Ly, (together_l x y Nx). cbn [is_numpy andb].
    assert (Hrv : forall z : array Q, univariate z -> is_random_variable (adata z) = true).
    { intros [s d [v|c rows]] U; cbn in *; auto. unfold univariate in U. cbn in U. subst c. reflexivity. }
    rewrite !Hrv by auto. assert ((3 <? n)%nat = true) as -> by (apply Nat.ltb_lt; lia). cbn [andb].
    rewrite (vq_num _ HE). reflexivity.
  Qed.
End Avl.

Lemma ok_inj {A} (a b : A) : Ok a = Ok b -> a = b.
Proof. congruence. Qed.

(** On fractions AVL and AUTO return the exact textbook value, as a fraction in lowest terms. *)
Theorem C64_exact f E x y n m cm : valid_qenv E -> fraction_pair n x y -> (4 <= n)%nat -> f = DcovSqr \/ f = UDcovSqr ->
  avl_or_auto m -> not_forced cm -> exists q, call f E x y 1%Q m cm = Ok q /\ lowest q /\
    Q2R q = value f n (distances 1 (fractions x)) (distances 1 (fractions y)).
Proof.
  intros HE Hp Hn Hf Hm Hcm. destruct (avl_terms_Q E HE n x y Hp Hn cm Hcm) as (t & T1 & K & T2).
  assert (Hw : wants_var f = false) by (destruct Hf as [-> | ->]; reflexivity).
  rewrite call_terms, Hw, (method_avl_Q E HE n x y Hp Hn m cm Hm), T1. cbn [rbind].
  pose proof Hp as ((_ & _ & Lx & _) & _). unfold fractions in Lx. rewrite amap_shape0 in Lx. rewrite Lx.
  pose proof (finish_Q E HE f n t Hf Hn K) as HF.
  pose proof (qreal_env_valid E HE) as HR.
  rewrite (finish_ok (qreal_env E) f n (distances 1 (fractions x)) (distances 1 (fractions y)) (hom_terms Q2R t) HR) in HF.
  2:{ destruct Hf as [-> | ->]; cbn; lia. }
  2,3: apply dmat_symmetric. 2,3: apply dmat_hollow.
  2:{ rewrite Hw. exact T2. }
  destruct (finish E f n t) as [q|] eqn:Hq; [|discriminate]. cbn [rmap] in HF. injection HF as HF. exists q. split; [reflexivity|]. split; [|exact HF].
  unfold finish in Hq. rewrite Hw in Hq. unfold dcov_from_terms in Hq. rewrite K in Hq. destruct (np_dot _ _ _); [|discriminate]. cbn [rbind] in Hq. cbv zeta in Hq.
  rewrite !(vq_num _ HE) in Hq. apply ok_inj in Hq. cbn [nadd QNum] in Hq.
  unfold lowest. assert (R : forall a, Qred (Qred a) = Qred a) by (intros; apply Qred_complete, Qred_correct).
  destruct Hf as [-> | ->]; rewrite <- Hq; apply R.
Qed.

(** Hence one and the same fraction, whatever the method, compile mode and argsort. *)
Theorem C64_same_fraction f E E' x y n m cm m' cm' : valid_qenv E -> valid_qenv E' -> fraction_pair n x y -> (4 <= n)%nat -> f = DcovSqr \/ f = UDcovSqr ->
  avl_or_auto m -> not_forced cm -> avl_or_auto m' -> not_forced cm' -> call f E x y 1%Q m cm = call f E' x y 1%Q m' cm'.
Proof.
  intros HE HE' Hp Hn Hf Hm Hc Hm' Hc'. destruct (C64_exact f E x y n m cm) as (q & -> & Lq & Vq); auto.
  destruct (C64_exact f E' x y n m' cm') as (q' & -> & Lq' & Vq'); auto. f_equal. apply lowest_inj; auto. congruence.
Qed.

(** The fractions 1/2, -1/3, 2, 1/2 and 0, 1/7, 1/7, 5. *)
Definition env_Q : Env Q := mkEnv Q QNum (fun l => argsort_R (map Q2R l)) (fun n => repeat (77 # 1)%Q n) (fun _ => ([], [])) (fun _ _ => 0%Q) true.
Lemma env_Q_valid : valid_qenv env_Q.
Proof. split; cbn; auto using repeat_length. intros l. apply (ve_argsort _ (env_R_valid true)). Qed.
Definition xq : array Q := mkArr Numpy (Obj true) (Vec [1 # 2; - 1 # 3; 2 # 1; 1 # 2])%Q.
Definition yq : array Q := mkArr Numpy (Obj true) (Vec [0 # 1; 1 # 7; 1 # 7; 5 # 1])%Q.
Example C64_meets : fraction_pair 4 xq yq /\ exists q, call UDcovSqr env_Q xq yq 1%Q MAuto CAuto = Ok q /\
  Q2R q = value UDcovSqr 4 (distances 1 (fractions xq)) (distances 1 (fractions yq)).
Proof.
  assert (H : fraction_pair 4 xq yq) by (repeat split; auto; repeat constructor).
  split; [exact H|]. destruct (C64_exact UDcovSqr env_Q xq yq 4 MAuto CAuto env_Q_valid H) as (q & Hq & _ & Vq); unfold avl_or_auto, not_forced; auto.
  exists q. auto.
Qed.
