(** The extended reals and the doubles treat NaN and infinities as NanGeneric and NanMore require. *)
From Coq Require Import Reals Lra Lia List Arith Bool ZArith Permutation.
From Flocq Require Import Core IEEE754.BinarySingleNaN.
From Verif Require Import Num Numpy MUtils MDistances MFloat FloatSum NanGeneric NanMore.
Import ListNotations.
Local Open Scope R_scope.

(** ** Extended reals *)
Definition x_bad (v : xR) : Prop := match v with Fin _ => False | _ => True end.
Definition x_big (v : xR) : Prop := v = NaN \/ v = PInf.
Definition x_nn (v : xR) : Prop := match v with Fin a => 0 <= a | NInf => False | _ => True end.

Ltac xcases :=
  repeat match goal with
  | |- context [Rltb ?a ?b] => unfold Rltb at 1; destruct (Rlt_dec a b)
  | |- context [Reqb ?a ?b] => unfold Reqb at 1; destruct (Req_EM_T a b)
  end.

Lemma x_fold_nan l : forall acc, acc = NaN \/ In NaN l -> fold_left xadd l acc = NaN.
Proof.
  induction l as [|v l IH]; intros acc [H|H]; cbn [fold_left]; auto; [contradiction|..].
  - apply IH. left. subst. destruct v; reflexivity.
  - apply IH. destruct H as [->|H]; auto. left. destruct acc; reflexivity.
Qed.
Lemma x_fold_bad l : forall acc, x_bad acc \/ Exists x_bad l -> x_bad (fold_left xadd l acc).
Proof.
  induction l as [|v l IH]; intros acc [H|H]; cbn [fold_left]; auto; [inversion H|..].
  - apply IH. left. destruct acc, v; cbn; auto.
  - apply IH. inversion H; subst; auto. left. destruct acc, v; cbn; auto.
Qed.
Lemma x_fold_nn l : forall acc, x_nn acc -> Forall x_nn l -> x_nn (fold_left xadd l acc).
Proof.
  induction l as [|v l IH]; intros acc H H'; cbn [fold_left]; auto. inversion H'; subst. apply IH; auto.
  destruct acc, v; cbn in *; auto; lra.
Qed.
Lemma x_fold_big l : forall acc, x_nn acc -> Forall x_nn l -> x_big acc \/ Exists x_big l -> x_big (fold_left xadd l acc).
Proof.
  induction l as [|v l IH]; intros acc H H' Hb; cbn [fold_left]; [destruct Hb as [|Hb]; auto; inversion Hb|].
  inversion H'; subst. apply IH; auto; [destruct acc, v; cbn in *; auto; lra|].
  unfold x_big in *. destruct Hb as [[->| ->]|Hb].
  - left. destruct v; cbn; auto.
  - left. destruct v; cbn in *; auto; try contradiction.
  - inversion Hb as [? ? [->| ->]|]; subst; auto; left; destruct acc; cbn in *; auto; try contradiction.
Qed.

Lemma x_sum l : nsum XNum l = fold_left xadd l (Fin 0).
Proof. reflexivity. Qed.
Lemma x_dot a b : ndot XNum a b = fold_left xadd (map (fun p => xmul (fst p) (snd p)) (combine a b)) (Fin 0).
Proof. reflexivity. Qed.

Lemma x_special : special XNum x_bad.
Proof.
  split; try (cbn [XNum nadd nsub nmul ndiv nsqrt nabs neqb nltb nofZ nisnan]; fail).
  - intros [] [] [H|H]; cbn in *; auto; discriminate.
  - intros [] [] [H|H]; cbn in *; auto; discriminate.
  - intros [] [] [H|H]; cbn in *; auto; discriminate.
  - intros [] [] [H|H]; cbn in *; auto; discriminate.
  - intros [] H; cbn in *; auto; discriminate.
  - intros [] H; cbn in *; auto; discriminate.
  - intros [] [] [H|H]; cbn in *; auto; discriminate.
  - intros [] [] [H|H]; cbn in *; auto; discriminate.
  - intros l H. rewrite x_sum. rewrite x_fold_nan; auto. right. apply Exists_exists in H. destruct H as ([] & Hin & Hv); try discriminate. auto.
  - intros [] [] [H|H]; cbn in *; auto.
  - intros [] [] [H|H]; cbn in *; auto.
  - intros [] k H; cbn in *; auto; try contradiction; xcases; exact I.
  - intros a b Hl H. rewrite x_dot. apply x_fold_bad. right. revert b Hl. induction H as [v l H|v l H IH]; intros [|w b] Hl; try discriminate Hl.
    + left. cbn [fst snd]. destruct v, w; cbn in *; auto; try contradiction; xcases; exact I.
    + right. apply IH. auto.
  - intros [] H; cbn in *; auto; try contradiction.
  - intros [] [] H; cbn in *; auto; try contradiction.
  - intros [] H; cbn in *; auto; try contradiction; unfold Rltb; destruct (Rlt_dec 0 2); try lra; reflexivity.
Qed.

Lemma x_special_pos : special_pos XNum x_bad x_big x_nn.
Proof.
  split; cbn [XNum nadd nsub nmul ndiv nsqrt nofZ nisnan]; unfold x_big.
  - intros []; try discriminate; auto.
  - intros v [->| ->]; cbn; auto.
  - intros []; cbn; auto. nra.
  - intros []; cbn; auto; try contradiction.
  - intros l H. rewrite x_sum. apply x_fold_nn; auto. cbn. lra.
  - intros l H Hb. rewrite x_sum. apply x_fold_big; auto. cbn. lra.
  - intros []; cbn; auto. intros H. unfold Rltb. destruct (Rlt_dec r 0); cbn; auto. apply sqrt_pos.
  - intros v [->| ->]; cbn; auto.
  - intros v n H. pose proof (IZR_le 0 (Z.of_nat n) ltac:(lia)) as Hn. destruct v; cbn in *; auto; try contradiction.
    + unfold Reqb. destruct (Req_EM_T _ _); [unfold Rltb; destruct (Rlt_dec 0 r); cbn; auto; destruct (Rlt_dec r 0); cbn; auto; lra|].
      cbn. apply Rmult_le_pos; auto. apply Rlt_le, Rinv_0_lt_compat. lra.
    + unfold Rltb. destruct (Rlt_dec _ _); cbn; auto. lra.
  - intros v n [H|H]; subst v; cbn; auto. pose proof (IZR_le 0 (Z.of_nat n) ltac:(lia)) as Hn. unfold Rltb. destruct (Rlt_dec _ _); auto. lra.
  - intros v [->| ->]; cbn; auto. unfold Rltb. destruct (Rlt_dec 0 2); auto. lra.
  - intros a b [->| ->] H; destruct b; cbn in *; auto; try contradiction.
  - intros a b [->| ->] [->| ->]; reflexivity.
  - rewrite x_sum. cbn. unfold Reqb, Rltb. destruct (Req_EM_T 0 0); [|lra]. destruct (Rlt_dec 0 0); [lra|reflexivity].
Qed.

Lemma x_pow_pos v h : 0 < h -> (v = NaN -> xpow v (Fin h) = NaN) /\ (x_nn v -> x_nn (xpow v (Fin h))) /\ (x_big v -> x_big (xpow v (Fin h))).
Proof.
  intros Hh. unfold xpow, x_big. assert (Reqb h 0 = false) as -> by (unfold Reqb; destruct (Req_EM_T h 0); auto; lra).
  assert (Rltb h 0 = false) as -> by (unfold Rltb; destruct (Rlt_dec h 0); auto; lra).
  destruct v; cbn [x_nn]; (split; [try discriminate; auto|]); (split; [intros H|intros [H|H]; try discriminate H; auto]); try contradiction; auto.
  xcases; cbn; auto; try lra. unfold Rpow_py. destruct (Req_EM_T h 0); [lra|]. destruct (Rle_dec r 0); [lra|]. apply Rlt_le, exp_pos.
Qed.

Lemma x_half E e : e_num E = XNum -> half E (Fin e) = Fin (e / 2).
Proof. intros EN. unfold half. rewrite EN. cbn. unfold Reqb. destruct (Req_EM_T 2 0); [lra|reflexivity]. Qed.
Lemma x_clamp v : (v = NaN -> sqrt_clamp XNum v = NaN) /\ (x_nn v -> x_nn (sqrt_clamp XNum v)) /\ (x_big v -> x_big (sqrt_clamp XNum v)).
Proof.
  unfold sqrt_clamp, x_big. cbn [XNum nltb nzero nsqrt]. destruct v; cbn [x_nn]; (split; [try discriminate; auto|]); (split; [intros H|intros [H|H]; try discriminate H; auto]); try contradiction; auto.
  destruct (xltb _ _); cbn; unfold Rltb; destruct (Rlt_dec _ _); cbn; auto; apply sqrt_pos.
Qed.

(** Every positive exponent. *)
Lemma x_dist_nan E d e : e_num E = XNum -> 0 < e -> dist_nan E d (Fin e).
Proof.
  intros EN He s. rewrite EN. destruct s; try discriminate. intros _. unfold dist_power. rewrite (x_half E e EN), EN. cbn [npow XNum].
  assert (P : xpow NaN (Fin (e / 2)) = NaN) by (apply x_pow_pos; auto; lra).
  split; [|intros _; rewrite P; reflexivity].
  assert (Q : xpow NaN (Fin e) = NaN) by (apply x_pow_pos; auto; lra).
  destruct d; try match goal with b : bool |- _ => destruct b end; rewrite ?P, ?Q; reflexivity.
Qed.
Lemma x_dist_pos E d e : e_num E = XNum -> 0 < e -> dist_pos E x_big x_nn d (Fin e).
Proof.
  intros EN He. unfold dist_pos, dist_power. rewrite (x_half E e EN), EN. cbn [npow XNum].
  assert (A : forall s, x_nn s -> x_nn (xpow s (Fin (e / 2)))) by (intros s; apply x_pow_pos; lra).
  assert (B : forall s, x_big s -> x_big (xpow s (Fin (e / 2)))) by (intros s; apply x_pow_pos; lra).
  assert (C : forall s, x_nn s -> x_nn (sqrt_clamp XNum (xpow s (Fin e)))) by (intros s Hs; apply x_clamp, x_pow_pos; auto).
  assert (D : forall s, x_big s -> x_big (sqrt_clamp XNum (xpow s (Fin e)))) by (intros s Hs; apply x_clamp, x_pow_pos; auto).
  split; intros s Hs; (split; [destruct d; try match goal with b : bool |- _ => destruct b end; auto|auto]).
Qed.

(** ** Doubles *)
Definition f_bad (v : b64) : Prop := is_finite v = false.
Definition f_big (v : b64) : Prop := v = B754_nan \/ v = B754_infinity false.
Definition f_nn (v : b64) : Prop := match v with B754_finite true _ _ _ | B754_infinity true => False | _ => True end.

Lemma is_nan_eq (v : b64) : is_nan v = true -> v = B754_nan.
Proof. destruct v; try discriminate. reflexivity. Qed.
Lemma nn_sign (v : b64) : is_nan v = true \/ Bsign v = false -> f_nn v.
Proof. destruct v as [s|s| |s m e H]; cbn; auto; intros [K|K]; try discriminate; subst; auto. Qed.
Lemma sign_nonneg (v : b64) s : B2SF v = binary_overflow 53 1024 mode_NE s -> Bsign v = s.
Proof. destruct v, s; cbn; intros H; try discriminate H; injection H as <-; reflexivity. Qed.

Lemma add_nn a b : f_nn a -> f_nn b -> f_nn (b64_add a b).
Proof.
  intros Ha Hb. destruct a as [[]|[]| |[] ma ea Ka], b as [[]|[]| |[] mb eb Kb]; cbn [f_nn] in *; try contradiction; try exact I.
  apply nn_sign. right.
  pose proof (Bplus_correct 53 1024 b64_prec b64_emax mode_NE (B754_finite false ma ea Ka) (B754_finite false mb eb Kb) eq_refl eq_refl) as C.
  unfold b64_add. destruct (Rlt_bool _ _).
  - destruct C as (_ & _ & ->). cbn [Bsign andb].
    assert (0 < B2R (B754_finite false ma ea Ka : b64) + B2R (B754_finite false mb eb Kb : b64)) by (apply Rplus_lt_0_compat; apply F2R_gt_0; reflexivity).
    rewrite Rcompare_Gt; auto.
  - destruct C as (C & _). apply sign_nonneg in C. exact C.
Qed.
Lemma mul_sign a b : is_nan (b64_mul a b) = true \/ Bsign (b64_mul a b) = xorb (Bsign a) (Bsign b).
Proof.
  pose proof (Bmult_correct 53 1024 b64_prec b64_emax mode_NE a b) as C. fold (b64_mul a b) in C.
  destruct (is_nan (b64_mul a b)) eqn:N; [auto|right]. destruct (Rlt_bool _ _).
  - destruct C as (_ & _ & C). auto.
  - apply sign_nonneg in C. auto.
Qed.
Lemma mul_self_nn d : f_nn (b64_mul d d).
Proof. apply nn_sign. destruct (mul_sign d d) as [|H]; auto. right. rewrite H. apply xorb_nilpotent. Qed.
Lemma div_sign a b : B2R b <> 0 -> is_nan (b64_div a b) = true \/ Bsign (b64_div a b) = xorb (Bsign a) (Bsign b).
Proof.
  intros NZ. pose proof (Bdiv_correct 53 1024 b64_prec b64_emax mode_NE a b NZ) as C. fold (b64_div a b) in C.
  destruct (is_nan (b64_div a b)) eqn:N; [auto|right]. destruct (Rlt_bool _ _).
  - destruct C as (_ & _ & C). auto.
  - apply sign_nonneg in C. auto.
Qed.
Lemma div_nn a b : f_nn a -> Bsign b = false -> f_nn (b64_div a b).
Proof.
  intros Ha Hb. destruct a as [[]|[]| |[] ma ea Ka], b as [sb|sb| |sb mb eb Kb]; cbn [f_nn Bsign] in *; try contradiction; subst; try exact I.
  apply nn_sign.
  assert (NZ : B2R (B754_finite false mb eb Kb : b64) <> 0) by (apply Rgt_not_eq, F2R_gt_0; reflexivity).
  exact (div_sign (B754_finite false ma ea Ka) (B754_finite false mb eb Kb) NZ).
Qed.
Lemma sqrt_nn_b64 v : f_nn v -> f_nn (b64_sqrt v).
Proof.
  intros H. assert (K : is_nan (b64_sqrt v) = true \/ Bsign (b64_sqrt v) = Bsign v).
  { destruct (Bsqrt_correct 53 1024 b64_prec b64_emax mode_NE v) as (_ & _ & C). fold (b64_sqrt v) in C.
    destruct (is_nan (b64_sqrt v)); auto. }
  destruct v as [[]|[]| |[] m e L]; cbn [f_nn] in *; try contradiction; try exact I. apply nn_sign. exact K.
Qed.
Lemma ofZ_sign z : (0 <= z)%Z -> Bsign (b64_ofZ z) = false.
Proof.
  intros Hz. pose proof (binary_normalize_correct 53 1024 b64_prec b64_emax mode_NE z 0 false) as C. cbv zeta in C.
  assert (0 <= F2R (Float radix2 z 0)) by (apply F2R_ge_0; auto).
  unfold b64_ofZ. destruct (Rlt_bool (Rabs _) _).
  - destruct C as (_ & _ & ->). destruct (Rcompare_spec (F2R (Float radix2 z 0)) 0); auto. lra.
  - apply sign_nonneg in C. rewrite C. apply Rlt_bool_false. auto.
Qed.
Lemma ofZ_notnan z : is_nan (b64_ofZ z) = false.
Proof.
  pose proof (binary_normalize_correct 53 1024 b64_prec b64_emax mode_NE z 0 false) as C. cbv zeta in C. fold (b64_ofZ z) in C.
  destruct (Rlt_bool (Rabs _) _).
  - destruct C as (_ & C & _). destruct (b64_ofZ z); auto; discriminate C.
  - destruct (b64_ofZ z), (Rlt_bool _ 0); auto; discriminate C.
Qed.

Lemma add_nan a b : is_nan a = true \/ is_nan b = true -> is_nan (b64_add a b) = true.
Proof. intros [H|H]; apply is_nan_eq in H; subst; [destruct b|destruct a]; reflexivity. Qed.
Lemma add_bad a b : f_bad a \/ f_bad b -> f_bad (b64_add a b).
Proof. unfold f_bad. intros [H|H]; destruct a as [|[]| |], b as [|[]| |]; try discriminate H; reflexivity. Qed.
Lemma mul_bad a b : f_bad a -> f_bad (b64_mul a b).
Proof. unfold f_bad. intros H; destruct a as [|[]| |], b as [|[]| |]; try discriminate H; reflexivity. Qed.
Lemma fma_bad a b c : f_bad a \/ f_bad c -> f_bad (b64_fma a b c).
Proof. unfold f_bad. intros [H|H]; destruct a as [[]|[]| |[]], b as [[]|[]| |[]], c as [[]|[]| |[]]; try discriminate H; reflexivity. Qed.

Lemma sum_of_nan l s : sum_of l s -> Exists (fun v => is_nan v = true) l -> is_nan s = true.
Proof.
  induction 1 as [z|a|l l' a b H1 IH1 H2 IH2|l l' a P H IH]; intros Hn.
  - inversion Hn.
  - inversion Hn as [? ? K|? ? K]; auto. inversion K.
  - apply add_nan. apply Exists_app in Hn. tauto.
  - apply IH. apply Exists_exists in Hn. destruct Hn as (v & Hv & Hn). apply Exists_exists. exists v. split; auto.
    apply Permutation_sym in P. eapply Permutation_in; eauto.
Qed.
Lemma dot_of_bad l s : dot_of l s -> Exists (fun p => f_bad (fst p)) l -> f_bad s.
Proof.
  induction 1 as [z|a b|a b l c H IH|l l' a b H1 IH1 H2 IH2|l l' a P H IH]; intros Hn.
  - inversion Hn.
  - inversion Hn as [? ? K|? ? K]; [apply mul_bad; auto|inversion K].
  - apply fma_bad. inversion Hn; subst; auto.
  - apply add_bad. apply Exists_app in Hn. tauto.
  - apply IH. apply Exists_exists in Hn. destruct Hn as (v & Hv & Hn). apply Exists_exists. exists v. split; auto.
    apply Permutation_sym in P. eapply Permutation_in; eauto.
Qed.
Lemma sum_of_nn l s : sum_of l s -> Forall f_nn l -> f_nn s.
Proof.
  induction 1 as [[]|a|l l' a b H1 IH1 H2 IH2|l l' a P H IH]; intros Hn; try exact I.
  - inversion Hn; auto.
  - apply Forall_app in Hn. apply add_nn; tauto.
  - apply IH. eapply Permutation_Forall; [apply Permutation_sym|]; eauto.
Qed.
Lemma add_big a b : f_nn a -> f_nn b -> f_big a \/ f_big b -> f_big (b64_add a b).
Proof.
  unfold f_big. intros Ha Hb [[->| ->]|[->| ->]]; [destruct b as [|[]| |]|destruct b as [|[]| |]|destruct a as [|[]| |]|destruct a as [|[]| |]];
    cbn in *; auto; try contradiction.
Qed.
Lemma sum_of_big l s : sum_of l s -> Forall f_nn l -> Exists f_big l -> f_big s.
Proof.
  induction 1 as [z|a|l l' a b H1 IH1 H2 IH2|l l' a P H IH]; intros Hn Hb.
  - inversion Hb.
  - inversion Hb as [? ? K|? ? K]; auto. inversion K.
  - apply Forall_app in Hn. apply Exists_app in Hb. destruct Hn as [N1 N2].
    apply add_big; [eapply sum_of_nn; eauto..|]. destruct Hb; auto.
  - apply IH; [eapply Permutation_Forall; [apply Permutation_sym|]; eauto|].
    apply Exists_exists in Hb. destruct Hb as (v & Hv & Hb). apply Exists_exists. exists v. split; auto.
    apply Permutation_sym in P. eapply Permutation_in; eauto.
Qed.

Lemma sum_of_nil l s : sum_of l s -> l = [] -> exists z, s = B754_zero z.
Proof.
  induction 1 as [z|a|l l' a b H1 IH1 H2 IH2|l l' a P H IH]; intros L; [eauto|discriminate L|..].
  - apply app_eq_nil in L. destruct IH1 as [z ->], IH2 as [z' ->]; try tauto. destruct z, z'; cbn; eauto.
  - subst. apply Permutation_sym, Permutation_nil in P. auto.
Qed.

Section Doubles.
  Context (lib : flib) (GL : good_lib lib).

  Lemma f_special : special (B64Num lib) f_bad.
  Proof.
    split; cbn [B64Num nadd nsub nmul ndiv nsqrt nabs neqb nltb nofZ nisnan].
    - apply add_nan.
    - intros a b [H|H]; apply is_nan_eq in H; subst; [destruct b|destruct a]; reflexivity.
    - intros a b [H|H]; apply is_nan_eq in H; subst; [destruct b|destruct a]; reflexivity.
    - intros a b [H|H]; apply is_nan_eq in H; subst; [destruct b|destruct a]; reflexivity.
    - intros a H; apply is_nan_eq in H; subst; reflexivity.
    - intros a H; apply is_nan_eq in H; subst; reflexivity.
    - intros a b [H|H]; apply is_nan_eq in H; subst; [destruct b|destruct a as [|[]| |[]]]; reflexivity.
    - intros a b [H|H]; apply is_nan_eq in H; subst; [destruct b|destruct a as [|[]| |[]]]; reflexivity.
    - intros l H. eapply sum_of_nan; eauto. apply (np_sum_of lib l GL).
    - apply add_bad.
    - unfold f_bad. intros a b [H|H]; destruct a as [|[]| |], b as [|[]| |]; try discriminate H; reflexivity.
    - unfold f_bad. intros a k H. destruct a; try discriminate H; destruct (b64_ofZ k); reflexivity.
    - intros a b Hl H. eapply dot_of_bad; [apply (ndot_of lib a b GL Hl)|]. revert b Hl.
      induction H as [v l H|v l H IH]; intros [|w b] Hl; try discriminate Hl; [left|right]; auto.
    - unfold f_bad. intros v H. destruct v as [|[]| |]; try discriminate H; reflexivity.
    - unfold f_bad. intros a v H. destruct v as [|[]| |]; try discriminate H; destruct a as [|[]| |]; reflexivity.
    - unfold f_bad. intros v H. destruct v as [|[]| |]; try discriminate H; vm_compute; reflexivity.
  Qed.

  Lemma f_special_pos : special_pos (B64Num lib) f_bad f_big f_nn.
  Proof.
    split; cbn [B64Num nadd nsub nmul ndiv nsqrt nofZ nisnan].
    - intros v H. left. apply is_nan_eq. auto.
    - intros v [->| ->]; exact I.
    - apply mul_self_nn.
    - unfold f_bad, f_big. intros [|[]| |] H; try discriminate H; cbn; auto.
    - intros l. apply sum_of_nn. apply (np_sum_of lib l GL).
    - intros l. apply sum_of_big. apply (np_sum_of lib l GL).
    - apply sqrt_nn_b64.
    - unfold f_big. intros v [->| ->]; cbn; auto.
    - intros v n H. apply div_nn; auto. apply ofZ_sign. lia.
    - unfold f_big. intros v n [H|H]; subst v; [left; reflexivity|]. pose proof (ofZ_sign (Z.of_nat n) ltac:(lia)) as S.
      destruct (b64_ofZ (Z.of_nat n)); cbn [Bsign] in S; subst; cbn; auto.
    - unfold f_big. intros v [->| ->]; [left; reflexivity|right; vm_compute; reflexivity].
    - unfold f_big. intros a b [->| ->] H; destruct b as [|[]| |]; cbn in *; auto; try contradiction.
    - unfold f_big. intros a b [->| ->] [->| ->]; reflexivity.
    - pose proof (np_sum_of lib [] GL) as H. unfold np_sum in H. destruct (sum_of_nil [] _ H eq_refl) as [z K].
      cbn [B64Num nsum] in *. unfold nsum in *. rewrite K. destruct z; vm_compute; reflexivity.
  Qed.

  (** The C library's pow, for a positive exponent and a base that is not negative: NaN gives NaN, plus infinity gives plus
      infinity, and the result is not negative (C17, F.10.4.4). *)
  Definition c_pow : Prop := forall x h : b64, Bltb (B754_zero false) h = true ->
    (is_nan x = true -> is_nan (f_pow lib x h) = true) /\
    (f_nn x -> f_nn (f_pow lib x h)) /\ (f_big x -> f_big (f_pow lib x h)).

  (** Exponents the theorems cover: positive, also after division by two; and equal to one unless [pow] is as in C. *)
  Definition f_exponent (e : b64) : Prop :=
    Bltb (B754_zero false) e = true /\ Bltb (B754_zero false) (b64_div e (b64_ofZ 2)) = true /\ (c_pow \/ e = b64_ofZ 1).

  Lemma f_clamp v : (is_nan v = true -> is_nan (sqrt_clamp (B64Num lib) v) = true) /\ (f_nn v -> f_nn (sqrt_clamp (B64Num lib) v)) /\
    (f_big v -> f_big (sqrt_clamp (B64Num lib) v)).
  Proof.
    unfold sqrt_clamp, f_big. cbn [B64Num nltb nzero nsqrt]. split; [|split].
    - intros H. apply is_nan_eq in H. subst. reflexivity.
    - intros H. destruct (Bltb _ _); [exact I|]. apply sqrt_nn_b64. auto.
    - intros [->| ->]; cbn; auto.
  Qed.

  Context (E : Env b64) (EN : e_num E = B64Num lib).

  Lemma f_pow_pos v h : c_pow \/ Beqb h b64_half = true -> Bltb (B754_zero false) h = true ->
    (is_nan v = true -> is_nan (npow (B64Num lib) v h) = true) /\ (f_nn v -> f_nn (npow (B64Num lib) v h)) /\ (f_big v -> f_big (npow (B64Num lib) v h)).
  Proof.
    intros C Hh. cbn [npow B64Num]. destruct (Beqb h b64_half) eqn:Q.
    - split; [|split]; [|apply sqrt_nn_b64|].
      + intros H. apply is_nan_eq in H. subst. reflexivity.
      + unfold f_big. intros [->| ->]; cbn; auto.
    - destruct C as [C|C]; [apply C; auto|discriminate].
  Qed.
  Lemma f_exponent_pow e : f_exponent e -> forall v,
    (is_nan v = true -> is_nan (npow (B64Num lib) v (half E e)) = true) /\ (f_nn v -> f_nn (npow (B64Num lib) v (half E e))) /\ (f_big v -> f_big (npow (B64Num lib) v (half E e))).
  Proof.
    intros (H1 & H2 & H3) v. unfold half. rewrite EN. cbn [ndiv nofZ B64Num]. apply f_pow_pos; auto.
    destruct H3 as [?| ->]; [auto|right]. vm_compute. reflexivity.
  Qed.
  (** Objects without a float power: [s ** e] and then the square root. *)
  Definition f_dtype (d : dtype) (e : b64) : Prop := d <> Obj false \/ c_pow.
  Lemma f_dist_nan d e : f_exponent e -> f_dtype d e -> dist_nan E d e.
  Proof.
    intros He Hd s. pose proof (f_exponent_pow e He s) as (P1 & _ & _). destruct He as (H1 & H2 & H3).
    rewrite EN. cbn [nisnan B64Num]. intros Hs. split; [|auto]. unfold dist_power. rewrite EN. destruct d; auto. destruct pow_ok; auto.
    apply f_clamp. destruct Hd as [Hd|Hd]; [congruence|]. apply (f_pow_pos s e); auto.
  Qed.
  Lemma f_dist_pos d e : f_exponent e -> f_dtype d e -> dist_pos E f_big f_nn d e.
  Proof.
    intros He Hd. pose proof (f_exponent_pow e He) as P. destruct He as (H1 & H2 & H3).
    assert (Q : d = Obj false -> forall s, (f_nn s -> f_nn (dist_power E d s e)) /\ (f_big s -> f_big (dist_power E d s e))).
    { intros -> s. destruct Hd as [Hd|Hd]; [congruence|]. unfold dist_power. rewrite EN.
      destruct (f_pow_pos s e (or_introl Hd) H1) as (_ & A & B). split; intros Hs; apply f_clamp; auto. }
    split; intros s Hs; destruct (P s) as (_ & A & B); destruct d; try (destruct pow_ok; [|split; [apply Q; auto|]]);
      unfold dist_power; rewrite EN; auto.
  Qed.
End Doubles.
