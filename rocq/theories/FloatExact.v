(** Facts about doubles that need no error analysis: signs, zeros, finiteness. *)
From Coq Require Import Reals Lra Lia List Arith Bool ZArith Permutation.
From Flocq Require Import Core IEEE754.BinarySingleNaN.
From Verif Require Import Num Numpy MUtils MDistances MInternals MFloat Tab Samples RefFloat FloatSum FloatNaive FloatApi.
Import ListNotations.

(** ** Signs *)

Lemma mul_opp (d : b64) : b64_mul (Bopp d) (Bopp d) = b64_mul d d.
Proof.
  destruct d as [s|s| |s m e B]; try reflexivity; try (destruct s; reflexivity).
  apply B2SF_inj. unfold b64_mul, Bmult. cbn [Bopp]. rewrite !B2SF_SF2B. destruct s; reflexivity.
Qed.

(** Equal up to the sign. *)
Definition eqs (a b : b64) : Prop := a = b \/ a = Bopp b.
Lemma eqs_square a b : eqs a b -> b64_mul a a = b64_mul b b.
Proof. intros [->| ->]; auto using mul_opp. Qed.

Lemma eqs_real a b : is_finite a = true -> is_finite b = true -> B2R a = (- B2R b)%R -> eqs a b.
Proof.
  intros Fa Fb H. assert (Q : eqz a (Bopp b)).
  { apply eqz_of_real; auto; [rewrite is_finite_Bopp; auto|]. now rewrite B2R_Bopp. }
  destruct Q as [->|(s & t & -> & Hb)]; [right; auto|]. destruct b as [u|u| |u m e B]; try discriminate.
  destruct s, u; [left|right|right|left]; reflexivity.
Qed.

Lemma add_opp (a b : b64) : eqs (b64_add (Bopp a) (Bopp b)) (b64_add a b).
Proof.
  destruct (is_finite a) eqn:Fa.
  2:{ destruct a as [s|s| |s m e B]; try discriminate; destruct b as [t|t| |t m' e' B']; cbn;
      try destruct s; try destruct t; cbn; unfold eqs; cbn; auto. }
  destruct (is_finite b) eqn:Fb.
  2:{ destruct b as [s|s| |s m e B]; try discriminate; destruct a as [t|t| |t m' e' B']; cbn;
      try destruct s; try destruct t; cbn; unfold eqs; cbn; auto. }
  assert (Fa' : is_finite (Bopp a) = true) by (now rewrite is_finite_Bopp).
  assert (Fb' : is_finite (Bopp b) = true) by (now rewrite is_finite_Bopp).
  pose proof (Bplus_correct 53 1024 b64_prec b64_emax mode_NE a b Fa Fb) as H.
  pose proof (Bplus_correct 53 1024 b64_prec b64_emax mode_NE (Bopp a) (Bopp b) Fa' Fb') as H'.
  rewrite !B2R_Bopp in H'. replace (- B2R a + - B2R b)%R with (- (B2R a + B2R b))%R in H' by ring.
  rewrite round_NE_opp, Rabs_Ropp in H'. fold (b64_add a b) in H. fold (b64_add (Bopp a) (Bopp b)) in H'.
  destruct (Rlt_bool _ _).
  - destruct H as (H1 & H2 & _), H' as (H1' & H2' & _). apply eqs_real; auto. rewrite H1, H1'. reflexivity.
  - destruct H as (H1 & _), H' as (H1' & _). right. apply B2SF_inj.
    assert (Bsign (Bopp a) = negb (Bsign a)) as S by (destruct a; auto; discriminate).
    rewrite H1'. rewrite S. destruct (b64_add a b); cbn in *; try discriminate; unfold binary_overflow in *; cbn in *.
    injection H1 as ->. reflexivity.
Qed.

Lemma opp_opp (a : b64) : Bopp (Bopp a) = a.
Proof. apply Bopp_involutive. Qed.

Lemma sub_add (a b : b64) : b64_sub a b = b64_add a (Bopp b).
Proof. destruct a as [s|s| |s m e B], b as [t|t| |t m' e' B']; reflexivity. Qed.
Lemma sub_opp (a b : b64) : eqs (b64_sub (Bopp a) (Bopp b)) (b64_sub a b).
Proof. rewrite !sub_add. apply add_opp. Qed.

Lemma add_comm (a b : b64) : b64_add a b = b64_add b a.
Proof.
  destruct (is_finite a) eqn:Fa.
  2:{ destruct a as [s|s| |s m e B]; try discriminate; destruct b as [t|t| |t m' e' B']; cbn; try destruct s; try destruct t; cbn; auto. }
  destruct (is_finite b) eqn:Fb.
  2:{ destruct b as [s|s| |s m e B]; try discriminate; destruct a as [t|t| |t m' e' B']; cbn; try destruct s; try destruct t; cbn; auto. }
  pose proof (Bplus_correct 53 1024 b64_prec b64_emax mode_NE a b Fa Fb) as H.
  pose proof (Bplus_correct 53 1024 b64_prec b64_emax mode_NE b a Fb Fa) as H'.
  rewrite (Rplus_comm (B2R b)) in H'. fold (b64_add a b) in H. fold (b64_add b a) in H'.
  destruct (Rlt_bool _ _).
  - destruct H as (H1 & H2 & H3), H' as (H1' & H2' & H3'). apply B2R_Bsign_inj; auto; [congruence|].
    rewrite H3, H3'. destruct (Rcompare _ _); auto. apply andb_comm.
  - destruct H as (H1 & H2), H' as (H1' & H2'). apply B2SF_inj. congruence.
Qed.
Lemma sub_swap (a b : b64) : eqs (b64_sub a b) (b64_sub b a).
Proof.
  rewrite !sub_add. rewrite (add_comm b (Bopp a)). rewrite <- (opp_opp a) at 1. apply add_opp.
Qed.

Lemma sq_sub_opp (a b : b64) : let d := b64_sub (Bopp a) (Bopp b) in let d' := b64_sub a b in b64_mul d d = b64_mul d' d'.
Proof. apply eqs_square, sub_opp. Qed.
Lemma sq_sub_swap (a b : b64) : let d := b64_sub a b in let d' := b64_sub b a in b64_mul d d = b64_mul d' d'.
Proof. apply eqs_square, sub_swap. Qed.

(** ** Finite results have finite arguments *)

Lemma fin_add a b : is_finite (b64_add a b) = true -> is_finite a = true /\ is_finite b = true.
Proof. destruct a as [s|s| |s m e B], b as [t|t| |t m' e' B']; cbn; auto; try discriminate; try (destruct s, t; cbn; discriminate). Qed.
Lemma fin_sub a b : is_finite (b64_sub a b) = true -> is_finite a = true /\ is_finite b = true.
Proof. intros H. rewrite sub_add in H. destruct (fin_add a (Bopp b) H) as [H1 H2]. now rewrite is_finite_Bopp in H2. Qed.
Lemma fin_mul a b : is_finite (b64_mul a b) = true -> is_finite a = true /\ is_finite b = true.
Proof. destruct a as [s|s| |s m e B], b as [t|t| |t m' e' B']; cbn; auto; discriminate. Qed.
Lemma fin_div a b : is_finite (b64_div a b) = true -> is_finite a = true.
Proof. destruct a as [s|s| |s m e B], b as [t|t| |t m' e' B']; cbn; auto; discriminate. Qed.
Lemma fin_fma a b c : is_finite (b64_fma a b c) = true -> is_finite a = true /\ is_finite b = true /\ is_finite c = true.
Proof.
  destruct a as [s|s| |s m e B], b as [t|t| |t m' e' B'], c as [u|u| |u m'' e'' B'']; cbn; auto; try discriminate;
    repeat match goal with |- context [Bool.eqb ?p ?q] => destruct (Bool.eqb p q) end; cbn; auto; discriminate.
Qed.

Lemma fin_sum_of l v : sum_of l v -> is_finite v = true -> Forall (fun a => is_finite a = true) l.
Proof.
  induction 1 as [s|a|l l' a b _ IH1 _ IH2|l l' a P _ IH]; intros H; auto.
  - apply fin_add in H as [H1 H2]. apply Forall_app; auto.
  - specialize (IH H). rewrite Forall_forall in *. intros c Hc. apply IH. eapply Permutation_in; [|exact Hc]. now symmetry.
Qed.
Lemma fin_dot_of l v : dot_of l v -> is_finite v = true -> Forall (fun p => is_finite (fst p) = true /\ is_finite (snd p) = true) l.
Proof.
  induction 1 as [s|a b|a b l c _ IH|l l' a b _ IH1 _ IH2|l l' a P _ IH]; intros H; auto.
  - apply fin_mul in H. auto.
  - apply fin_fma in H as (H1 & H2 & H3). auto.
  - apply fin_add in H as [H1 H2]. apply Forall_app; auto.
  - specialize (IH H). rewrite Forall_forall in *. intros c Hc. apply IH. eapply Permutation_in; [|exact Hc]. now symmetry.
Qed.

(** ** Zeros *)

Definition isz (v : b64) : Prop := exists s, v = B754_zero s.
Lemma isz_exact v : isz v <-> exact v 0.
Proof.
  split; [intros [s ->]; split; reflexivity|]. intros [F H].
  destruct (eqz_of_real v (B754_zero false) F eq_refl) as [->|(s & t & -> & _)]; auto; eexists; reflexivity.
Qed.
Lemma isz_add a b : isz a -> isz b -> isz (b64_add a b).
Proof. intros [s ->] [t ->]. destruct s, t; eexists; reflexivity. Qed.
Lemma isz_sub a b : isz a -> isz b -> isz (b64_sub a b).
Proof. intros [s ->] [t ->]. destruct s, t; eexists; reflexivity. Qed.
Lemma isz_mul_l a b : isz a -> is_finite b = true -> isz (b64_mul a b).
Proof. intros [s ->] F. destruct b; try discriminate; eexists; reflexivity. Qed.
Lemma isz_mul_r a b : is_finite a = true -> isz b -> isz (b64_mul a b).
Proof. intros F [s ->]. destruct a; try discriminate; eexists; reflexivity. Qed.
Lemma isz_fma a b c : isz (b64_mul a b) -> is_finite a = true -> is_finite b = true -> isz a \/ isz b -> isz c -> isz (b64_fma a b c).
Proof.
  intros _ Fa Fb [[s ->]|[s ->]] [t ->].
  - destruct b; try discriminate; eexists; reflexivity.
  - destruct a; try discriminate; eexists; reflexivity.
Qed.
Lemma isz_sqrt a : isz a -> isz (b64_sqrt a).
Proof. intros [s ->]. eexists; reflexivity. Qed.
Lemma isz_sub_self (a : b64) : is_finite a = true -> isz (b64_sub a a).
Proof.
  intros F. apply isz_exact. pose proof (Bminus_correct 53 1024 b64_prec b64_emax mode_NE a a F F) as H.
  rewrite Rminus_diag_eq, round_0, Rabs_R0 in H by (auto; typeclasses eauto).
  rewrite Rlt_bool_true in H by (apply bpow_gt_0). destruct H as (H1 & H2 & _). split; auto.
Qed.

Lemma isz_sum_of l v : sum_of l v -> Forall isz l -> isz v.
Proof.
  induction 1 as [s|a|l l' a b _ IH1 _ IH2|l l' a P _ IH]; intros H.
  - eexists; reflexivity.
  - inversion H; auto.
  - apply Forall_app in H as [H1 H2]. apply isz_add; auto.
  - apply IH. rewrite Forall_forall in *. intros c Hc. apply H. eapply Permutation_in; eauto.
Qed.
Definition zpair (p : b64 * b64) : Prop := is_finite (fst p) = true /\ is_finite (snd p) = true /\ (isz (fst p) \/ isz (snd p)).
Lemma zpair_mul a b : zpair (a, b) -> isz (b64_mul a b).
Proof. intros (H1 & H2 & [H|H]); cbn in *; auto using isz_mul_l, isz_mul_r. Qed.
Lemma isz_dot_of l v : dot_of l v -> Forall zpair l -> isz v.
Proof.
  induction 1 as [s|a b|a b l c _ IH|l l' a b _ IH1 _ IH2|l l' a P _ IH]; intros H.
  - eexists; reflexivity.
  - inversion H; auto using zpair_mul.
  - inversion H as [|? ? Hp Hl]; subst. pose proof (zpair_mul _ _ Hp) as Z. destruct Hp as (H1 & H2 & H3). apply isz_fma; auto.
  - apply Forall_app in H as [H1 H2]. apply isz_add; auto.
  - apply IH. rewrite Forall_forall in *. intros c Hc. apply H. eapply Permutation_in; eauto.
Qed.

(** The double of a positive integer is positive (it may be infinite). *)
Lemma ofZ_pos z : (1 <= z)%Z -> match b64_ofZ z with B754_zero _ | B754_nan => False | _ => True end.
Proof.
  intros Hz. unfold b64_ofZ. pose proof (binary_normalize_correct 53 1024 b64_prec b64_emax mode_NE z 0 false) as H. cbv zeta in H.
  set (v := binary_normalize 53 1024 b64_prec b64_emax mode_NE z 0 false) in *.
  assert (Fz : F2R (Float radix2 z 0) = IZR z) by (unfold F2R; cbn; ring). rewrite Fz in H.
  destruct (Rlt_bool _ _).
  - destruct H as (H1 & H2 & _). destruct v; try discriminate; auto. cbn in H1.
    assert (1 <= round radix2 (SpecFloat.fexp 53 1024) ZnearestE (IZR z))%R as G; [|rewrite <- H1 in G; lra].
    replace 1%R with (round radix2 (SpecFloat.fexp 53 1024) ZnearestE 1).
    + apply round_le; try typeclasses eauto. now apply IZR_le.
    + apply (b64_round_Z 1). lia.
  - unfold binary_overflow in H. cbn in H. destruct v; cbn in H; try discriminate; auto.
Qed.
Lemma isz_div_ofZ a z : isz a -> (1 <= z)%Z -> isz (b64_div a (b64_ofZ z)).
Proof. intros [s ->] Hz. pose proof (ofZ_pos z Hz) as P. destruct (b64_ofZ z); try tauto; eexists; reflexivity. Qed.
