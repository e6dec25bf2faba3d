(** Evaluation of the permutation tests. *)
From Coq Require Import Reals Lra Lia List Arith Bool ZArith Permutation.
From Verif Require Import Num Numpy MUtils MDistances MMergesort MInternals MDcor MHypothesis Sums Spec Centering Tab Samples Api
  RefDist RefCenter RefApi Invariance.
Import ListNotations.
Local Open Scope R_scope.

(** [permutation(n)] of the generator returns a permutation of 0, ..., n-1. *)
Definition permuting {S} (G : Rng S) : Prop := forall n s, is_perm n (fst (rng_permutation G n s)).

(** The p-value of an observed statistic among resampled ones. *)
Definition p_value (observed : R) (resampled : list R) : R :=
  (1 + INR (length (filter (fun b => if Rlt_dec observed b then true else false) resampled))) / (1 + INR (length resampled)).

(** The observations of [x] in the order [q]. *)
Definition permute_sample (q : list nat) (x : array R) : array R :=
  mkArr (ans x) (adt x)
    (match adata x with Vec v => Vec (map (fun i => nth i v 0) q) | Mat c r => Mat c (map (fun i => nth i r []) q) end).

Lemma permute_reordered q x : wf x -> is_perm (shape0 x) q -> reordered (fun i => nth i q 0%nat) x (permute_sample q x).
Proof.
  intros Wx Hq. pose proof (is_perm_length _ _ Hq) as Hl. split.
  - unfold same_form, permute_sample. destruct x as [s d [v|c r]]; unfold ncols, shape0, wf in *; cbn in *; repeat split.
    + rewrite map_length. auto.
    + rewrite map_length. auto.
    + rewrite Forall_forall in *. intros l Hin. apply in_map_iff in Hin as (i & <- & Hi). apply Wx, nth_In.
      eapply is_perm_In; eauto.
  - intros i k Hi Hk. unfold obs, permute_sample. destruct x as [s d [v|c r]]; unfold shape0, ncols in *; cbn in *.
    + rewrite (nth_indep _ 0 (nth 0 v 0)) by (rewrite map_length; lia).
      rewrite (map_nth (fun i => nth i v 0)). reflexivity.
    + rewrite (nth_indep _ [] (nth 0 r [])) by (rewrite map_length; lia).
      rewrite (map_nth (fun i => nth i r [])). reflexivity.
Qed.

Lemma take_chk_tab {A} ex n (f : nat -> A) q : is_perm n q ->
  take_chk ex (tab n f) q = Ok (tab n (fun i => f (nth i q 0%nat))).
Proof.
  intros Hq. pose proof (is_perm_length n q Hq) as Hl.
  assert (forall q', (forall i, In i q' -> (i < n)%nat) -> take_chk ex (tab n f) q' = Ok (map f q')) as H.
  { induction q' as [|i q' IH]; intros Hin; cbn; auto.
    rewrite tab_nth_error by (apply Hin; left; auto). rewrite IH by (intros; apply Hin; right; auto). reflexivity. }
  rewrite H by (intros; eapply is_perm_In; eauto). f_equal.
  rewrite (tab_of_list_n 0%nat n q) at 1 by auto. rewrite tab_map. reflexivity.
Qed.

Lemma mapM_tab {A B} n (f : nat -> A) (g : A -> res B) (h : nat -> B) : (forall i, (i < n)%nat -> g (f i) = Ok (h i)) ->
  mapM g (tab n f) = Ok (tab n h).
Proof.
  unfold tab. generalize (seq 0 n) (fun i => proj1 (in_seq n 0 i)). intros l Hl H.
  induction l as [|i l IH]; cbn; auto. rewrite H by (destruct (Hl i) as [_ Hi]; [left; auto|lia]). cbn.
  rewrite IH by (intros; apply Hl; right; auto). reflexivity.
Qed.

Lemma mapM_ok {A B} (f : A -> res B) (h : A -> B) l : (forall a, In a l -> f a = Ok (h a)) -> mapM f l = Ok (map h l).
Proof.
  induction l as [|a l IH]; intros H; cbn; auto. rewrite H by (left; auto). cbn. rewrite IH by (intros; apply H; right; auto).
  reflexivity.
Qed.

Lemma mapM_length {A B} (f : A -> res B) l l' : mapM f l = Ok l' -> length l' = length l.
Proof.
  revert l'. induction l as [|a l IH]; cbn; intros l' H; [injection H as <-; reflexivity|].
  destruct (f a); cbn in H; [|discriminate]. destruct (mapM f l); cbn in H; [|discriminate]. injection H as <-. cbn. auto.
Qed.

Lemma permuted_statistic_tab n (a : nat -> nat -> R) stat q : is_perm n q ->
  permuted_statistic (tab2 n n a) stat q = stat (tab2 n n (relabel (fun i => nth i q 0%nat) a)).
Proof.
  intros Hq. unfold permuted_statistic, tab2. rewrite take_chk_tab by auto. cbn [rbind].
  rewrite (mapM_tab n _ _ (fun i => tab n (fun j => a (nth i q 0%nat) (nth j q 0%nat)))); [reflexivity|].
  intros. apply take_chk_tab; auto.
Qed.

Lemma draw_length {S} (G : Rng S) b n s : length (fst (draw_permutations G b n s)) = b.
Proof.
  revert s. induction b as [|b IH]; intros s; cbn; auto. destruct (rng_permutation G n s) as [p s1].
  specialize (IH s1). destruct (draw_permutations G b n s1). cbn in *. auto.
Qed.

Lemma draw_perm {S} (G : Rng S) b n s q : permuting G -> In q (fst (draw_permutations G b n s)) -> is_perm n q.
Proof.
  intros HG. revert s. induction b as [|b IH]; intros s; cbn; [contradiction|].
  pose proof (HG n s) as Hp. destruct (rng_permutation G n s) as [p s1].
  specialize (IH s1). destruct (draw_permutations G b n s1). cbn in *. intros [<-|H]; auto.
Qed.

Lemma filter_Rltb st l : filter (fun b => Rltb st b) l = filter (fun b => if Rlt_dec st b then true else false) l.
Proof. apply filter_ext. intros b. destruct (Rltb_spec st b), (Rlt_dec st b); auto; contradiction. Qed.

Lemma pvalue_nat boot st b : length boot = b -> permutation_pvalue RNum boot st (Z.of_nat b) = Ok (p_value st boot).
Proof.
  intros Hl. unfold permutation_pvalue, p_value. destruct (Z.eqb_spec (Z.of_nat b + 1) 0); [lia|]. f_equal. cbn.
  rewrite filter_Rltb, <- INR_IZR_INZ, plus_IZR, <- INR_IZR_INZ, Hl. f_equal; ring.
Qed.

Lemma perm_test_eval {S} (G : Rng S) n a stat st f b rs : permuting G ->
  stat (tab2 n n a) = Ok st ->
  (forall q, is_perm n q -> stat (tab2 n n (relabel (fun i => nth i q 0%nat) a)) = Ok (f q)) ->
  let d := draw_permutations G b n (random_state_init G rs) in
  permutation_test_with_sym_matrix RNum G (tab2 n n a) stat (Z.of_nat b) rs
  = Ok (mkTest (p_value st (map f (fst d))) st, snd d).
Proof.
  intros HG Hst Hf d. unfold permutation_test_with_sym_matrix. rewrite Hst. cbn [rbind].
  rewrite Nat2Z.id, tab2_length. fold d.
  assert (forall q, In q (fst d) -> is_perm n q) as Hd by (intros; eapply draw_perm; eauto).
  pose proof (draw_length G b n (random_state_init G rs)) as Hl. fold d in Hl.
  destruct d as [perms s]. cbn [fst snd] in *.
  rewrite (mapM_ok _ f) by (intros; rewrite permuted_statistic_tab by auto; auto). cbn [rbind].
  rewrite pvalue_nat by (rewrite map_length; auto). reflexivity.
Qed.

(** The p-value of every successful run. *)
Lemma perm_test_pvalue {S} (G : Rng S) m stat B rs t s : permutation_test_with_sym_matrix RNum G m stat B rs = Ok (t, s) ->
  exists boot, length boot = Z.to_nat B /\ B <> (-1)%Z /\
  pvalue t = (1 + INR (length (filter (fun b => if Rlt_dec (statistic t) b then true else false) boot))) / IZR (B + 1).
Proof.
  unfold permutation_test_with_sym_matrix. destruct (stat m) as [st|]; cbn [rbind]; [|discriminate].
  pose proof (draw_length G (Z.to_nat B) (length m) (random_state_init G rs)) as Hl.
  destruct (draw_permutations _ _ _ _) as [perms s']. destruct (mapM _ perms) as [boot|] eqn:Hm; cbn [rbind]; [|discriminate].
  unfold permutation_pvalue. destruct (Z.eqb_spec (B + 1) 0); cbn [rbind]; [discriminate|].
  intros H. injection H as <- <-. exists boot. cbn in *. apply mapM_length in Hm.
  split; [lia|]. split; [lia|]. rewrite filter_Rltb, <- INR_IZR_INZ. f_equal. ring.
Qed.

Lemma p_value_range st boot : / (1 + INR (length boot)) <= p_value st boot <= 1.
Proof.
  unfold p_value. pose proof (pos_INR (length boot)).
  set (k := length (filter _ boot)).
  assert (k <= length boot)%nat as Hk by (unfold k; clear; induction boot as [|b l IH]; cbn; [lia|destruct (Rlt_dec st b); cbn; lia]).
  apply le_INR in Hk. pose proof (pos_INR k). split.
  - unfold Rdiv. rewrite <- (Rmult_1_l (/ _)) at 1. apply Rmult_le_compat_r; [left; apply Rinv_0_lt_compat; lra|lra].
  - apply Rmult_le_reg_r with (1 + INR (length boot)); [lra|]. unfold Rdiv. rewrite Rmult_assoc, Rinv_l; lra.
Qed.

Lemma perm_test_negative {S} (G : Rng S) m stat st B rs : (B < 0)%Z -> stat m = Ok st ->
  permutation_test_with_sym_matrix RNum G m stat B rs
  = if Z.eqb B (-1) then Err ZeroDivisionError else Ok (mkTest (1 / IZR (B + 1)) st, random_state_init G rs).
Proof.
  intros HB Hst. unfold permutation_test_with_sym_matrix. rewrite Hst. cbn [rbind].
  replace (Z.to_nat B) with 0%nat by lia. cbn [draw_permutations mapM rbind]. unfold permutation_pvalue. cbn [filter length].
  destruct (Z.eqb_spec (B + 1) 0), (Z.eqb_spec B (-1)); try lia; [reflexivity|]. cbn [rbind]. cbn. do 3 f_equal. unfold Rdiv. ring.
Qed.
