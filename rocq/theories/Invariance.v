(** The centred statistics under a relabelling of the observations. *)
From Coq Require Import Reals Lra Lia List Arith Bool.
From Verif Require Import Sums Spec Centering.
Local Open Scope R_scope.

Definition relabel (q : nat -> nat) (a : nat -> nat -> R) (i j : nat) : R := a (q i) (q j).

Section Perm.
  Variables (n : nat) (q : nat -> nat).
  Hypothesis Hq : perm_on n q.

  Lemma rsum_relabel_row a i : rsum n (fun l => relabel q a i l) = rsum n (fun l => a (q i) l).
  Proof. exact (rsum_perm n q (fun l => a (q i) l) Hq). Qed.

  Lemma rsum_relabel_col a j : rsum n (fun k => relabel q a k j) = rsum n (fun k => a k (q j)).
  Proof. exact (rsum_perm n q (fun k => a k (q j)) Hq). Qed.

  Lemma rsum2_relabel a : rsum2 n n (relabel q a) = rsum2 n n a.
  Proof. exact (rsum2_perm n q a Hq). Qed.

  Lemma rsum2_relabel' a : rsum n (fun k => rsum n (fun l => relabel q a k l)) = rsum n (fun k => rsum n (fun l => a k l)).
  Proof. exact (rsum2_perm n q a Hq). Qed.

  Lemma dcenter_relabel a i j : dcenter n (relabel q a) i j = relabel q (dcenter n a) i j.
  Proof.
    unfold dcenter, mean. rewrite rsum_relabel_row, rsum_relabel_col.
    rewrite !rsum_div, rsum2_relabel'. reflexivity.
  Qed.

  Lemma ucenter_relabel a i j : (i < n)%nat -> (j < n)%nat ->
    ucenter n (relabel q a) i j = relabel q (ucenter n a) i j.
  Proof.
    intros Hi Hj. change (relabel q (ucenter n a) i j) with (ucenter n a (q i) (q j)). unfold ucenter.
    assert ((q i =? q j)%nat = (i =? j)%nat) as ->.
    { destruct (Nat.eqb_spec i j) as [->|Hne]; [apply Nat.eqb_refl|].
      apply Nat.eqb_neq. intros He. apply Hne. apply Hq; auto. }
    destruct (i =? j)%nat; [reflexivity|].
    rewrite rsum_relabel_row, rsum_relabel_col, rsum2_relabel. reflexivity.
  Qed.

  Lemma dcov2_relabel a b : dcov2 n (relabel q a) (relabel q b) = dcov2 n a b.
  Proof.
    unfold dcov2. f_equal.
    rewrite <- (rsum2_relabel (fun i j => dcenter n a i j * dcenter n b i j)).
    apply rsum2_ext; intros. rewrite !dcenter_relabel. reflexivity.
  Qed.

  Lemma uprod_relabel a b : uprod n (relabel q a) (relabel q b) = uprod n a b.
  Proof.
    unfold uprod. f_equal. exact (rsum2_relabel (fun i j => a i j * b i j)).
  Qed.

  Lemma udcov2_relabel a b : udcov2 n (relabel q a) (relabel q b) = udcov2 n a b.
  Proof.
    unfold udcov2. rewrite <- (uprod_relabel (ucenter n a)). apply uprod_ext; intros;
      apply ucenter_relabel; auto.
  Qed.

  Lemma dcor2_relabel a b : dcor2 n (relabel q a) (relabel q b) = dcor2 n a b.
  Proof. unfold dcor2. rewrite !dcov2_relabel. reflexivity. Qed.
  Lemma udcor2_relabel a b : udcor2 n (relabel q a) (relabel q b) = udcor2 n a b.
  Proof. unfold udcor2. rewrite !udcov2_relabel. reflexivity. Qed.
End Perm.

Lemma dvar_nonneg n a : 0 <= dcov2 n a a.
Proof.
  unfold dcov2. destruct n; [unfold rsum2; simpl; lra|].
  apply Rmult_le_pos.
  - left. apply Rinv_0_lt_compat, pow_lt, INR_pos. lia.
  - apply rsum2_nonneg. intros. apply Rle_0_sqr.
Qed.

Lemma udvar_nonneg n a : (4 <= n)%nat -> 0 <= udcov2 n a a.
Proof.
  intros Hn. pose proof (INR_ge4 n Hn). unfold udcov2, uprod. apply Rmult_le_pos.
  - left. apply Rinv_0_lt_compat, Rmult_lt_0_compat; lra.
  - apply rsum2_nonneg. intros. apply Rle_0_sqr.
Qed.
