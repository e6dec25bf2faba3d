(** A concrete environment meeting the contracts assumed of the external routines, and
    sample arrays: used to show that the hypotheses of the theorems can be met. *)
From Coq Require Import Reals Lra Lia List Arith Bool ZArith Permutation.
From Verif Require Import Num Numpy MUtils MDcor Sums Spec Tab Samples Api.
Import ListNotations.
Local Open Scope R_scope.

(** Stable insertion sort of positions. *)
Fixpoint ins (l : list R) (i : nat) (s : list nat) : list nat :=
  match s with
  | [] => [i]
  | j :: s' => if Rle_dec (nth i l 0) (nth j l 0) then i :: s else j :: ins l i s'
  end.
Fixpoint isort (l : list R) (s : list nat) : list nat :=
  match s with [] => [] | i :: s' => ins l i (isort l s') end.
Definition argsort_R (l : list R) : list nat := isort l (seq 0 (length l)).

Lemma ins_perm l i s : Permutation (ins l i s) (i :: s).
Proof.
  induction s as [|j s IH]; simpl; auto. destruct (Rle_dec _ _); auto.
  rewrite IH. apply perm_swap.
Qed.
Lemma isort_perm l s : Permutation (isort l s) s.
Proof. induction s as [|i s IH]; simpl; auto. rewrite ins_perm. constructor. auto. Qed.

Fixpoint sorted_by (l : list R) (s : list nat) : Prop :=
  match s with
  | [] => True
  | i :: s' => (forall j, In j s' -> nth i l 0 <= nth j l 0) /\ sorted_by l s'
  end.
Lemma ins_sorted l i s : sorted_by l s -> sorted_by l (ins l i s).
Proof.
  induction s as [|j s IH]; simpl; [intros; split; auto; tauto|].
  intros [H1 H2]. destruct (Rle_dec (nth i l 0) (nth j l 0)) as [Hle|Hle]; simpl.
  - split; [|split; auto]. intros k [->|Hk]; auto. specialize (H1 k Hk). lra.
  - split; [|auto]. intros k Hk. apply (Permutation_in _ (ins_perm l i s)) in Hk.
    destruct Hk as [->|Hk]; [lra|auto].
Qed.
Lemma isort_sorted l s : sorted_by l (isort l s).
Proof. induction s; simpl; auto. apply ins_sorted; auto. Qed.
Lemma sorted_by_nth l s : sorted_by l s ->
  forall i j, (i < j)%nat -> (j < length s)%nat -> nth (nth i s 0%nat) l 0 <= nth (nth j s 0%nat) l 0.
Proof.
  induction s as [|a s IH]; simpl; intros H i j Hij Hj; [lia|]. destruct H as [H1 H2].
  destruct i, j; try lia.
  - apply H1. apply nth_In. lia.
  - apply IH; auto; lia.
Qed.

Definition env_R (isnp : bool) : Env R :=
  mkEnv R RNum argsort_R (fun n => repeat 7 n) (fun m => ([], [])) (fun _ _ => 1 / 2) isnp.

Theorem env_R_valid b : valid_env (env_R b).
Proof.
  split; cbn.
  - reflexivity.
  - intros l. split; [apply isort_perm|]. intros i j Hij Hj. apply sorted_by_nth; auto.
    + apply isort_sorted.
    + unfold argsort_R. rewrite (Permutation_length (isort_perm _ _)), seq_length. auto.
  - intros n. apply repeat_length.
Qed.

(** Univariate float64 samples with a tie, and a bivariate one. *)
Definition xs : array R := mkArr Numpy F64 (Vec [3; 1; 2; 1; 5]).
Definition ys : array R := mkArr Numpy F64 (Vec [0; 2; 2; 7; 1]).
Definition zs : array R := mkArr Numpy F64 (Mat 2 [[1; 0]; [0; 2]; [4; 4]; [1; 1]; [1; 0]]).

Lemma xs_ys : paired 5 xs ys.
Proof. repeat split; cbn; auto with arith. Qed.
Lemma xs_zs : paired 5 xs zs.
Proof. repeat split; cbn; auto with arith. repeat constructor. Qed.
Lemma xs_ys_avl : accepts MAvl CAuto xs ys 1.
Proof. unfold accepts, accepts_avl, univariate, not_forced, shape0; cbn. repeat split; auto. Qed.
Lemma xs_ys_avl_cpu : accepts MAvl CCompileCpu xs ys 1.
Proof.
  unfold accepts, accepts_avl, univariate, not_forced, forced_f64, is_float64, shape0; cbn.
  repeat split; auto.
Qed.
Lemma xs_ys_mergesort : accepts MMergesort CCompileCpu xs ys 1.
Proof.
  unfold accepts, accepts_mergesort, univariate, not_forced, forced_f64, is_float64, mergesort_dtypes; cbn.
  repeat split; auto.
Qed.
Lemma naive_accepts x y e : accepts MNaive CNoCompile x y e.
Proof. right. reflexivity. Qed.
Lemma auto_accepts x y e : accepts MAuto CAuto x y e.
Proof. left. left. reflexivity. Qed.
