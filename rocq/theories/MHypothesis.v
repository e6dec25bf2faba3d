(** Model of dcor/_hypothesis.py and of _utils.py:170-184. *)
From Coq Require Import ZArith List Bool Arith.
From Verif Require Import Num Numpy MUtils MMergesort.
Import ListNotations.
Local Open Scope monad_scope.

(** _hypothesis.py:15-45 (the deprecated accessors return these fields) *)
Record HypothesisTest (T : Type) := mkTest { pvalue : T; statistic : T }.
Arguments pvalue {T} _.
Arguments statistic {T} _.
Arguments mkTest {T} _ _.

(** The random generator: its states, [RandomState(seed)] and [.permutation(n)]; _utils.py:184 and _hypothesis.py:103. *)
Record Rng (S : Type) := mkRng {
  rng_seed : Z -> S;
  rng_permutation : nat -> S -> list nat * S }.
Arguments rng_seed {S} _ _.
Arguments rng_permutation {S} _ _ _.

(** The [random_state] argument: a generator object or a seed (simplification: [None] and
    array seeds are seeds whose value comes from the operating system / the user); _utils.py:22-27. *)
Inductive random_like (S : Type) := RState (s : S) | RSeed (z : Z).
Arguments RState {S} _.
Arguments RSeed {S} _.

(** _utils.py:170-184 *)
Definition random_state_init {S} (G : Rng S) (r : random_like S) : S :=
  match r with RState s => s | RSeed z => rng_seed G z end.

Section Hypothesis_.
  Context {T : Type} (N : Num T) {S : Type} (G : Rng S).

  (** _hypothesis.py:48-68: rows then columns are permuted with [take] *)
  Definition permuted_statistic (matrix : list (list T)) (stat : list (list T) -> res T)
      (perm : list nat) : res T :=
    let? rows := take_chk IndexError matrix perm in
    let? m := mapM (fun r => take_chk IndexError r perm) rows in
    stat m.

  (** _hypothesis.py:101-106: the permutations drawn one after the other *)
  Fixpoint draw_permutations (k : nat) (n : nat) (s : S) : list (list nat) * S :=
    match k with
    | O => ([], s)
    | Datatypes.S k' =>
        let (p, s) := rng_permutation G n s in
        let (ps, s) := draw_permutations k' n s in (p :: ps, s)
    end.

  (** _hypothesis.py:123-127: [(#{bootstrap > statistic} + 1.0) / (num_resamples + 1)] *)
  Definition permutation_pvalue (boot : list T) (stat : T) (num_resamples : Z) : res T :=
    let extreme := List.length (filter (fun b => nltb N stat b) boot) in
    if (num_resamples + 1 =? 0)%Z then Err ZeroDivisionError
    else Ok (ndiv N (nadd N (nofZ N (Z.of_nat extreme)) (nunit N))
                    (nofZ N (num_resamples + 1))).

  (** _hypothesis.py:71-132, with the jobs evaluated in order (the parallel evaluation is
      modelled in MParallel.v); [range(num_resamples)] is empty for a negative number.
      Also returns the final generator state. *)
  Definition permutation_test_with_sym_matrix (matrix : list (list T))
      (stat : list (list T) -> res T) (num_resamples : Z) (random_state : random_like S)
      : res (HypothesisTest T * S) :=
    let s := random_state_init G random_state in
    let? st := stat matrix in
    let (perms, s) := draw_permutations (Z.to_nat num_resamples) (List.length matrix) s in
    let? boot := mapM (permuted_statistic matrix stat) perms in
    let? p := permutation_pvalue boot st num_resamples in
    Ok (mkTest p st, s).
End Hypothesis_.
