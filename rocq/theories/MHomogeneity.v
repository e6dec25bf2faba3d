(** Model of dcor/homogeneity.py. *)
From Coq Require Import ZArith List Bool Arith.
From Verif Require Import Num Numpy MUtils MDistances MInternals MEnergy MHypothesis.
Import ListNotations.
Local Open Scope monad_scope.

Section Homogeneity.
  Context {T : Type} (E : Env T) {S : Type} (G : Rng S).
  Let N := e_num E.

  (** homogeneity.py:28-33, Python integers *)
  Definition energy_coefficient (n m : nat) : res T :=
    let n := Z.of_nat n in
    let m := Z.of_nat m in
    if (n + m =? 0)%Z then Err ZeroDivisionError
    else Ok (ndiv N (nofZ N (n * m)) (nofZ N (n + m))).

  (** homogeneity.py:36-54 *)
  Definition energy_test_statistic_from_distance_matrices (dxx dyy dxy : list (list T))
      (n m : nat) (av : average_fn (T:=T)) (es : estimation_like) : res T :=
    let? e := energy_distance_from_distance_matrices E dxx dyy dxy av es in
    let? c := energy_coefficient n m in
    Ok (nmul N c e).

  (** homogeneity.py:57-125 *)
  Definition energy_test_statistic (x y : array T) (exponent : T) (av : average_fn (T:=T))
      (es : estimation_like) : M T :=
    c <- lift (energy_coefficient (shape0 x) (shape0 y)) ;;
    e <- energy_distance E x y exponent av es ;;
    ret (nmul N c e).

  (** [m[a:b, c:d]]; homogeneity.py:146-148. *)
  Definition submatrix (m : list (list T)) (a b c d : nat) : list (list T) :=
    map (fun r => slice r c d) (slice m a b).

  (** homogeneity.py:138-139: the pairs [i < j], in order *)
  Definition sample_pairs (k : nat) : list (nat * nat) :=
    concat (map (fun i => map (fun j => (i, j)) (seq (i + 1) (k - (i + 1)))) (seq 0 k)).

  (** homogeneity.py:140-158: one pair *)
  Definition pair_statistic (dist : list (list T)) (indexes sizes : list nat)
      (av : average_fn (T:=T)) (es : estimation_like) (ij : nat * nat) : res T :=
    let (i, j) := ij in
    let bi := nth i indexes 0 in
    let n := nth i sizes 0 in
    let bj := nth j indexes 0 in
    let m := nth j sizes 0 in
    energy_test_statistic_from_distance_matrices
      (submatrix dist bi (bi + n) bi (bi + n))
      (submatrix dist bj (bj + m) bj (bj + m))
      (submatrix dist bi (bi + n) bj (bj + m)) n m av es.

  (** homogeneity.py:160-164: accumulate *)
  Fixpoint accumulate (f : nat * nat -> res T) (l : list (nat * nat)) (energy : option T)
      : res (option T) :=
    match l with
    | [] => Ok energy
    | p :: l' =>
        let? v := f p in
        accumulate f l' (Some (match energy with None => v | Some e => nadd N e v end))
    end.

  (** homogeneity.py:128-166; without any pair the variable [energy] is unbound *)
  Definition energy_statistic_multivariate (dist : list (list T)) (indexes sizes : list nat)
      (av : average_fn (T:=T)) (es : estimation_like) : res T :=
    let? e := accumulate (pair_statistic dist indexes sizes av es)
                (sample_pairs (length indexes)) None in
    of_option UnboundLocalError e.

  (** [np.cumsum(sample_sizes)], homogeneity.py:262. *)
  Fixpoint nat_cumsum (acc : nat) (l : list nat) : list nat :=
    match l with [] => [] | a :: l' => (acc + a) :: nat_cumsum (acc + a) l' end.

  (** homogeneity.py:261-263 *)
  Definition sample_indexes (sizes : list nat) : list nat :=
    match sizes with [] => [] | _ => 0 :: removelast (nat_cumsum 0 sizes) end.

  (** homogeneity.py:254-259: concatenation along the first axis; the numbers of columns
      must agree and there must be at least one sample *)
  Definition pool (samples : list (nat * list (list T))) : res (nat * list (list T)) :=
    match samples with
    | [] => Err ValueError
    | (c, _) :: _ =>
        if forallb (fun s => fst s =? c) samples
        then Ok (c, concat (map snd samples)) else Err ValueError
    end.

  (** homogeneity.py:169-287 (dtype and library of the pooled array: those of the first
      sample, simplification) *)
  Definition energy_test (samples : list (array T)) (num_resamples : Z) (exponent : T)
      (random_state : random_like S) (av : average_fn (T:=T)) (es : estimation_like)
      : M (HypothesisTest T * S) :=
    let samples2 := map (fun a => transform_to_2d (adata a)) samples in
    _ <- check_valid_energy_exponent E exponent ;;
    let sizes := map (fun s => length (snd s)) samples2 in
    pooled <- lift (pool samples2) ;;
    let indexes := sample_indexes sizes in
    let a0 := match samples with a :: _ => a | [] => mkArr Numpy F64 (Vec []) end in
    d <- lift (pairwise_distances E (mkArr (ans a0) (adt a0) (Mat (fst pooled) (snd pooled)))
                 None exponent) ;;
    lift (permutation_test_with_sym_matrix N G d
            (fun m => energy_statistic_multivariate m indexes sizes av es)
            num_resamples random_state).
End Homogeneity.
