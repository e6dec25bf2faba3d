(** Model of the parallel evaluation in dcor/_hypothesis.py:101-114: [Parallel(n_jobs)(delayed(f)(p) for p in permutations)].

    joblib takes the jobs from the generator expression in batches. The generator is lazy: a permutation is drawn when its
    job is taken, and the taking of a batch is done under a lock, so it is one step here. Workers complete the batches in any
    order; the calling thread collects the results in the order of submission, or raises as soon as it sees a failed batch.
    Simplifications: a job is a pure function of its permutation (the matrix and the statistic function are not modified by
    any job); crashes of worker processes are not modelled. *)
From Coq Require Import ZArith List Bool Arith.
From Verif Require Import Num Numpy MUtils MDistances MMergesort MInternals MDcor MEnergy MHypothesis MHomogeneity MIndependence.
Import ListNotations.
Local Open Scope monad_scope.

(** What the scheduler does next: take a batch of at most [k] jobs, or let the [i]-th submitted batch complete;
    joblib, called in _hypothesis.py:108-114. *)
Inductive event := Take (k : nat) | Complete (i : nat).

(** A submitted batch: running with its permutations, or completed with its results; _hypothesis.py:108-114. *)
Inductive batch (T : Type) := Running (perms : list (list nat)) | Completed (r : res (list T)).
Arguments Running {T} _.
Arguments Completed {T} _.

(** The jobs not yet taken, the state of the generator, and the batches in the order of submission;
    _hypothesis.py:101-114. *)
Record pstate (T St : Type) := mkP { todo : nat; gen : St; batches : list (batch T) }.
Arguments mkP {T St} _ _ _.
Arguments todo {T St} _.
Arguments gen {T St} _.
Arguments batches {T St} _.

Section Parallel.
  Context {T : Type} (N : Num T) {St : Type} (G : Rng St).
  Variables (n : nat) (job : list nat -> res T).

  (** A batch not yet completed, _hypothesis.py:108-114. *)
  Definition is_running (b : batch T) : bool := match b with Running _ => true | Completed _ => false end.

  (** Let the [i]-th batch complete if it is running.
      The jobs are [_permuted_statistic], _hypothesis.py:48-68 and 109-113. *)
  Fixpoint complete (i : nat) (l : list (batch T)) : option (list (batch T)) :=
    match i, l with
    | _, [] => None
    | O, Running ps :: l' => Some (Completed (mapM job ps) :: l')
    | O, Completed _ :: _ => None
    | S i', b :: l' => match complete i' l' with Some l2 => Some (b :: l2) | None => None end
    end.

  (** One step, with at most [workers] batches running at a time; [None] if the event is not possible.
      Taking a batch draws its permutations, _hypothesis.py:101-106. *)
  Definition step (workers : nat) (s : pstate T St) (e : event) : option (pstate T St) :=
    match e with
    | Take k =>
        if (1 <=? k) && (1 <=? todo s) && (length (filter is_running (batches s)) <? workers) then
          let (ps, g) := draw_permutations G (Nat.min k (todo s)) n (gen s) in
          Some (mkP (todo s - k) g (batches s ++ [Running ps]))
        else None
    | Complete i =>
        match complete i (batches s) with Some l => Some (mkP (todo s) (gen s) l) | None => None end
    end.

  (** A sequence of steps, _hypothesis.py:101-114. *)
  Fixpoint run (workers : nat) (es : list event) (s : pstate T St) : option (pstate T St) :=
    match es with [] => Some s | e :: es' => match step workers s e with Some s' => run workers es' s' | None => None end end.

  (** The first failed batch in the order of submission; _hypothesis.py:108-114. *)
  Fixpoint failure (l : list (batch T)) : option exn :=
    match l with [] => None | Completed (Err e) :: _ => Some e | _ :: l' => failure l' end.

  (** All the results in the order of submission; [None] while a batch is running; _hypothesis.py:108-114. *)
  Fixpoint gather (l : list (batch T)) : option (list T) :=
    match l with
    | [] => Some []
    | Completed (Ok r) :: l' => match gather l' with Some rs => Some (r ++ rs) | None => None end
    | _ :: _ => None
    end.

  (** What the calling thread gets in a state: an exception, the list of the results, or nothing yet ([Ok None]);
      _hypothesis.py:108-114. *)
  Definition collect (s : pstate T St) : res (option (list T * St)) :=
    match failure (batches s) with
    | Some e => Err e
    | None => match todo s, gather (batches s) with O, Some l => Ok (Some (l, gen s)) | _, _ => Ok None end
    end.

  (** The parallel evaluation of [B] jobs under a schedule; [Ok None] if the schedule is not possible or not complete;
      _hypothesis.py:101-114. *)
  Definition parallel (workers : nat) (schedule : list event) (B : nat) (g : St) : res (option (list T * St)) :=
    match run workers schedule (mkP B g []) with Some s => collect s | None => Ok None end.
End Parallel.

Section Tests.
  Context {T : Type} {St : Type} (G : Rng St).
  (** The number of batches running at a time (from [n_jobs] and joblib's [pre_dispatch]) and the schedule. *)
  Variables (workers : nat) (schedule : list event).

  (** _hypothesis.py:71-132 *)
  Definition permutation_test_par (N : Num T) (matrix : list (list T)) (stat : list (list T) -> res T) (num_resamples : Z)
      (random_state : random_like St) : res (option (HypothesisTest T * St)) :=
    let s := random_state_init G random_state in
    let? st := stat matrix in
    let? boot := parallel G (length matrix) (permuted_statistic matrix stat) workers schedule (Z.to_nat num_resamples) s in
    match boot with
    | None => Ok None
    | Some (boot, s) => let? p := permutation_pvalue N boot st num_resamples in Ok (Some (mkTest p st, s))
    end.

  Variable (E : Env T).
  Let N := e_num E.

  (** independence.py:36-135, as in MIndependence.v *)
  Definition distance_covariance_test_par (x y : array T) (num_resamples : Z) (exponent : T)
      (random_state : random_like St) : M (option (HypothesisTest T * St)) :=
    _ <- lift (check_same_n_elements (shape0 x) (shape0 y)) ;;
    let rs := random_state_init G random_state in
    u_x <- distance_matrix_generic E (double_centered E) x exponent ;;
    u_y <- distance_matrix_generic E (double_centered E) y exponent ;;
    let stat m := rbind (mean_product E m u_y) (fun v => Ok (nmul N (nofZ N (Z.of_nat (length u_x))) v)) in
    lift (permutation_test_par N u_x stat num_resamples (RState rs)).

  (** independence.py:138-238, as in MIndependence.v *)
  Definition partial_distance_covariance_test_par (x y z : array T) (num_resamples : Z) (exponent : T)
      (random_state : random_like St) : M (option (HypothesisTest T * St)) :=
    let rs := random_state_init G random_state in
    u_x <- u_distance_matrix E x exponent ;;
    u_y <- u_distance_matrix E y exponent ;;
    u_z <- u_distance_matrix E z exponent ;;
    proj <- lift (u_complementary_projection E u_z) ;;
    p_xz <- lift (proj u_x) ;;
    p_yz <- lift (proj u_y) ;;
    let stat m := rbind (u_product E m p_yz) (fun v => Ok (nmul N (nofZ N (Z.of_nat (length u_x))) v)) in
    lift (permutation_test_par N p_xz stat num_resamples (RState rs)).

  (** homogeneity.py:169-287, as in MHomogeneity.v *)
  Definition energy_test_par (samples : list (array T)) (num_resamples : Z) (exponent : T)
      (random_state : random_like St) (av : average_fn (T:=T)) (es : estimation_like) : M (option (HypothesisTest T * St)) :=
    let samples2 := map (fun a => transform_to_2d (adata a)) samples in
    _ <- check_valid_energy_exponent E exponent ;;
    let sizes := map (fun s => length (snd s)) samples2 in
    pooled <- lift (pool samples2) ;;
    let indexes := sample_indexes sizes in
    let a0 := match samples with a :: _ => a | [] => mkArr Numpy F64 (Vec []) end in
    d <- lift (pairwise_distances E (mkArr (ans a0) (adt a0) (Mat (fst pooled) (snd pooled))) None exponent) ;;
    lift (permutation_test_par N d (fun m => energy_statistic_multivariate E m indexes sizes av es) num_resamples random_state).
End Tests.
