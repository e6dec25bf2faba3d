(** Model of dcor/independence.py. *)
From Coq Require Import ZArith List Bool Arith.
From Verif Require Import Num Numpy MUtils MDistances MInternals MDcor MHypothesis.
Import ListNotations.
Local Open Scope monad_scope.

Section Independence.
  Context {T : Type} (E : Env T) {S : Type} (G : Rng S).
  Let N := e_num E.

  (** independence.py:36-135 *)
  Definition distance_covariance_test (x y : array T) (num_resamples : Z) (exponent : T)
      (random_state : random_like S) : M (HypothesisTest T * S) :=
    _ <- lift (check_same_n_elements (shape0 x) (shape0 y)) ;;
    let rs := random_state_init G random_state in
    u_x <- distance_matrix_generic E (double_centered E) x exponent ;;
    u_y <- distance_matrix_generic E (double_centered E) y exponent ;;
    let stat m := rbind (mean_product E m u_y)
                    (fun v => Ok (nmul N (nofZ N (Z.of_nat (length u_x))) v)) in
    lift (permutation_test_with_sym_matrix N G u_x stat num_resamples (RState rs)).

  (** independence.py:138-238 *)
  Definition partial_distance_covariance_test (x y z : array T) (num_resamples : Z)
      (exponent : T) (random_state : random_like S) : M (HypothesisTest T * S) :=
    let rs := random_state_init G random_state in
    u_x <- u_distance_matrix E x exponent ;;
    u_y <- u_distance_matrix E y exponent ;;
    u_z <- u_distance_matrix E z exponent ;;
    proj <- lift (u_complementary_projection E u_z) ;;
    p_xz <- lift (proj u_x) ;;
    p_yz <- lift (proj u_y) ;;
    let stat m := rbind (u_product E m p_yz)
                    (fun v => Ok (nmul N (nofZ N (Z.of_nat (length u_x))) v)) in
    lift (permutation_test_with_sym_matrix N G p_xz stat num_resamples (RState rs)).

  (** independence.py:287: [v = n * (n - 3) / 2] *)
  Definition t_v (n : nat) : T :=
    ndiv N (nofZ N (Z.of_nat n * (Z.of_nat n - 3))) (nofZ N 2).

  (** independence.py:241-289 *)
  Definition distance_correlation_t_statistic (x y : array T) : M T :=
    r <- u_distance_correlation_sqr E x y (nunit N) (MethodEnum MAuto) CAuto ;;
    let v := t_v (shape0 x) in
    ret (ndiv N (nmul N (nsqrt N (nsub N v (nunit N))) r)
                (sqrt_clamp N (nsub N (nunit N) (nmul N r r)))).

  (** independence.py:292-349 *)
  Definition distance_correlation_t_test (x y : array T) : M (HypothesisTest T) :=
    t <- distance_correlation_t_statistic x y ;;
    let df := nsub N (t_v (shape0 x)) (nunit N) in
    ret (mkTest (nsub N (nunit N) (e_tcdf E t df)) t).
End Independence.
