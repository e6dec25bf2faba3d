(** Model of dcor/_partial_dcor.py. *)
From Coq Require Import ZArith List Bool Arith.
From Verif Require Import Num Numpy MUtils MInternals.
Import ListNotations.
Local Open Scope monad_scope.

Section Partial.
  Context {T : Type} (E : Env T).
  Let N := e_num E.

  (** _partial_dcor.py:18-87 (exponent: the default 1) *)
  Definition partial_distance_covariance (x y z : array T) : M T :=
    a <- u_distance_matrix E x (nunit N) ;;
    b <- u_distance_matrix E y (nunit N) ;;
    c <- u_distance_matrix E z (nunit N) ;;
    proj <- lift (u_complementary_projection E c) ;;
    pa <- lift (proj a) ;;
    pb <- lift (proj b) ;;
    lift (u_product E pa pb).

  (** [np.clip(v, -1, 1)] *)
  Definition clip1 (v : T) : T :=
    let m1 := nofZ N (-1) in
    let one := nofZ N 1 in
    if nltb N v m1 then m1 else if nltb N one v then one else v.

  (** _partial_dcor.py:160-162 *)
  Definition clipped_correlation (ab aa bb : T) : T :=
    let denom_sqr := nmul N aa bb in
    clip1 (if neqb N denom_sqr (nzero N) then denom_sqr
           else ndiv N ab (sqrt_clamp N denom_sqr)).

  (** _partial_dcor.py:90-174 *)
  Definition partial_distance_correlation (x y z : array T) : M T :=
    a <- u_distance_matrix E x (nunit N) ;;
    b <- u_distance_matrix E y (nunit N) ;;
    c <- u_distance_matrix E z (nunit N) ;;
    aa <- lift (u_product E a a) ;;
    bb <- lift (u_product E b b) ;;
    cc <- lift (u_product E c c) ;;
    ab <- lift (u_product E a b) ;;
    ac <- lift (u_product E a c) ;;
    bc <- lift (u_product E b c) ;;
    let r_xy := clipped_correlation ab aa bb in
    let r_xz := clipped_correlation ac aa cc in
    let r_yz := clipped_correlation bc bb cc in
    let s v := sqrt_clamp N (nsub N (nunit N) (nmul N v v)) in
    let denom := nmul N (s r_xz) (s r_yz) in
    ret (if neqb N denom (nzero N) then denom
         else ndiv N (nsub N r_xy (nmul N r_xz r_yz)) denom).
End Partial.
