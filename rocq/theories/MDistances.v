(** Model of dcor/distances.py. *)
From Coq Require Import ZArith List Bool Arith.
From Verif Require Import Num Numpy MUtils.
Import ListNotations.

Section Distances.
  Context {T : Type} (E : Env T).
  Let N := e_num E.

  (** [sum((u - v) ** 2, axis=-1)] of two rows, distances.py:33.  [d ** 2] is [d * d]. *)
  Definition sq_norm (u v : list T) : T :=
    np_sum N (map2 (fun a b => let d := nsub N a b in nmul N d d) u v).

  (** [exponent / 2], distances.py:36, 55 and 74. *)
  Definition half (e : T) : T := ndiv N e (nofZ N 2).

  (** distances.py:35-38: the power, with the fall-back for element types that do not
      support a float exponent. *)
  Definition dist_power (d : dtype) (s exponent : T) : T :=
    match d with
    | Obj false => sqrt_clamp N (npow N s exponent)
    | _ => npow N s (half exponent)
    end.

  (** numpy broadcasting of the last axis: equal lengths, or one of them is 1. *)
  Definition bcast_row (n : nat) (u : list T) : list T :=
    match u with [a] => repeat a n | _ => u end.

  (** distances.py:23-38.  [x] is expanded at axis 0 and [y] at axis 1, so the result is
      indexed by [y] first: shape (len(y), len(x)).  [cx] and [cy] are the numbers of
      columns; the last axes are broadcast (an empty matrix keeps its shape). *)
  Definition cdist_naive (d : dtype) (cx : nat) (x : list (list T)) (cy : nat)
      (y : list (list T)) (exponent : T) : res (list (list T)) :=
    if (cx =? cy) || (cx =? 1) || (cy =? 1) then
      let c := if cx =? 1 then cy else cx in
      Ok (map (fun yi => map (fun xj =>
            dist_power d (sq_norm (bcast_row c xj) (bcast_row c yi)) exponent) x) y)
    else Err ValueError.

  (** distances.py:60-76 (and 41-57 with y = x): scipy's cdist indexes by [x] first.
      Different numbers of columns raise ValueError inside scipy. *)
  Definition cdist_scipy (cx : nat) (x : list (list T)) (cy : nat)
      (y : list (list T)) (exponent : T) : res (list (list T)) :=
    if cx =? cy then
      Ok (map (fun xi => map (fun yj =>
            if neqb N exponent (nunit N)
            then nsqrt N (sq_norm xi yj)
            else npow N (sq_norm xi yj) (half exponent)) y) x)
    else Err ValueError.

  (** distances.py:79-91 *)
  Definition pdist (s : nspace) (d : dtype) (cx : nat) (x : list (list T)) (exponent : T)
      : res (list (list T)) :=
    if can_be_numpy_double E s d
    then cdist_scipy cx x cx x exponent
    else cdist_naive d cx x cx x exponent.

  (** dtype of [x - y]: only whether the element type supports a float exponent matters; distances.py:33. *)
  Definition promote (dx dy : dtype) : dtype :=
    match dx, dy with Obj b, Obj b' => Obj (b && b') | Obj b, _ | _, Obj b => Obj b | _, _ => dx end.

  (** distances.py:94-106 *)
  Definition cdist (sx : nspace) (dx : dtype) (cx : nat) (x : list (list T))
      (sy : nspace) (dy : dtype) (cy : nat) (y : list (list T)) (exponent : T)
      : res (list (list T)) :=
    if can_be_numpy_double E sx dx && can_be_numpy_double E sy dy
    then cdist_scipy cx x cy y exponent
    else cdist_naive (promote dx dy) cx x cy y exponent.

  (** distances.py:109-161.  [y = None] models [y is None or y is x].  Simplification: arrays
      of two different libraries are both converted to numpy by the code; here each keeps its library, which only decides
      between scipy and the formula. *)
  Definition pairwise_distances (x : array T) (y : option (array T)) (exponent : T)
      : res (list (list T)) :=
    match y with
    | None =>
        let (cx, rx) := transform_to_2d (adata x) in
        pdist (ans x) (adt x) cx rx exponent
    | Some y =>
        let (cx, rx) := transform_to_2d (adata x) in
        let (cy, ry) := transform_to_2d (adata y) in
        cdist (ans x) (adt x) cx rx (ans y) (adt y) cy ry exponent
    end.
End Distances.
