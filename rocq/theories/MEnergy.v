(** Model of dcor/_energy.py. *)
From Coq Require Import ZArith List Bool Arith String.
From Verif Require Import Num Numpy MUtils MDistances MInternals MDcor.
Import ListNotations.
Local Open Scope monad_scope.

(** _energy.py:17-61 *)
Inductive estimation_stat := UStatistic | VStatistic.

(** _energy.py:63 *)
Inductive estimation_like := EstEnum (e : estimation_stat) | EstStr (s : string).

(** _energy.py:20-48 *)
Definition estimation_from_string (s : string) : res estimation_stat :=
  let u := upper s in
  if String.eqb u "U" then Ok UStatistic
  else if String.eqb u "V" then Ok VStatistic
  else if String.eqb u "U_STATISTIC" then Ok UStatistic
  else if String.eqb u "V_STATISTIC" then Ok VStatistic
  else Err KeyError.

(** _energy.py:113-114 *)
Definition to_estimation (e : estimation_like) : res estimation_stat :=
  match e with EstEnum e => Ok e | EstStr s => estimation_from_string s end.

Section Energy.
  Context {T : Type} (E : Env T).
  Let N := e_num E.

  (** The user-supplied average, applied to the flattened distances (simplification: the
      callable of the API receives the 2-d matrix, here its elements in order); [None]
      is the mean, _energy.py:116-117. *)
  Definition average_fn := option (list T -> T).
  (** [average(...)], with the default [xp.mean], _energy.py:116-128. *)
  Definition apply_average (av : average_fn) (l : list T) : T :=
    match av with Some f => f l | None => np_mean N l end.

  (** _energy.py:66-75 *)
  Definition check_valid_energy_exponent (e : T) : M unit :=
    if exponent_in_range E e then ret tt else emit WEnergyExponent.

  (** _energy.py:78-85: the entries [(i, j)] with [j >= i + k], in row-major order *)
  Definition get_flat_upper_matrix (x : list (list T)) (k : nat) : list T :=
    List.concat (map2 (fun i r => skipn (i + k) r) (seq 0 (List.length x)) x).

  (** _energy.py:88-128 *)
  Definition energy_distance_from_distance_matrices (dxx dyy dxy : list (list T))
      (av : average_fn) (es : estimation_like) : res T :=
    let? es := to_estimation es in
    let flat m := match es with
                  | UStatistic => get_flat_upper_matrix m 1
                  | VStatistic => List.concat m end in
    Ok (nsub N (nsub N (nmul N (nofZ N 2) (apply_average av (List.concat dxy)))
                       (apply_average av (flat dxx)))
               (apply_average av (flat dyy))).

  (** _energy.py:131-209 *)
  Definition energy_distance (x y : array T) (exponent : T) (av : average_fn)
      (es : estimation_like) : M T :=
    _ <- check_valid_energy_exponent exponent ;;
    dxx <- lift (pairwise_distances E x None exponent) ;;
    dyy <- lift (pairwise_distances E y None exponent) ;;
    dxy <- lift (pairwise_distances E x (Some y) exponent) ;;
    lift (energy_distance_from_distance_matrices dxx dyy dxy av es).
End Energy.
