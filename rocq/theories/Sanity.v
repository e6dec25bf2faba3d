(** Doctests and unit-test values of the repository replayed on the rational instance of
    the model.  These are tests of the model's fidelity, not proofs of properties. *)
From Coq Require Import QArith ZArith List Bool Arith String.
From Verif Require Import Num Numpy MUtils MDistances MInternals MMergesort MAvl MDcor
  MPartial MEnergy MHypothesis MHomogeneity MIndependence MRowwise.
Import ListNotations.
Local Open Scope nat_scope.

(** A stable insertion argsort. *)
Fixpoint insert_idx {T} (N : Num T) (l : list T) (i : nat) (s : list nat) : list nat :=
  match s with
  | [] => [i]
  | j :: s' => if nltb N (nth i l (nzero N)) (nth j l (nzero N))
               then i :: s else j :: insert_idx N l i s'
  end.
Definition insertion_argsort {T} (N : Num T) (l : list T) : list nat :=
  fold_left (fun s i => insert_idx N l i s) (seq 0 (List.length l)) [].

Definition QEnv (isnp : bool) : Env Q := {|
  e_num := QNum; e_argsort := insertion_argsort QNum;
  e_empty := fun n => repeat (77#1)%Q n;
  e_eigh := fun m => (map (fun r => nth 0 r 0%Q) m, [[1%Q]]);
  e_tcdf := fun _ _ => 0%Q; e_nsp_is_np := isnp |}.

Definition qv (l : list Z) : array Q := mkArr Numpy F64 (Vec (map inject_Z l)).
Definition qm (c : nat) (l : list (list Z)) : array Q :=
  mkArr Numpy F64 (Mat c (map (map inject_Z) l)).
Definition okq (r : res Q) (v : Q) : bool :=
  match r with Ok a => Qeq_bool a v | Err _ => false end.
Definition E0 := QEnv false.
Definition E1 := QEnv true.

Definition arr1 := qv [1; 2; 3; 4; 5; 6]%Z.
Definition arr2 := qv [1; 7; 5; 5; 6; 2]%Z.
Definition me (m : dcov_method) := MethodEnum m.

(** dcor/tests/test_dcor.py: 0.6851851, -0.8888889, 0.3066099, ... on every method *)
Definition all_methods_equal (v u : Q) (x y : array Q) : bool :=
  forallb (fun mc => let '(m, c) := mc in
     okq (outcome (distance_covariance_sqr E0 x y 1%Q (me m) c)) v
     && okq (outcome (distance_covariance_sqr E1 x y 1%Q (me m) c)) v
     && okq (outcome (u_distance_covariance_sqr E0 x y 1%Q (me m) c)) u)
   [(MAuto, CAuto); (MNaive, CAuto); (MNaive, CNoCompile); (MAvl, CAuto);
    (MAvl, CNoCompile); (MAvl, CCompileCpu); (MMergesort, CAuto);
    (MMergesort, CNoCompile); (MMergesort, CCompileCpu)].

Example sanity_arrays : all_methods_equal (37#54) (-8#9) arr1 arr2 = true.
Proof. vm_compute. reflexivity. Qed.

Example sanity_ties :
  all_methods_equal (176#2401) (-12#35)
    (qv [3; 1; 3; 3; 2; 1; 0]%Z) (qv [2; 2; 5; 1; 2; 5; 2]%Z) = true.
Proof. vm_compute. reflexivity. Qed.

(** _dcor.py:474-485 and 538-545 *)
Definition doc_a := qm 4 [[1;2;3;4];[5;6;7;8];[9;10;11;12];[13;14;15;16]]%Z.
Definition doc_b := qm 1 [[1];[0];[0];[1]]%Z.
Example sanity_doc_dcov :
  (okq (outcome (distance_covariance_sqr E0 doc_a doc_a 1%Q (me MAuto) CAuto)) 52%Q
   && okq (outcome (distance_covariance_sqr E0 doc_a doc_b 1%Q (me MAuto) CAuto)) 1%Q
   && okq (outcome (distance_covariance_sqr E0 doc_b doc_b 1%Q (me MAuto) CAuto)) (1#4)%Q
   && okq (outcome (u_distance_covariance_sqr E0 doc_a doc_a 1%Q (me MAuto) CAuto)) (128#3)
   && okq (outcome (u_distance_covariance_sqr E0 doc_a doc_b 1%Q (me MAuto) CAuto)) (-8#3)
   && okq (outcome (u_distance_covariance_sqr E0 doc_b doc_b 1%Q (me MAuto) CAuto)) (2#3)
  )%bool = true.
Proof. vm_compute. reflexivity. Qed.

(** dcor/tests: _dyad_update on y = [1,2,3], c = [4,5,6] gives [0,4,9] *)
Example sanity_dyad :
  (dyad_update QNum IndexError [1;2;3]%Z (map inject_Z [4;5;6]%Z) 2
     (repeat 9%Q 8) (mk_pos_sums 2),
   dyad_update_compiled QNum IndexError [1;2;3]%Z (map inject_Z [4;5;6]%Z)
     (repeat 0%Q 3) 2 (repeat 9%Q 8) (mk_pos_sums 2))
  = (Ok (map inject_Z [0;4;9]%Z, map inject_Z [4;5;6;0;9;6;0;0]%Z),
     Ok (map inject_Z [0;4;9]%Z, map inject_Z [4;5;0;0;9;0;0;0]%Z)).
Proof. vm_compute. reflexivity. Qed.

(** _dcor_internals.py:222-251 and 290-316 *)
Definition dc_doc := [[1;2;3];[2;4;5];[3;5;6]]%Z.
Definition qmat (l : list (list Z)) : list (list Q) := map (map inject_Z) l.
Definition list_eqb (a b : list (list Q)) : bool :=
  forallb (fun p => Qeq_bool (fst p) (snd p)) (combine (List.concat a) (List.concat b))
  && same_shape a b.
Definition okm (r : res (list (list Q))) (m : list (list Q)) : bool :=
  match r with Ok a => list_eqb a m | Err _ => false end.
Example sanity_centered :
  (okm (deref (u_centered E0 [(true, qmat dc_doc)] 0 None))
       [[0; 1#2; -3#2];[1#2; 0; -9#2];[-3#2; -9#2; 0]]%Q
   && okm (deref (double_centered E0 [(true, qmat dc_doc)] 0 None))
       [[4#9; -2#9; -2#9];[-2#9; 1#9; 1#9];[-2#9; 1#9; 1#9]]%Q)%bool = true.
Proof. vm_compute. reflexivity. Qed.

(** _dcor_internals.py:404-443: u_product *)
Example sanity_u_product :
  okq (u_product E0 (map (map inject_Z) [[0;3;11;6];[3;0;8;3];[11;8;0;5];[6;3;5;0]]%Z)
                    (map (map inject_Z) [[0;3;11;6];[3;0;8;3];[11;8;0;5];[6;3;5;0]]%Z)) 132%Q
  = true.
Proof. vm_compute. reflexivity. Qed.

(** distances.py:144-148, on both code paths *)
Definition doc_d := [[0;8;16;24];[8;0;8;16];[16;8;0;8];[24;16;8;0]]%Z.
Example sanity_pairwise :
  (pairwise_distances E0 doc_a None 1%Q, pairwise_distances E1 doc_a None 1%Q)
  = (Ok (map (map inject_Z) doc_d), Ok (map (map inject_Z) doc_d)).
Proof. vm_compute. reflexivity. Qed.
