(** Averages over all the permutations of 0, ..., n-1. *)
From Coq Require Import Reals Lra Lia List Arith Bool Permutation FinFun.
From Verif Require Import Sums Spec Tab Exchange Invariance.
Import ListNotations.
Local Open Scope R_scope.

Definition ith (q : list nat) (i : nat) : nat := nth i q 0%nat.
Definition perm_total (n : nat) (f : list nat -> R) : R := lsum (map f (all_perms n)).
Definition perm_count (n : nat) : R := INR (length (all_perms n)).

Lemma perm_count_pos n : 0 < perm_count n.
Proof.
  unfold perm_count. apply lt_0_INR. assert (H : In (seq 0 n) (all_perms n)) by (apply in_all_perms; unfold is_perm; auto).
  destruct (all_perms n); [destruct H|cbn; lia].
Qed.

Lemma lsum_cons a l : lsum (a :: l) = a + lsum l.
Proof. reflexivity. Qed.
Lemma lsum_nil : lsum [] = 0.
Proof. reflexivity. Qed.
Lemma lsum_map_plus {A} (f g : A -> R) l : lsum (map (fun a => f a + g a) l) = lsum (map f l) + lsum (map g l).
Proof. induction l as [|a l IH]; cbn [map]; [rewrite !lsum_nil; lra|]. rewrite !lsum_cons, IH. lra. Qed.
Lemma lsum_map_scal {A} c (f : A -> R) l : lsum (map (fun a => c * f a) l) = c * lsum (map f l).
Proof. induction l as [|a l IH]; cbn [map]; [rewrite !lsum_nil; lra|]. rewrite !lsum_cons, IH. lra. Qed.
Lemma lsum_map_ext {A} (f g : A -> R) l : (forall a, In a l -> f a = g a) -> lsum (map f l) = lsum (map g l).
Proof. intros H. f_equal. apply map_ext_in. auto. Qed.
Lemma lsum_map_const {A} c (l : list A) : lsum (map (fun _ => c) l) = INR (length l) * c.
Proof. induction l as [|a l IH]; [cbn; lra|]. cbn [map length]. rewrite S_INR, lsum_cons, IH. lra. Qed.
Lemma lsum_map_rsum {A} n (f : A -> nat -> R) l : lsum (map (fun a => rsum n (f a)) l) = rsum n (fun i => lsum (map (fun a => f a i) l)).
Proof. induction n as [|n IH]; cbn [rsum]; [rewrite lsum_map_const; lra|]. rewrite lsum_map_plus, IH. reflexivity. Qed.
Lemma lsum_map_rsum2 {A} n m (f : A -> nat -> nat -> R) l : lsum (map (fun a => rsum2 n m (f a)) l) = rsum2 n m (fun i j => lsum (map (fun a => f a i j) l)).
Proof. unfold rsum2. rewrite lsum_map_rsum. apply rsum_ext. intros. apply lsum_map_rsum. Qed.

(** Exchanging two positions. *)
Definition exchange (i j k : nat) : nat := if (k =? i)%nat then j else if (k =? j)%nat then i else k.
Lemma exchange_invol i j k : exchange i j (exchange i j k) = k.
Proof.
  unfold exchange. destruct (Nat.eqb_spec k i) as [->|H1].
  - destruct (Nat.eqb_spec j i) as [->|H2]; [reflexivity|]. rewrite Nat.eqb_refl. reflexivity.
  - destruct (Nat.eqb_spec k j) as [->|H2]; [rewrite Nat.eqb_refl; reflexivity|].
    destruct (Nat.eqb_spec k i); [lia|]. destruct (Nat.eqb_spec k j); [lia|]. reflexivity.
Qed.
Lemma exchange_lt n i j k : (i < n)%nat -> (j < n)%nat -> (k < n)%nat -> (exchange i j k < n)%nat.
Proof. unfold exchange. destruct (k =? i)%nat, (k =? j)%nat; lia. Qed.

Definition exchanged (n i j : nat) (q : list nat) : list nat := map (fun k => ith q (exchange i j k)) (seq 0 n).
Lemma ith_exchanged n i j q k : (k < n)%nat -> ith (exchanged n i j q) k = ith q (exchange i j k).
Proof.
  intros Hk. unfold exchanged, ith. rewrite (nth_indep _ 0%nat (nth (exchange i j 0) q 0%nat)) by (rewrite map_length, seq_length; auto).
  rewrite (map_nth (fun k => nth (exchange i j k) q 0%nat) (seq 0 n) 0%nat k). rewrite seq_nth by auto. reflexivity.
Qed.
Lemma exchanged_twice n i j q : length q = n -> (i < n)%nat -> (j < n)%nat -> exchanged n i j (exchanged n i j q) = q.
Proof.
  intros L Hi Hj. apply (nth_ext _ _ 0%nat 0%nat); [unfold exchanged; rewrite map_length, seq_length; auto|].
  intros k Hk. unfold exchanged at 1 in Hk. rewrite map_length, seq_length in Hk. change (ith (exchanged n i j (exchanged n i j q)) k = ith q k).
  rewrite ith_exchanged by auto. rewrite ith_exchanged by (apply exchange_lt; auto). rewrite exchange_invol. reflexivity.
Qed.
Lemma exchanged_perm n i j q : (i < n)%nat -> (j < n)%nat -> is_perm n q -> is_perm n (exchanged n i j q).
Proof.
  intros Hi Hj Hq. pose proof (is_perm_length n q Hq) as L.
  unfold is_perm in *. eapply Permutation_trans; [|exact Hq].
  assert (P : Permutation (map (exchange i j) (seq 0 n)) (seq 0 n)).
  { apply perm_on_Permutation. split; [intros; apply exchange_lt; auto|]. intros a b _ _ H. rewrite <- (exchange_invol i j a), H. apply exchange_invol. }
  unfold exchanged. rewrite <- (map_map (exchange i j) (fun k => ith q k)). eapply Permutation_trans; [apply Permutation_map, P|].
  assert (map (fun k => ith q k) (seq 0 n) = q) as ->; [|auto].
  apply (nth_ext _ _ 0%nat 0%nat); [rewrite map_length, seq_length; auto|]. intros k Hk. rewrite map_length, seq_length in Hk.
  rewrite (nth_indep _ 0%nat (ith q 0)) by (rewrite map_length, seq_length; auto). rewrite (map_nth (fun k => ith q k)), seq_nth by auto. reflexivity.
Qed.

Lemma all_exchanged n i j : (i < n)%nat -> (j < n)%nat -> Permutation (map (exchanged n i j) (all_perms n)) (all_perms n).
Proof.
  intros Hi Hj. apply NoDup_Permutation.
  - apply NoDup_map_in; [apply NoDup_all_perms|]. intros a b Ha Hb H. apply in_all_perms, is_perm_length in Ha, Hb.
    rewrite <- (exchanged_twice n i j a Ha Hi Hj), H. apply exchanged_twice; auto.
  - apply NoDup_all_perms.
  - intros q. split.
    + intros H. apply in_map_iff in H as (a & <- & Ha). apply in_all_perms in Ha. apply in_all_perms, exchanged_perm; auto.
    + intros H. apply in_map_iff. exists (exchanged n i j q). apply in_all_perms in H. split; [apply exchanged_twice; auto; apply is_perm_length, H|].
      apply in_all_perms, exchanged_perm; auto.
Qed.

Lemma perm_total_exchanged n i j f : (i < n)%nat -> (j < n)%nat -> perm_total n (fun q => f (exchanged n i j q)) = perm_total n f.
Proof.
  intros Hi Hj. unfold perm_total. rewrite <- (map_map (exchanged n i j) f). apply lsum_perm, Permutation_map, all_exchanged; auto.
Qed.

Section Entries.
  Variables (n : nat) (b : nat -> nat -> R).
  Let T (i j : nat) : R := perm_total n (fun q => b (ith q i) (ith q j)).

  Lemma entry_exchange i j k l : (i < n)%nat -> (j < n)%nat -> (k < n)%nat -> (l < n)%nat -> T (exchange i j k) (exchange i j l) = T k l.
  Proof.
    intros Hi Hj Hk Hl. unfold T. rewrite <- (perm_total_exchanged n i j (fun q => b (ith q k) (ith q l))) by auto.
    unfold perm_total. apply lsum_map_ext. intros q _. rewrite !ith_exchanged by auto. reflexivity.
  Qed.
  Lemma entry_diag i : (i < n)%nat -> T i i = T 0 0.
  Proof.
    intros Hi. rewrite <- (entry_exchange 0 i 0 0) by lia. unfold exchange. cbn [Nat.eqb]. reflexivity.
  Qed.
  Lemma entry_off i j : (i < n)%nat -> (j < n)%nat -> i <> j -> T i j = T 0 1.
  Proof.
    intros Hi Hj Hij. rewrite <- (entry_exchange 0 i i j) by lia.
    assert (exchange 0 i i = 0%nat) as -> by (unfold exchange; rewrite Nat.eqb_refl; destruct (Nat.eqb_spec i 0); lia).
    set (k := exchange 0 i j). assert (Hk : (k < n)%nat) by (apply exchange_lt; lia).
    assert (k <> 0%nat) by (unfold k, exchange; destruct (Nat.eqb_spec j 0), (Nat.eqb_spec j i); lia).
    rewrite <- (entry_exchange 1 k 0 k) by lia. f_equal; unfold exchange.
    - destruct k; [lia|]. reflexivity.
    - rewrite Nat.eqb_refl. destruct (Nat.eqb_spec k 1); lia.
  Qed.

  Definition trace : R := rsum n (fun i => b i i).
  Definition off_total : R := rsum2 n n (fun i j => if (i =? j)%nat then 0 else b i j).

  Lemma perm_ith q : is_perm n q -> perm_on n (ith q).
  Proof.
    intros H. pose proof (is_perm_length n q H) as L. split.
    - intros i Hi. apply is_perm_lt; auto.
    - intros i j Hi Hj He. apply (NoDup_nth q 0%nat); auto; try lia. apply (is_perm_NoDup n); auto.
  Qed.

  Lemma diag_average i : (i < n)%nat -> T i i = perm_count n * (trace / INR n).
  Proof.
    intros Hi. assert (INR n <> 0) by (apply not_0_INR; lia).
    assert (S : rsum n (fun i => T i i) = perm_count n * trace).
    { unfold T, perm_total. rewrite <- lsum_map_rsum. unfold perm_count. rewrite <- lsum_map_const. apply lsum_map_ext. intros q Hq.
      apply in_all_perms, perm_ith in Hq. exact (rsum_perm n (ith q) (fun i => b i i) Hq). }
    rewrite (rsum_ext n _ (fun _ => T i i)) in S by (intros k Hk; rewrite (entry_diag k), (entry_diag i) by auto; reflexivity).
    rewrite rsum_const in S. apply (Rmult_eq_reg_l (INR n)); auto. rewrite S. field. auto.
  Qed.

  Lemma off_average i j : (i < n)%nat -> (j < n)%nat -> i <> j -> T i j = perm_count n * (off_total / (INR n * (INR n - 1))).
  Proof.
    intros Hi Hj Hij. assert (N2 : 2 <= INR n) by (change 2 with (INR 2); apply le_INR; lia).
    assert (S : rsum2 n n (fun i j => if (i =? j)%nat then 0 else T i j) = perm_count n * off_total).
    { transitivity (perm_total n (fun q => rsum2 n n (fun i j => if (i =? j)%nat then 0 else b (ith q i) (ith q j)))).
      - unfold perm_total. rewrite lsum_map_rsum2. apply rsum2_ext. intros k l _ _. destruct (k =? l)%nat; [rewrite lsum_map_const; lra|reflexivity].
      - unfold perm_total, perm_count. rewrite <- lsum_map_const. apply lsum_map_ext. intros q Hq. apply in_all_perms, perm_ith in Hq.
        unfold off_total. rewrite <- (rsum2_relabel n (ith q) Hq (fun i j => if (i =? j)%nat then 0 else b i j)). apply rsum2_ext. intros k l Hk Hl. unfold relabel.
        destruct Hq as [_ Hinj]. destruct (Nat.eqb_spec k l) as [->|Hkl]; [rewrite Nat.eqb_refl; reflexivity|].
        destruct (Nat.eqb_spec (ith q k) (ith q l)); [exfalso; apply Hkl; auto|reflexivity]. }
    assert (S2 : rsum2 n n (fun i j => if (i =? j)%nat then 0 else T i j) = INR n * (INR n - 1) * T i j).
    { unfold rsum2. rewrite (rsum_ext n _ (fun _ => (INR n - 1) * T i j)); [rewrite rsum_const; ring|]. intros k Hk.
      rewrite (rsum_ext n _ (fun l => T i j - (if (k =? l)%nat then T i j else 0))).
      - rewrite rsum_minus, rsum_const, (rsum_ext n _ (fun l => if (l =? k)%nat then T i j else 0)) by (intros; rewrite Nat.eqb_sym; reflexivity).
        rewrite (rsum_delta n k (fun _ => T i j)) by auto. ring.
      - intros l Hl. destruct (Nat.eqb_spec k l); [lra|]. rewrite (entry_off k l), (entry_off i j) by auto. lra. }
    rewrite S2 in S. apply (Rmult_eq_reg_l (INR n * (INR n - 1))); [|nra]. rewrite S. field. lra.
  Qed.
End Entries.

Definition perm_average (n : nat) (f : list nat -> R) : R := lsum (map f (all_perms n)) / INR (length (all_perms n)).

Lemma perm_average_total n f : perm_average n f = perm_total n f / perm_count n.
Proof. reflexivity. Qed.
Lemma perm_average_ext n f g : (forall q, is_perm n q -> f q = g q) -> perm_average n f = perm_average n g.
Proof. intros H. unfold perm_average. f_equal. apply lsum_map_ext. intros q Hq. apply H, in_all_perms, Hq. Qed.
Lemma perm_average_scal n c f : perm_average n (fun q => c * f q) = c * perm_average n f.
Proof. unfold perm_average. rewrite lsum_map_scal. unfold Rdiv. ring. Qed.
Lemma perm_average_plus n f g : perm_average n (fun q => f q + g q) = perm_average n f + perm_average n g.
Proof. unfold perm_average. rewrite lsum_map_plus. unfold Rdiv. ring. Qed.
Lemma perm_average_minus n f g : perm_average n (fun q => f q - g q) = perm_average n f - perm_average n g.
Proof.
  rewrite (perm_average_ext n _ (fun q => f q + (-1) * g q)) by (intros; ring). rewrite perm_average_plus, perm_average_scal. ring.
Qed.
Lemma perm_average_rsum2 n r s (f : list nat -> nat -> nat -> R) :
  perm_average n (fun q => rsum2 r s (f q)) = rsum2 r s (fun i j => perm_average n (fun q => f q i j)).
Proof.
  unfold perm_average. rewrite lsum_map_rsum2. unfold Rdiv. rewrite <- rsum2_scal_r. reflexivity.
Qed.
Lemma perm_average_zero n : perm_average n (fun _ => 0) = 0.
Proof. unfold perm_average. rewrite lsum_map_const. unfold Rdiv. ring. Qed.

Lemma average_diag n b i : (i < n)%nat -> perm_average n (fun q => b (ith q i) (ith q i)) = trace n b / INR n.
Proof.
  intros Hi. rewrite perm_average_total, (diag_average n b i Hi). pose proof (perm_count_pos n). field. split; [apply not_0_INR; lia|lra].
Qed.
Lemma average_off n b i j : (i < n)%nat -> (j < n)%nat -> i <> j ->
  perm_average n (fun q => b (ith q i) (ith q j)) = off_total n b / (INR n * (INR n - 1)).
Proof.
  intros Hi Hj Hij. rewrite perm_average_total, (off_average n b i j Hi Hj Hij). pose proof (perm_count_pos n).
  assert (2 <= INR n) by (change 2 with (INR 2); apply le_INR; lia). field. lra.
Qed.

Lemma total_split n b : rsum2 n n b = trace n b + off_total n b.
Proof.
  unfold trace, off_total, rsum2. rewrite <- rsum_plus. apply rsum_ext. intros i Hi. cbv beta.
  rewrite (rsum_ext n (fun j => b i j) (fun j => (if (j =? i)%nat then b i j else 0) + (if (i =? j)%nat then 0 else b i j))).
  - rewrite rsum_plus, rsum_delta by auto. reflexivity.
  - intros j _. rewrite (Nat.eqb_sym i j). destruct (j =? i)%nat; lra.
Qed.

(** The average of the inner product of one matrix with a relabelled one. *)
Lemma average_product n a b : (2 <= n)%nat ->
  perm_average n (fun q => rsum2 n n (fun i j => relabel (ith q) a i j * b i j))
  = trace n a * trace n b / INR n + off_total n a * off_total n b / (INR n * (INR n - 1)).
Proof.
  intros Hn. rewrite perm_average_rsum2.
  rewrite (rsum2_ext n n _ (fun i j => (trace n a / INR n) * (if (i =? j)%nat then b i j else 0)
    + (off_total n a / (INR n * (INR n - 1))) * (if (i =? j)%nat then 0 else b i j))).
  - rewrite rsum2_plus, !rsum2_scal_l. fold (off_total n b).
    assert (rsum2 n n (fun i j => if (i =? j)%nat then b i j else 0) = trace n b) as ->; [|unfold Rdiv; ring].
    unfold trace, rsum2. apply rsum_ext. intros i Hi. rewrite (rsum_ext n _ (fun j => if (j =? i)%nat then b i j else 0)).
    + apply (rsum_delta n i (b i)); auto.
    + intros j _. rewrite Nat.eqb_sym. reflexivity.
  - intros i j Hi Hj. rewrite (perm_average_ext n _ (fun q => b i j * a (ith q i) (ith q j))) by (intros; unfold relabel; ring).
    rewrite perm_average_scal. destruct (Nat.eqb_spec i j) as [<-|Hij]; [rewrite average_diag by auto|rewrite average_off by auto]; ring.
Qed.
