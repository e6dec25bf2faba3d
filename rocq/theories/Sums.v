(** Finite sums of reals [rsum n f = f 0 + ... + f (n-1)] and their algebra. *)
From Coq Require Import Reals Lra Lia List Arith Permutation Bool.
Import ListNotations.
Local Open Scope R_scope.

Fixpoint rsum (n : nat) (f : nat -> R) : R :=
  match n with O => 0 | S m => rsum m f + f m end.

Definition rsum2 (n m : nat) (f : nat -> nat -> R) : R :=
  rsum n (fun i => rsum m (fun j => f i j)).

Lemma rsum_ext n f g : (forall i, (i < n)%nat -> f i = g i) -> rsum n f = rsum n g.
Proof.
  induction n as [|n IH]; intros H; simpl; [reflexivity|].
  rewrite IH, H; auto; intros; apply H; lia.
Qed.

Lemma rsum2_ext n m f g :
  (forall i j, (i < n)%nat -> (j < m)%nat -> f i j = g i j) -> rsum2 n m f = rsum2 n m g.
Proof.
  intros H. unfold rsum2. apply rsum_ext; intros. apply rsum_ext; intros. auto.
Qed.

Lemma rsum_plus n f g : rsum n (fun i => f i + g i) = rsum n f + rsum n g.
Proof. induction n as [|n IH]; simpl; [lra|rewrite IH; lra]. Qed.

Lemma rsum_minus n f g : rsum n (fun i => f i - g i) = rsum n f - rsum n g.
Proof. induction n as [|n IH]; simpl; [lra|rewrite IH; lra]. Qed.

Lemma rsum_opp n f : rsum n (fun i => - f i) = - rsum n f.
Proof. induction n as [|n IH]; simpl; [lra|rewrite IH; lra]. Qed.

Lemma rsum_scal_l n c f : rsum n (fun i => c * f i) = c * rsum n f.
Proof. induction n as [|n IH]; simpl; [lra|rewrite IH; lra]. Qed.

Lemma rsum_scal_r n c f : rsum n (fun i => f i * c) = rsum n f * c.
Proof. induction n as [|n IH]; simpl; [lra|rewrite IH; lra]. Qed.

Lemma rsum_div n c f : rsum n (fun i => f i / c) = rsum n f / c.
Proof. unfold Rdiv. apply rsum_scal_r. Qed.

Lemma rsum_const n c : rsum n (fun _ => c) = INR n * c.
Proof. induction n as [|n IH]; [simpl; lra|]. rewrite S_INR. simpl rsum. rewrite IH. lra. Qed.

Lemma rsum_zero n f : (forall i, (i < n)%nat -> f i = 0) -> rsum n f = 0.
Proof.
  intros H. rewrite (rsum_ext n f (fun _ => 0)) by auto. rewrite rsum_const. lra.
Qed.

Lemma rsum_swap n m f :
  rsum n (fun i => rsum m (fun j => f i j)) = rsum m (fun j => rsum n (fun i => f i j)).
Proof.
  induction n as [|n IH]; simpl.
  - symmetry. apply rsum_zero. reflexivity.
  - rewrite IH, <- rsum_plus. reflexivity.
Qed.

Lemma rsum2_swap n m f : rsum2 n m f = rsum2 m n (fun j i => f i j).
Proof. apply rsum_swap. Qed.

Lemma rsum2_plus n m f g :
  rsum2 n m (fun i j => f i j + g i j) = rsum2 n m f + rsum2 n m g.
Proof.
  unfold rsum2. rewrite <- rsum_plus. apply rsum_ext; intros. apply rsum_plus.
Qed.

Lemma rsum2_minus n m f g :
  rsum2 n m (fun i j => f i j - g i j) = rsum2 n m f - rsum2 n m g.
Proof.
  unfold rsum2. rewrite <- rsum_minus. apply rsum_ext; intros. apply rsum_minus.
Qed.

Lemma rsum2_scal_l n m c f : rsum2 n m (fun i j => c * f i j) = c * rsum2 n m f.
Proof.
  unfold rsum2. rewrite <- rsum_scal_l. apply rsum_ext; intros. apply rsum_scal_l.
Qed.

Lemma rsum2_scal_r n m c f : rsum2 n m (fun i j => f i j * c) = rsum2 n m f * c.
Proof.
  unfold rsum2. rewrite <- rsum_scal_r. apply rsum_ext; intros. apply rsum_scal_r.
Qed.

Lemma rsum2_opp n m f : rsum2 n m (fun i j => - f i j) = - rsum2 n m f.
Proof.
  unfold rsum2. rewrite <- rsum_opp. apply rsum_ext; intros. apply rsum_opp.
Qed.

Lemma rsum2_const n m c : rsum2 n m (fun _ _ => c) = INR n * INR m * c.
Proof. unfold rsum2. rewrite (rsum_ext n _ (fun _ => INR m * c)).
  - rewrite rsum_const. lra.
  - intros. apply rsum_const.
Qed.

Lemma rsum_nonneg n f : (forall i, (i < n)%nat -> 0 <= f i) -> 0 <= rsum n f.
Proof.
  induction n as [|n IH]; intros H; simpl; [lra|].
  assert (0 <= rsum n f) by (apply IH; intros; apply H; lia).
  assert (0 <= f n) by (apply H; lia). lra.
Qed.

Lemma rsum2_nonneg n m f :
  (forall i j, (i < n)%nat -> (j < m)%nat -> 0 <= f i j) -> 0 <= rsum2 n m f.
Proof. intros H. apply rsum_nonneg; intros. apply rsum_nonneg; auto. Qed.

Lemma rsum_le n f g : (forall i, (i < n)%nat -> f i <= g i) -> rsum n f <= rsum n g.
Proof.
  intros H. assert (0 <= rsum n (fun i => g i - f i)).
  { apply rsum_nonneg. intros i Hi. specialize (H i Hi). lra. }
  rewrite rsum_minus in H0. lra.
Qed.

Lemma rsum_zero_all n f :
  (forall i, (i < n)%nat -> 0 <= f i) -> rsum n f = 0 ->
  forall i, (i < n)%nat -> f i = 0.
Proof.
  induction n as [|n IH]; intros Hp H i Hi; [lia|]. simpl in H.
  assert (0 <= rsum n f) by (apply rsum_nonneg; intros; apply Hp; lia).
  assert (0 <= f n) by (apply Hp; lia).
  assert (i = n \/ i < n)%nat as [->|Hlt] by lia; [lra|].
  apply IH; auto. lra.
Qed.

Lemma rsum2_zero_all n m f :
  (forall i j, (i < n)%nat -> (j < m)%nat -> 0 <= f i j) -> rsum2 n m f = 0 ->
  forall i j, (i < n)%nat -> (j < m)%nat -> f i j = 0.
Proof.
  intros Hp H i j Hi Hj.
  assert (rsum m (f i) = 0).
  { apply (rsum_zero_all n (fun i => rsum m (f i))); auto.
    intros k Hk. apply rsum_nonneg; auto. }
  apply (rsum_zero_all m (f i)); auto.
Qed.

Lemma rsum_app n m f : rsum (n + m) f = rsum n f + rsum m (fun i => f (n + i)%nat).
Proof.
  induction m as [|m IH]; [rewrite Nat.add_0_r; simpl; lra|].
  rewrite Nat.add_succ_r. simpl. rewrite IH. lra.
Qed.

Lemma rsum_S_l n f : rsum (S n) f = f 0%nat + rsum n (fun i => f (S i)).
Proof.
  change (S n) with (1 + n)%nat. rewrite rsum_app. simpl. lra.
Qed.

Lemma rsum_delta n k f : (k < n)%nat ->
  rsum n (fun i => if Nat.eqb i k then f i else 0) = f k.
Proof.
  induction n as [|n IH]; intros Hk; [lia|]. simpl.
  destruct (Nat.eqb_spec n k) as [->|Hne].
  - rewrite rsum_zero; [lra|]. intros i Hi. destruct (Nat.eqb_spec i k); [lia|reflexivity].
  - rewrite IH by lia. lra.
Qed.

Lemma rsum_mult n m f g :
  rsum n f * rsum m g = rsum2 n m (fun i j => f i * g j).
Proof.
  unfold rsum2. rewrite <- rsum_scal_r. apply rsum_ext; intros. rewrite rsum_scal_l. reflexivity.
Qed.

(** ** Sums over lists *)

Definition lsum (l : list R) : R := fold_right Rplus 0 l.

Lemma lsum_app l k : lsum (l ++ k) = lsum l + lsum k.
Proof. induction l as [|a l IH]; simpl; [lra|rewrite IH; lra]. Qed.

Lemma lsum_perm l k : Permutation l k -> lsum l = lsum k.
Proof. induction 1; simpl; lra. Qed.

Lemma lsum_map_seq s n f : lsum (map f (seq s n)) = rsum n (fun i => f (s + i)%nat).
Proof.
  revert s. induction n as [|n IH]; intros s; [reflexivity|].
  rewrite rsum_S_l. simpl. rewrite IH, Nat.add_0_r. f_equal.
  apply rsum_ext; intros. f_equal. lia.
Qed.

Lemma rsum_lsum n f : rsum n f = lsum (map f (seq 0 n)).
Proof. rewrite lsum_map_seq. reflexivity. Qed.

Lemma lsum_nth l : lsum l = rsum (length l) (fun i => nth i l 0).
Proof.
  induction l as [|a l IH]; [reflexivity|].
  change (length (a :: l)) with (S (length l)). rewrite rsum_S_l.
  simpl nth. rewrite <- IH. reflexivity.
Qed.

Lemma lsum_map_nth {A} (d : A) (l : list A) f :
  lsum (map f l) = rsum (length l) (fun i => f (nth i l d)).
Proof.
  induction l as [|a l IH]; [reflexivity|].
  change (length (a :: l)) with (S (length l)). rewrite rsum_S_l.
  simpl. rewrite <- IH. reflexivity.
Qed.

(** ** Reindexing by a permutation of [0, n) *)

Definition perm_on (n : nat) (p : nat -> nat) : Prop :=
  (forall i, (i < n)%nat -> (p i < n)%nat) /\
  (forall i j, (i < n)%nat -> (j < n)%nat -> p i = p j -> i = j).

Lemma perm_on_Permutation n p :
  perm_on n p -> Permutation (map p (seq 0 n)) (seq 0 n).
Proof.
  intros [Hr Hi]. apply NoDup_Permutation_bis.
  - rewrite <- (map_id (seq 0 n)) in *.
    assert (forall l, NoDup l -> (forall i, In i l -> (i < n)%nat) -> NoDup (map p l)) as H.
    { induction l as [|a l IH]; intros Hnd Hin; simpl; [constructor|].
      inversion Hnd; subst. constructor.
      - rewrite in_map_iff. intros (b & Hb & Hbl).
        assert (b = a) by (apply Hi; [apply Hin; right; auto|apply Hin; left; auto|auto]).
        subst. contradiction.
      - apply IH; auto. intros; apply Hin; right; auto. }
    rewrite map_id. apply H; [apply seq_NoDup|]. intros i Hin. apply in_seq in Hin. lia.
  - rewrite map_length. lia.
  - intros i. rewrite in_map_iff. intros (j & <- & Hj). apply in_seq in Hj.
    apply in_seq. specialize (Hr j). lia.
Qed.

Lemma rsum_perm n p f : perm_on n p -> rsum n (fun i => f (p i)) = rsum n f.
Proof.
  intros Hp. rewrite !rsum_lsum. rewrite <- (map_map p f).
  apply lsum_perm, Permutation_map, perm_on_Permutation, Hp.
Qed.

Lemma rsum2_perm n p f :
  perm_on n p -> rsum2 n n (fun i j => f (p i) (p j)) = rsum2 n n f.
Proof.
  intros Hp. unfold rsum2.
  rewrite (rsum_ext n _ (fun i => rsum n (f (p i)))).
  - apply (rsum_perm n p (fun i => rsum n (f i))), Hp.
  - intros. apply (rsum_perm n p (f (p i))), Hp.
Qed.

(** surjectivity *)
Lemma perm_on_surj n p j : perm_on n p -> (j < n)%nat -> exists i, (i < n)%nat /\ p i = j.
Proof.
  intros Hp Hj. pose proof (perm_on_Permutation n p Hp) as HP.
  assert (In j (map p (seq 0 n))) as Hin.
  { eapply Permutation_in; [symmetry; eauto|]. apply in_seq; lia. }
  apply in_map_iff in Hin as (i & Hi & Hin). apply in_seq in Hin. exists i; split; [lia|auto].
Qed.

(** ** Cauchy-Schwarz *)

Lemma discriminant_nonneg A B C :
  (forall t, 0 <= A + 2 * t * B + t * t * C) -> B * B <= A * C.
Proof.
  intros H. destruct (Req_dec C 0) as [->|HC].
  - assert (0 <= A) by (specialize (H 0); lra).
    destruct (Req_dec B 0) as [->|HB]; [lra|].
    specialize (H (- (A + 1) / (2 * B))).
    replace (A + 2 * (- (A + 1) / (2 * B)) * B + _) with (-1) in H by (field; auto). lra.
  - assert (0 < C).
    { destruct (Rlt_dec 0 C) as [|Hn]; [auto|]. assert (C < 0) by lra.
      exfalso. set (M := Rmax 1 ((Rabs A + 1 + 2 * Rabs B) / (- C))).
      assert (1 <= M) by apply Rmax_l.
      assert ((Rabs A + 1 + 2 * Rabs B) / (- C) <= M) by apply Rmax_r.
      specialize (H M).
      assert (Rabs A + 1 + 2 * Rabs B <= M * (- C)).
      { apply Rmult_le_compat_r with (r := - C) in H2; [|lra].
        unfold Rdiv in H2. rewrite Rmult_assoc, Rinv_l in H2 by lra. lra. }
      pose proof (Rle_abs A). pose proof (Rle_abs B).
      assert (0 <= Rabs A) by apply Rabs_pos. assert (0 <= Rabs B) by apply Rabs_pos.
      assert (M * (Rabs A + 1 + 2 * Rabs B) <= M * (M * - C)) by (apply Rmult_le_compat_l; lra).
      assert (M * Rabs A >= Rabs A) by nra.
      assert (M * B <= M * Rabs B) by nra.
      nra. }
    specialize (H (- B / C)).
    replace (A + 2 * (- B / C) * B + - B / C * (- B / C) * C) with (A - B * B / C) in H
      by (field; auto).
    assert (B * B / C <= A) by lra.
    apply Rmult_le_compat_r with (r := C) in H1; [|lra].
    unfold Rdiv in H1. rewrite Rmult_assoc, Rinv_l in H1 by lra. lra.
Qed.

Lemma rsum2_cauchy_schwarz n m f g :
  rsum2 n m (fun i j => f i j * g i j) * rsum2 n m (fun i j => f i j * g i j)
  <= rsum2 n m (fun i j => f i j * f i j) * rsum2 n m (fun i j => g i j * g i j).
Proof.
  apply discriminant_nonneg. intros t.
  replace (_ + _ + _) with
    (rsum2 n m (fun i j => (f i j + t * g i j) * (f i j + t * g i j))).
  - apply rsum2_nonneg. intros. apply Rle_0_sqr.
  - rewrite <- !rsum2_scal_l.  rewrite <- !rsum2_plus. apply rsum2_ext; intros. ring.
Qed.

Lemma rsum_cauchy_schwarz n f g :
  rsum n (fun i => f i * g i) * rsum n (fun i => f i * g i)
  <= rsum n (fun i => f i * f i) * rsum n (fun i => g i * g i).
Proof.
  apply discriminant_nonneg. intros t.
  replace (_ + _ + _) with
    (rsum n (fun i => (f i + t * g i) * (f i + t * g i))).
  - apply rsum_nonneg. intros. apply Rle_0_sqr.
  - rewrite <- !rsum_scal_l. rewrite <- !rsum_plus. apply rsum_ext; intros. ring.
Qed.
