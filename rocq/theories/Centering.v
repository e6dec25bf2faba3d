(** Algebra of double centring and U-centring. *)
From Coq Require Import Reals Lra Lia List Arith Bool.
From Verif Require Import Sums Spec.
Local Open Scope R_scope.

(** Eta-reduce the goal ([ring] and [field] compare sums syntactically). *)
Ltac eta :=
  repeat match goal with
         | |- context [fun x : nat => ?f x] => progress change (fun x : nat => f x) with f
         end.

Lemma INR_pos n : (1 <= n)%nat -> 0 < INR n.
Proof. intros. apply lt_0_INR. lia. Qed.

Lemma rsum_offdiag n i f : (i < n)%nat ->
  rsum n (fun j => if Nat.eqb i j then 0 else f j) = rsum n f - f i.
Proof.
  intros Hi.
  rewrite (rsum_ext n _ (fun j => f j - (if Nat.eqb j i then f j else 0))).
  - rewrite rsum_minus, rsum_delta by auto. reflexivity.
  - intros j Hj. rewrite (Nat.eqb_sym i j). destruct (Nat.eqb j i); lra.
Qed.

(** ** Double centring *)

Lemma dcenter_row_sum n a i : (1 <= n)%nat -> (i < n)%nat ->
  rsum n (fun j => dcenter n a i j) = 0.
Proof.
  intros Hn Hi. pose proof (INR_pos n Hn).
  unfold dcenter, mean.
  rewrite rsum_plus, !rsum_minus, !rsum_const.
  rewrite !rsum_div. rewrite (rsum_swap n n (fun j k => a k j)).
  eta. field. lra.
Qed.

Lemma dcenter_sym n a i j : symmetric n a -> (i < n)%nat -> (j < n)%nat ->
  dcenter n a i j = dcenter n a j i.
Proof.
  intros Hs Hi Hj. unfold dcenter, mean.
  rewrite (Hs i j), (rsum_ext n (fun l => a i l) (fun k => a k i)),
    (rsum_ext n (fun k => a k j) (fun l => a j l)) by (auto; intros; apply Hs; auto). lra.
Qed.

Lemma dcenter_col_sum n a j : (1 <= n)%nat -> (j < n)%nat ->
  rsum n (fun i => dcenter n a i j) = 0.
Proof.
  intros Hn Hi. pose proof (INR_pos n Hn).
  unfold dcenter, mean.
  rewrite rsum_plus, !rsum_minus, !rsum_const.
  rewrite !rsum_div. field. lra.
Qed.

(** A matrix whose rows and columns sum to 0 does not see the centring of the other one. *)
Lemma dcenter_product_l n a B : (1 <= n)%nat ->
  (forall i, (i < n)%nat -> rsum n (fun j => B i j) = 0) ->
  (forall j, (j < n)%nat -> rsum n (fun i => B i j) = 0) ->
  rsum2 n n (fun i j => dcenter n a i j * B i j) = rsum2 n n (fun i j => a i j * B i j).
Proof.
  intros Hn Hr Hc.
  set (r := fun i => mean n (fun l => a i l)).
  set (c := fun j => mean n (fun k => a k j)).
  set (g := mean n (fun k => mean n (fun l => a k l))).
  rewrite (rsum2_ext n n _ (fun i j => a i j * B i j - r i * B i j - c j * B i j + g * B i j))
    by (intros; unfold dcenter; fold (r i) (c j) g; ring).
  rewrite rsum2_plus, !rsum2_minus, rsum2_scal_l.
  assert (rsum2 n n (fun i j => r i * B i j) = 0) as ->.
  { unfold rsum2. apply rsum_zero; intros i Hi. rewrite rsum_scal_l, Hr by auto. ring. }
  assert (rsum2 n n (fun i j => c j * B i j) = 0) as ->.
  { rewrite rsum2_swap. unfold rsum2. apply rsum_zero; intros i Hi.
    rewrite rsum_scal_l, Hc by auto. ring. }
  assert (rsum2 n n B = 0) as ->.
  { unfold rsum2. apply rsum_zero; intros i Hi. auto. }
  ring.
Qed.

Lemma dcov2_half n a b : (1 <= n)%nat ->
  dcov2 n a b = / (INR n) ^ 2 * rsum2 n n (fun i j => a i j * dcenter n b i j).
Proof.
  intros Hn. unfold dcov2. f_equal. apply dcenter_product_l; auto; intros.
  - apply dcenter_row_sum; auto.
  - apply dcenter_col_sum; auto.
Qed.

Lemma dcov2_sym n a b : dcov2 n a b = dcov2 n b a.
Proof. unfold dcov2. f_equal. apply rsum2_ext; intros. ring. Qed.

(** The expression evaluated by the code, from uncentred sums. *)
Definition dcov2_terms (n : nat) (mp : R) (ra rb : nat -> R) (ta tb : R) : R :=
  mp / INR n / INR n - 2 * (rsum n (fun i => ra i / INR n * rb i) / INR n ^ 2)
  + ta / INR n * tb / INR n ^ 3.

Lemma dcov2_from_terms n a b : (1 <= n)%nat -> symmetric n a -> symmetric n b ->
  dcov2 n a b =
  dcov2_terms n (rsum2 n n (fun i j => a i j * b i j))
    (fun i => rsum n (a i)) (fun i => rsum n (b i)) (rsum2 n n a) (rsum2 n n b).
Proof.
  intros Hn Ha Hb. pose proof (INR_pos n Hn). rewrite dcov2_half by auto.
  unfold dcov2_terms.
  set (s := fun i => rsum n (b i)).
  set (U := rsum2 n n b).
  rewrite (rsum2_ext n n _ (fun i j => a i j * b i j - a i j * (s i / INR n)
             - a i j * (s j / INR n) + a i j * (U / INR n / INR n))).
  2:{ intros i j Hi Hj. unfold dcenter, mean.
      rewrite (rsum_ext n (fun k => b k j) (b j)) by (intros; apply Hb; auto).
      rewrite rsum_div. fold (s i) (s j) U. unfold U, rsum2, s. unfold Rdiv. eta. ring. }
  rewrite rsum2_plus, !rsum2_minus, rsum2_scal_r.
  assert (rsum2 n n (fun i j => a i j * (s i / INR n))
          = rsum n (fun i => rsum n (a i) * s i) / INR n) as ->.
  { unfold rsum2. rewrite <- rsum_div. apply rsum_ext; intros.
    rewrite rsum_scal_r. field. lra. }
  assert (rsum2 n n (fun i j => a i j * (s j / INR n))
          = rsum n (fun i => rsum n (a i) * s i) / INR n) as ->.
  { rewrite rsum2_swap. unfold rsum2. rewrite <- rsum_div. apply rsum_ext; intros.
    rewrite rsum_scal_r.
    rewrite (rsum_ext n (fun k => a k i) (a i)) by (intros; apply Ha; auto). field. lra. }
  rewrite (rsum_ext n (fun i => rsum n (a i) / INR n * rsum n (b i))
             (fun i => rsum n (a i) * s i / INR n)) by (intros; unfold s; field; lra).
  rewrite rsum_div. field. lra.
Qed.

Lemma dcenter_idem n a i j : (1 <= n)%nat -> (i < n)%nat -> (j < n)%nat ->
  dcenter n (dcenter n a) i j = dcenter n a i j.
Proof.
  intros Hn Hi Hj. unfold dcenter at 1, mean.
  rewrite dcenter_row_sum, dcenter_col_sum by auto.
  rewrite (rsum_ext n (fun k => rsum n (fun l => dcenter n a k l) / INR n) (fun _ => 0)).
  - rewrite rsum_const. unfold Rdiv. ring.
  - intros. rewrite dcenter_row_sum by auto. unfold Rdiv. ring.
Qed.

(** ** U-centring *)

Lemma INR_ge4 n : (4 <= n)%nat -> 4 <= INR n.
Proof. intros. replace 4 with (INR 4) by (simpl; lra). apply le_INR; auto. Qed.
Lemma INR_ge3 n : (3 <= n)%nat -> 3 <= INR n.
Proof. intros. replace 3 with (INR 3) by (simpl; lra). apply le_INR; auto. Qed.

Lemma ucenter_row_sum n a i : (3 <= n)%nat -> (i < n)%nat -> symmetric n a -> hollow n a ->
  rsum n (fun j => ucenter n a i j) = 0.
Proof.
  intros Hn Hi Ha Hh. pose proof (INR_ge3 n Hn).
  unfold ucenter.
  rewrite (rsum_offdiag n i (fun j => a i j - / (INR n - 2) * rsum n (fun l => a i l)
             - / (INR n - 2) * rsum n (fun k => a k j)
             + / ((INR n - 1) * (INR n - 2)) * rsum2 n n a)) by auto.
  rewrite rsum_plus, !rsum_minus, !rsum_const, rsum_scal_l.
  rewrite (rsum_swap n n (fun j k => a k j)). fold (rsum2 n n a).
  rewrite (rsum_ext n (fun k => a k i) (a i)) by (intros; apply Ha; auto).
  rewrite (Hh i Hi).
  change (rsum n (fun l => a i l)) with (rsum n (a i)). unfold rsum2.
  eta. field. lra.
Qed.

Lemma ucenter_sym n a i j : symmetric n a -> (i < n)%nat -> (j < n)%nat ->
  ucenter n a i j = ucenter n a j i.
Proof.
  intros Hs Hi Hj. unfold ucenter. rewrite (Nat.eqb_sym j i).
  destruct (Nat.eqb i j); [reflexivity|].
  rewrite (Hs i j), (rsum_ext n (fun l => a i l) (fun k => a k i)),
    (rsum_ext n (fun k => a k j) (fun l => a j l)) by (auto; intros; apply Hs; auto). lra.
Qed.

Lemma ucenter_col_sum n a j : (3 <= n)%nat -> (j < n)%nat -> symmetric n a -> hollow n a ->
  rsum n (fun i => ucenter n a i j) = 0.
Proof.
  intros. rewrite (rsum_ext n _ (fun i => ucenter n a j i)).
  - apply ucenter_row_sum; auto.
  - intros. apply ucenter_sym; auto.
Qed.

Lemma ucenter_diag n a i : ucenter n a i i = 0.
Proof. unfold ucenter. rewrite Nat.eqb_refl. reflexivity. Qed.

Lemma ucenter_product_l n a B : (3 <= n)%nat ->
  (forall i, (i < n)%nat -> rsum n (fun j => B i j) = 0) ->
  (forall j, (j < n)%nat -> rsum n (fun i => B i j) = 0) ->
  (forall i, (i < n)%nat -> B i i = 0) ->
  rsum2 n n (fun i j => ucenter n a i j * B i j) = rsum2 n n (fun i j => a i j * B i j).
Proof.
  intros Hn Hr Hc Hd.
  set (r := fun i => / (INR n - 2) * rsum n (fun l => a i l)).
  set (c := fun j => / (INR n - 2) * rsum n (fun k => a k j)).
  set (g := / ((INR n - 1) * (INR n - 2)) * rsum2 n n a).
  rewrite (rsum2_ext n n _ (fun i j => a i j * B i j - r i * B i j - c j * B i j + g * B i j)).
  2:{ intros i j Hi Hj. unfold ucenter. destruct (Nat.eqb_spec i j) as [->|Hne].
      - rewrite Hd by auto. ring.
      - fold (r i) (c j) g; ring. }
  rewrite rsum2_plus, !rsum2_minus, rsum2_scal_l.
  assert (rsum2 n n (fun i j => r i * B i j) = 0) as ->.
  { unfold rsum2. apply rsum_zero; intros i Hi. rewrite rsum_scal_l, Hr by auto. ring. }
  assert (rsum2 n n (fun i j => c j * B i j) = 0) as ->.
  { rewrite rsum2_swap. unfold rsum2. apply rsum_zero; intros i Hi.
    rewrite rsum_scal_l, Hc by auto. ring. }
  assert (rsum2 n n B = 0) as ->.
  { unfold rsum2. apply rsum_zero; intros i Hi. auto. }
  ring.
Qed.

Definition udcov2_terms (n : nat) (mp : R) (ra rb : nat -> R) (ta tb : R) : R :=
  mp / INR n / (INR n - 3)
  - 2 * (rsum n (fun i => ra i / INR n * rb i) / ((INR n - 2) * (INR n - 3)))
  + ta / INR n * tb / ((INR n - 1) * (INR n - 2) * (INR n - 3)).

Lemma udcov2_from_terms n a b : (4 <= n)%nat -> symmetric n a -> symmetric n b ->
  hollow n a -> hollow n b ->
  udcov2 n a b =
  udcov2_terms n (rsum2 n n (fun i j => a i j * b i j))
    (fun i => rsum n (a i)) (fun i => rsum n (b i)) (rsum2 n n a) (rsum2 n n b).
Proof.
  intros Hn Ha Hb Ha0 Hb0. pose proof (INR_ge4 n Hn). unfold udcov2, uprod.
  rewrite ucenter_product_l; try lia; intros.
  2: apply ucenter_row_sum; auto; lia.
  2: apply ucenter_col_sum; auto; lia.
  2: apply ucenter_diag.
  unfold udcov2_terms.
  set (s := fun i => rsum n (b i)).
  set (U := rsum2 n n b).
  rewrite (rsum2_ext n n _ (fun i j => a i j * b i j - a i j * (s i / (INR n - 2))
             - a i j * (s j / (INR n - 2)) + a i j * (U / ((INR n - 1) * (INR n - 2))))).
  2:{ intros i j Hi Hj. unfold ucenter.
      rewrite (rsum_ext n (fun k => b k j) (b j)) by (intros; apply Hb; auto).
      fold (s j) U. destruct (Nat.eqb_spec i j) as [->|Hne].
      - rewrite Ha0 by auto. ring.
      - unfold s. eta. field. lra. }
  rewrite rsum2_plus, !rsum2_minus, rsum2_scal_r.
  assert (rsum2 n n (fun i j => a i j * (s i / (INR n - 2)))
          = rsum n (fun i => rsum n (a i) * s i) / (INR n - 2)) as ->.
  { unfold rsum2. rewrite <- rsum_div. apply rsum_ext; intros.
    rewrite rsum_scal_r. field. lra. }
  assert (rsum2 n n (fun i j => a i j * (s j / (INR n - 2)))
          = rsum n (fun i => rsum n (a i) * s i) / (INR n - 2)) as ->.
  { rewrite rsum2_swap. unfold rsum2. rewrite <- rsum_div. apply rsum_ext; intros.
    rewrite rsum_scal_r.
    rewrite (rsum_ext n (fun k => a k i) (a i)) by (intros; apply Ha; auto). field. lra. }
  rewrite (rsum_ext n (fun i => rsum n (a i) / INR n * rsum n (b i))
             (fun i => rsum n (a i) * s i / INR n)) by (intros; unfold s; field; lra).
  rewrite rsum_div. field. lra.
Qed.

Lemma ucenter_idem n a i j : (3 <= n)%nat -> (i < n)%nat -> (j < n)%nat ->
  symmetric n a -> hollow n a ->
  ucenter n (ucenter n a) i j = ucenter n a i j.
Proof.
  intros Hn Hi Hj Ha Hh. unfold ucenter at 1.
  destruct (Nat.eqb_spec i j) as [->|Hne]; [rewrite ucenter_diag; reflexivity|].
  rewrite ucenter_row_sum, ucenter_col_sum by auto.
  unfold rsum2. rewrite (rsum_zero n (fun k => rsum n (fun l => ucenter n a k l))).
  - ring.
  - intros. apply ucenter_row_sum; auto.
Qed.

Lemma uprod_sym n a b : uprod n a b = uprod n b a.
Proof. unfold uprod. f_equal. apply rsum2_ext; intros. ring. Qed.
Lemma udcov2_sym n a b : udcov2 n a b = udcov2 n b a.
Proof. apply uprod_sym. Qed.

Lemma uprod_ext n a b a' b' :
  (forall i j, (i < n)%nat -> (j < n)%nat -> a i j = a' i j) ->
  (forall i j, (i < n)%nat -> (j < n)%nat -> b i j = b' i j) ->
  uprod n a b = uprod n a' b'.
Proof. intros Ha Hb. unfold uprod. f_equal. apply rsum2_ext; intros. rewrite Ha, Hb; auto. Qed.

Lemma dcenter_ext n a a' :
  (forall i j, (i < n)%nat -> (j < n)%nat -> a i j = a' i j) ->
  forall i j, (i < n)%nat -> (j < n)%nat -> dcenter n a i j = dcenter n a' i j.
Proof.
  intros H i j Hi Hj. unfold dcenter, mean. rewrite H by auto.
  rewrite (rsum_ext n (fun l => a i l) (fun l => a' i l)) by auto.
  rewrite (rsum_ext n (fun k => a k j) (fun k => a' k j)) by auto.
  rewrite (rsum_ext n (fun k => rsum n (fun l => a k l) / INR n)
             (fun k => rsum n (fun l => a' k l) / INR n)); [reflexivity|].
  intros. rewrite (rsum_ext n (fun l => a i0 l) (fun l => a' i0 l)) by auto. reflexivity.
Qed.

Lemma ucenter_ext n a a' :
  (forall i j, (i < n)%nat -> (j < n)%nat -> a i j = a' i j) ->
  forall i j, (i < n)%nat -> (j < n)%nat -> ucenter n a i j = ucenter n a' i j.
Proof.
  intros H i j Hi Hj. unfold ucenter. rewrite H by auto.
  rewrite (rsum_ext n (fun l => a i l) (fun l => a' i l)) by auto.
  rewrite (rsum_ext n (fun k => a k j) (fun k => a' k j)) by auto.
  rewrite (rsum2_ext n n a a') by auto. reflexivity.
Qed.

Lemma dcov2_ext n a b a' b' :
  (forall i j, (i < n)%nat -> (j < n)%nat -> a i j = a' i j) ->
  (forall i j, (i < n)%nat -> (j < n)%nat -> b i j = b' i j) ->
  dcov2 n a b = dcov2 n a' b'.
Proof.
  intros Ha Hb. unfold dcov2. f_equal. apply rsum2_ext; intros.
  rewrite (dcenter_ext n a a'), (dcenter_ext n b b'); auto.
Qed.

Lemma udcov2_ext n a b a' b' :
  (forall i j, (i < n)%nat -> (j < n)%nat -> a i j = a' i j) ->
  (forall i j, (i < n)%nat -> (j < n)%nat -> b i j = b' i j) ->
  udcov2 n a b = udcov2 n a' b'.
Proof. intros Ha Hb. apply uprod_ext; intros; apply ucenter_ext; auto. Qed.
