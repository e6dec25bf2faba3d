(** Expectations over independent draws from a finitely supported distribution, and the
    expected values of the sums that make up the statistics. *)
From Coq Require Import Reals Lra Lia List Arith Bool FunctionalExtensionality.
From Verif Require Import Sums Spec.
Local Open Scope R_scope.

(** Probabilities [w 0, ..., w (K-1)] of the atoms [0, ..., K-1]. *)
Definition distribution (K : nat) (w : nat -> R) : Prop :=
  (forall k, (k < K)%nat -> 0 <= w k) /\ rsum K w = 1.

(** [f] averaged over [n] independent draws: [s i] is the atom drawn at position [i]. *)
Fixpoint expect (K : nat) (w : nat -> R) (n : nat) (f : (nat -> nat) -> R) : R :=
  match n with
  | O => f (fun _ => O)
  | S n' => rsum K (fun k => w k * expect K w n' (fun s => f (fun i => if Nat.eqb i n' then k else s i)))
  end.

Section Expect.
  Context (K : nat) (w : nat -> R).
  Hypothesis Hw : rsum K w = 1.

  Lemma expect_ext n f g : (forall s, f s = g s) -> expect K w n f = expect K w n g.
  Proof.
    revert f g. induction n as [|n IH]; intros f g H; simpl; auto.
    apply rsum_ext. intros k Hk. f_equal. apply IH. auto.
  Qed.
  Lemma expect_scal n c f : expect K w n (fun s => c * f s) = c * expect K w n f.
  Proof.
    revert f. induction n as [|n IH]; intros f; simpl; auto.
    rewrite <- rsum_scal_l. apply rsum_ext. intros k Hk. rewrite IH. ring.
  Qed.
  Lemma expect_plus n f g : expect K w n (fun s => f s + g s) = expect K w n f + expect K w n g.
  Proof.
    revert f g. induction n as [|n IH]; intros f g; simpl; auto.
    rewrite <- rsum_plus. apply rsum_ext. intros k Hk. rewrite IH. ring.
  Qed.
  Lemma expect_const n c : expect K w n (fun _ => c) = c.
  Proof.
    induction n as [|n IH]; simpl; auto.
    rewrite (rsum_ext K _ (fun k => w k * c)) by (intros; rewrite IH; reflexivity).
    rewrite rsum_scal_r, Hw. ring.
  Qed.
  Lemma expect_rsum n m (f : nat -> (nat -> nat) -> R) :
    expect K w n (fun s => rsum m (fun i => f i s)) = rsum m (fun i => expect K w n (f i)).
  Proof.
    induction m as [|m IH]; simpl; [apply (expect_const n 0)|]. rewrite expect_plus, IH. reflexivity.
  Qed.
  Lemma expect_rsum2 n m l (f : nat -> nat -> (nat -> nat) -> R) :
    expect K w n (fun s => rsum2 m l (fun i j => f i j s)) = rsum2 m l (fun i j => expect K w n (f i j)).
  Proof.
    unfold rsum2. rewrite (expect_rsum n m (fun i s => rsum l (fun j => f i j s))).
    apply rsum_ext. intros. apply expect_rsum.
  Qed.

  (** Averaging over one more draw at position [i] changes nothing. *)
  Definition redraw (i : nat) (f : (nat -> nat) -> R) (s : nat -> nat) : R :=
    rsum K (fun k => w k * f (fun j => if Nat.eqb j i then k else s j)).

  Lemma expect_S n f : expect K w (S n) f = expect K w n (redraw n f).
  Proof.
    simpl. unfold redraw. rewrite (expect_rsum n K (fun k s => w k * f (fun j => if Nat.eqb j n then k else s j))).
    apply rsum_ext. intros. rewrite expect_scal. reflexivity.
  Qed.

  Lemma expect_redraw n i f : (i < n)%nat -> expect K w n (redraw i f) = expect K w n f.
  Proof.
    revert f. induction n as [|n IH]; intros f Hi; [lia|].
    destruct (Nat.eq_dec i n) as [->|Hne].
    - rewrite !expect_S. apply expect_ext. intros s. unfold redraw at 1.
      rewrite (rsum_ext K _ (fun k => w k * redraw n f s)).
      + rewrite rsum_scal_r, Hw. ring.
      + intros k Hk. f_equal. unfold redraw. apply rsum_ext. intros l Hl. do 2 f_equal.
        apply functional_extensionality. intros j. destruct (j =? n)%nat; reflexivity.
    - simpl. apply rsum_ext. intros k Hk. f_equal.
      rewrite <- (IH (fun s => f (fun j => if Nat.eqb j n then k else s j))) by lia.
      apply expect_ext. intros s. unfold redraw. apply rsum_ext. intros l Hl. do 2 f_equal.
      apply functional_extensionality. intros j.
      destruct (Nat.eqb_spec j i) as [->|]; auto. destruct (Nat.eqb_spec i n); [lia|auto].
  Qed.

  Lemma expect_2 n i j (g : nat -> nat -> R) : (i < n)%nat -> (j < n)%nat -> i <> j ->
    expect K w n (fun s => g (s i) (s j)) = rsum K (fun k => w k * rsum K (fun l => w l * g k l)).
  Proof.
    intros Hi Hj Hij. rewrite <- (expect_redraw n j) by auto. rewrite <- (expect_redraw n i) by auto.
    rewrite <- (expect_const n). apply expect_ext. intros s. unfold redraw.
    apply rsum_ext. intros k Hk. f_equal. apply rsum_ext. intros l Hl. f_equal. f_equal.
    - destruct (Nat.eqb_spec i j); [lia|]. rewrite Nat.eqb_refl. reflexivity.
    - rewrite Nat.eqb_refl. reflexivity.
  Qed.
  Lemma expect_3 n i j k (g : nat -> nat -> nat -> R) : (i < n)%nat -> (j < n)%nat -> (k < n)%nat ->
    i <> j -> i <> k -> j <> k ->
    expect K w n (fun s => g (s i) (s j) (s k)) =
    rsum K (fun a => w a * rsum K (fun b => w b * rsum K (fun c => w c * g a b c))).
  Proof.
    intros Hi Hj Hk Hij Hik Hjk. rewrite <- (expect_redraw n k) by auto. rewrite <- (expect_2 n i j (fun a b => rsum K (fun c => w c * g a b c))) by auto.
    apply expect_ext. intros s. unfold redraw. apply rsum_ext. intros c Hc. f_equal.
    destruct (Nat.eqb_spec i k), (Nat.eqb_spec j k); try lia. rewrite Nat.eqb_refl. reflexivity.
  Qed.
  Lemma expect_4 n i j k l (g : nat -> nat -> nat -> nat -> R) : (i < n)%nat -> (j < n)%nat -> (k < n)%nat -> (l < n)%nat ->
    i <> j -> i <> k -> i <> l -> j <> k -> j <> l -> k <> l ->
    expect K w n (fun s => g (s i) (s j) (s k) (s l)) =
    rsum K (fun a => w a * rsum K (fun b => w b * rsum K (fun c => w c * rsum K (fun d => w d * g a b c d)))).
  Proof.
    intros. rewrite <- (expect_redraw n l) by auto. rewrite <- (expect_3 n i j k (fun a b c => rsum K (fun d => w d * g a b c d))) by auto.
    apply expect_ext. intros s. unfold redraw. apply rsum_ext. intros d Hd. f_equal.
    destruct (Nat.eqb_spec i l), (Nat.eqb_spec j l), (Nat.eqb_spec k l); try lia. rewrite Nat.eqb_refl. reflexivity.
  Qed.

  (** ** The three moments of two symmetric hollow kernels *)
  Context (a b : nat -> nat -> R).
  Hypothesis (Sa : forall k l, a k l = a l k) (Sb : forall k l, b k l = b l k).
  Hypothesis (Za : forall k, a k k = 0) (Zb : forall k, b k k = 0).

  Definition joint : R := rsum2 K K (fun k l => w k * w l * (a k l * b k l)).
  Definition branch : R := rsum K (fun k => w k * (rsum K (fun l => w l * a k l) * rsum K (fun m => w m * b k m))).
  Definition product : R := rsum2 K K (fun k l => w k * w l * a k l) * rsum2 K K (fun k l => w k * w l * b k l).

  Lemma expect_joint n i j : (i < n)%nat -> (j < n)%nat -> i <> j ->
    expect K w n (fun s => a (s i) (s j) * b (s i) (s j)) = joint.
  Proof.
    intros. rewrite (expect_2 n i j (fun x y => a x y * b x y)) by auto. unfold joint, rsum2.
    apply rsum_ext. intros. rewrite <- rsum_scal_l. apply rsum_ext. intros. ring.
  Qed.
  Lemma expect_branch n i j k : (i < n)%nat -> (j < n)%nat -> (k < n)%nat -> i <> j -> i <> k -> j <> k ->
    expect K w n (fun s => a (s i) (s j) * b (s i) (s k)) = branch.
  Proof.
    intros. rewrite (expect_3 n i j k (fun x y z => a x y * b x z)) by auto. unfold branch.
    apply rsum_ext. intros x Hx. f_equal. rewrite <- rsum_scal_r. apply rsum_ext. intros y Hy.
    rewrite <- rsum_scal_l. rewrite <- rsum_scal_l. apply rsum_ext. intros. ring.
  Qed.
  Lemma expect_product n i j k l : (i < n)%nat -> (j < n)%nat -> (k < n)%nat -> (l < n)%nat ->
    i <> j -> i <> k -> i <> l -> j <> k -> j <> l -> k <> l ->
    expect K w n (fun s => a (s i) (s j) * b (s k) (s l)) = product.
  Proof.
    intros. rewrite (expect_4 n i j k l (fun x y z u => a x y * b z u)) by auto. unfold product, rsum2.
    rewrite <- rsum_scal_r. apply rsum_ext. intros x Hx. rewrite <- rsum_scal_l, <- rsum_scal_r.
    apply rsum_ext. intros y Hy. rewrite <- !rsum_scal_l. apply rsum_ext. intros z Hz.
    rewrite <- !rsum_scal_l. apply rsum_ext. intros. ring.
  Qed.

  Lemma rsum_two n f i j : (i < n)%nat -> (j < n)%nat -> i <> j ->
    forall c, (forall k, (k < n)%nat -> k <> i -> k <> j -> f k = c) -> rsum n f = f i + f j + (INR n - 2) * c.
  Proof.
    intros Hi Hj Hij c Hc.
    rewrite (rsum_ext n f (fun k => c + (if Nat.eqb k i then f k - c else 0) + (if Nat.eqb k j then f k - c else 0))).
    - rewrite !rsum_plus, rsum_const, (rsum_delta n i (fun k => f k - c)), (rsum_delta n j (fun k => f k - c)) by auto. ring.
    - intros k Hk. destruct (Nat.eqb_spec k i), (Nat.eqb_spec k j); try lia; try (rewrite Hc by auto); ring.
  Qed.
  Lemma rsum_one n f i : (i < n)%nat -> forall c, (forall k, (k < n)%nat -> k <> i -> f k = c) -> rsum n f = f i + (INR n - 1) * c.
  Proof.
    intros Hi c Hc.
    rewrite (rsum_ext n f (fun k => c + (if Nat.eqb k i then f k - c else 0))).
    - rewrite !rsum_plus, rsum_const, (rsum_delta n i (fun k => f k - c)) by auto. ring.
    - intros k Hk. destruct (Nat.eqb_spec k i); try (rewrite Hc by auto); ring.
  Qed.
  Lemma rsum_three n f i j l : (i < n)%nat -> (j < n)%nat -> (l < n)%nat -> i <> j -> i <> l -> j <> l ->
    forall c, (forall k, (k < n)%nat -> k <> i -> k <> j -> k <> l -> f k = c) ->
    rsum n f = f i + f j + f l + (INR n - 3) * c.
  Proof.
    intros Hi Hj Hl Hij Hil Hjl c Hc.
    rewrite (rsum_ext n f (fun k => c + (if Nat.eqb k i then f k - c else 0) + (if Nat.eqb k j then f k - c else 0)
                                      + (if Nat.eqb k l then f k - c else 0))).
    - rewrite !rsum_plus, rsum_const, (rsum_delta n i (fun k => f k - c)), (rsum_delta n j (fun k => f k - c)),
        (rsum_delta n l (fun k => f k - c)) by auto. ring.
    - intros k Hk. destruct (Nat.eqb_spec k i), (Nat.eqb_spec k j), (Nat.eqb_spec k l); try lia; try (rewrite Hc by auto); ring.
  Qed.

  Lemma zero_a n i (f : (nat -> nat) -> R) : expect K w n (fun s => a (s i) (s i) * f s) = 0.
  Proof. rewrite <- (expect_const n 0). apply expect_ext. intros. rewrite Za. ring. Qed.
  Lemma zero_b n i (f : (nat -> nat) -> R) : expect K w n (fun s => f s * b (s i) (s i)) = 0.
  Proof. rewrite <- (expect_const n 0). apply expect_ext. intros. rewrite Zb. ring. Qed.

  (** Expected value of the sum of products. *)
  Lemma expect_sum_products n :
    expect K w n (fun s => rsum2 n n (fun i j => a (s i) (s j) * b (s i) (s j))) = INR n * (INR n - 1) * joint.
  Proof.
    rewrite expect_rsum2. unfold rsum2. rewrite (rsum_ext n _ (fun _ => (INR n - 1) * joint)).
    - rewrite rsum_const. ring.
    - intros i Hi. rewrite (rsum_one n _ i Hi joint).
      + rewrite zero_a. ring.
      + intros j Hj Hji. apply expect_joint; auto.
  Qed.

  (** Expected value of the sum of products of row sums. *)
  Lemma expect_row_products n :
    expect K w n (fun s => rsum n (fun i => rsum n (fun j => a (s i) (s j)) * rsum n (fun k => b (s i) (s k))))
    = INR n * (INR n - 1) * (joint + (INR n - 2) * branch).
  Proof.
    rewrite (expect_ext n _ (fun s => rsum n (fun i => rsum2 n n (fun j k => a (s i) (s j) * b (s i) (s k))))).
    2:{ intros s. apply rsum_ext. intros i Hi. unfold rsum2. rewrite <- rsum_scal_r. apply rsum_ext. intros j Hj.
        rewrite <- rsum_scal_l. reflexivity. }
    rewrite expect_rsum. rewrite (rsum_ext n _ (fun _ => (INR n - 1) * (joint + (INR n - 2) * branch))).
    { rewrite rsum_const. ring. }
    intros i Hi. rewrite expect_rsum2. unfold rsum2. rewrite (rsum_one n _ i Hi (joint + (INR n - 2) * branch)).
    - rewrite rsum_zero; [ring|]. intros k Hk. apply zero_a.
    - intros j Hj Hji. rewrite (rsum_two n _ i j Hi Hj ltac:(lia) branch).
      + rewrite zero_b, expect_joint by auto. ring.
      + intros k Hk Hki Hkj. apply expect_branch; auto.
  Qed.

  (** Expected value of the product of the total sums. *)
  Lemma expect_totals n :
    expect K w n (fun s => rsum2 n n (fun i j => a (s i) (s j)) * rsum2 n n (fun k l => b (s k) (s l)))
    = INR n * (INR n - 1) * (2 * joint + 4 * (INR n - 2) * branch + (INR n - 2) * (INR n - 3) * product).
  Proof.
    rewrite (expect_ext n _ (fun s => rsum2 n n (fun i j => rsum2 n n (fun k l => a (s i) (s j) * b (s k) (s l))))).
    2:{ intros s. rewrite <- rsum2_scal_r. apply rsum2_ext. intros i j Hi Hj. rewrite rsum2_scal_l. reflexivity. }
    rewrite expect_rsum2.
    set (q := 2 * joint + 4 * (INR n - 2) * branch + (INR n - 2) * (INR n - 3) * product).
    assert (Hq : forall i j, (i < n)%nat -> (j < n)%nat -> i <> j ->
      expect K w n (fun s => rsum2 n n (fun k l => a (s i) (s j) * b (s k) (s l))) = q).
    { intros i j Hi Hj Hij. rewrite expect_rsum2. unfold rsum2.
      rewrite (rsum_two n _ i j Hi Hj Hij (2 * branch + (INR n - 3) * product)).
      - rewrite (rsum_two n (fun l => expect K w n (fun s => a (s i) (s j) * b (s i) (s l))) i j Hi Hj Hij branch)
          by (intros; apply expect_branch; auto).
        rewrite (rsum_two n (fun l => expect K w n (fun s => a (s i) (s j) * b (s j) (s l))) i j Hi Hj Hij branch).
        + rewrite !zero_b, expect_joint by auto.
          rewrite (expect_ext n (fun s => a (s i) (s j) * b (s j) (s i)) (fun s => a (s i) (s j) * b (s i) (s j)))
            by (intros; rewrite (Sb (s j)); reflexivity).
          rewrite expect_joint by auto. unfold q. ring.
        + intros l Hl Hli Hlj. rewrite (expect_ext n _ (fun s => a (s j) (s i) * b (s j) (s l))) by (intros; rewrite (Sa (s i)); reflexivity).
          apply expect_branch; auto.
      - intros k Hk Hki Hkj. rewrite (rsum_three n _ i j k Hi Hj Hk Hij ltac:(lia) ltac:(lia) product).
        + rewrite zero_b.
          rewrite (expect_ext n (fun s => a (s i) (s j) * b (s k) (s i)) (fun s => a (s i) (s j) * b (s i) (s k)))
            by (intros; rewrite (Sb (s k)); reflexivity).
          rewrite (expect_ext n (fun s => a (s i) (s j) * b (s k) (s j)) (fun s => a (s j) (s i) * b (s j) (s k)))
            by (intros; rewrite (Sb (s k)), (Sa (s i)); reflexivity).
          rewrite !expect_branch by auto. ring.
        + intros l Hl Hli Hlj Hlk. apply expect_product; auto. }
    unfold rsum2 at 1. rewrite (rsum_ext n _ (fun _ => (INR n - 1) * q)).
    - rewrite rsum_const. ring.
    - intros i Hi. rewrite (rsum_one n _ i Hi q).
      + rewrite expect_rsum2. unfold rsum2. rewrite rsum_zero; [ring|]. intros k Hk. apply rsum_zero. intros l Hl.
        apply zero_a.
      + intros j Hj Hji. apply Hq; auto.
  Qed.
End Expect.
