(** An executable environment of doubles: argsort by insertion. *)
From Coq Require Import Reals Lra Lia List Arith Bool ZArith Sorting.Sorted Permutation.
From Flocq Require Import Core IEEE754.BinarySingleNaN.
From Verif Require Import Num Numpy MUtils MFloat Tab Samples RefFloat FloatSum FloatApi.
Import ListNotations.

Fixpoint finsert (v : b64 * nat) (l : list (b64 * nat)) : list (b64 * nat) :=
  match l with [] => [v] | a :: l' => if Bleb (fst a) (fst v) then a :: finsert v l' else v :: l end.
Definition fsort (l : list (b64 * nat)) : list (b64 * nat) := fold_left (fun acc v => finsert v acc) l [].
Definition fargsort (l : list b64) : list nat := map snd (fsort (combine l (seq 0 (length l)))).

(** Sums from left to right. *)
Definition plain : flib := mkLib (fun _ _ => B754_nan) seq_stree seq_dtree.
Definition env_F : Env b64 :=
  mkEnv b64 (B64Num plain) fargsort (fun n => repeat B754_nan n) (fun _ => ([], [])) (fun _ _ => B754_nan) true.

Lemma finsert_perm v l : Permutation (finsert v l) (v :: l).
Proof.
  induction l as [|a l IH]; cbn; auto. destruct (Bleb _ _); auto.
  eapply Permutation_trans; [apply perm_skip, IH|apply perm_swap].
Qed.
Lemma fsort_perm_acc l : forall acc, Permutation (fold_left (fun acc v => finsert v acc) l acc) (l ++ acc).
Proof.
  induction l as [|a l IH]; intros acc; cbn; auto. eapply Permutation_trans; [apply IH|].
  eapply Permutation_trans; [apply Permutation_app_head, finsert_perm|]. symmetry. apply Permutation_middle.
Qed.
Lemma fsort_perm l : Permutation (fsort l) l.
Proof. unfold fsort. rewrite <- (app_nil_r l) at 2. apply fsort_perm_acc. Qed.

Lemma map_snd_combine {A} (l : list A) k : map snd (combine l (seq k (length l))) = seq k (length l).
Proof. revert k. induction l as [|a l IH]; intros k; cbn; auto. f_equal. apply IH. Qed.

Lemma fargsort_perm l : is_perm (length l) (fargsort l).
Proof.
  unfold is_perm, fargsort. rewrite <- (map_snd_combine l 0) at 2. apply Permutation_map, fsort_perm.
Qed.

Definition fle (a b : b64 * nat) : Prop := (B2R (fst a) <= B2R (fst b))%R.
Definition ffin (a : b64 * nat) : Prop := is_finite (fst a) = true.
Lemma finsert_sorted v l : ffin v -> Forall ffin l -> StronglySorted fle l -> StronglySorted fle (finsert v l).
Proof.
  intros Hv Hl Hs. induction Hs as [|a l Hs IH Ha]; cbn; [repeat constructor|].
  inversion Hl as [|? ? Fa Fl]; subst.
  rewrite Bleb_correct by auto. destruct (Rle_bool_spec (B2R (fst a)) (B2R (fst v))) as [H|H].
  - constructor; auto. apply Forall_forall. intros w Hw. apply (Permutation_in _ (finsert_perm v l)) in Hw.
    rewrite Forall_forall in Ha. destruct Hw as [<-|Hw]; auto.
  - constructor; [constructor; auto|]. constructor; [unfold fle; lra|]. eapply Forall_impl; [|exact Ha]. unfold fle. intros. lra.
Qed.
Lemma fsort_sorted_acc l : forall acc, Forall ffin l -> Forall ffin acc -> StronglySorted fle acc ->
  StronglySorted fle (fold_left (fun acc v => finsert v acc) l acc).
Proof.
  induction l as [|a l IH]; intros acc Hl Ha Hs; cbn; auto. inversion Hl as [|? ? Fa Fl]; subst. apply IH; auto.
  - apply Forall_forall. intros w Hw. apply (Permutation_in _ (finsert_perm a acc)) in Hw. rewrite Forall_forall in Ha.
    destruct Hw as [<-|Hw]; auto.
  - apply finsert_sorted; auto.
Qed.
Lemma StronglySorted_nth {A} (P : A -> A -> Prop) l d : StronglySorted P l -> forall i j, i < j -> j < length l -> P (nth i l d) (nth j l d).
Proof.
  induction 1 as [|a l Hs IH Ha]; cbn; intros i j Hij Hj; [lia|]. destruct j as [|j]; [lia|]. destruct i as [|i].
  - rewrite Forall_forall in Ha. apply Ha, nth_In. lia.
  - apply IH; lia.
Qed.
Lemma fargsort_sorts l : Forall (fun v => is_finite v = true) l -> sorts (map B2R l) (fargsort l).
Proof.
  intros Hf. split; [rewrite map_length; apply fargsort_perm|]. rewrite map_length. intros i j Hij Hj.
  set (c := combine l (seq 0 (length l))).
  assert (Hc : forall k, In k c -> nth (snd k) (map B2R l) 0%R = B2R (fst k) /\ ffin k).
  { intros [v k] Hk. unfold c in Hk. pose proof (in_combine_l _ _ _ _ Hk) as Hv. rewrite Forall_forall in Hf. split; [|apply Hf; auto].
    cbn [fst snd]. apply (In_nth _ _ (B754_zero false, 0)) in Hk. destruct Hk as (q & Hq & Hk).
    rewrite combine_length, seq_length, Nat.min_id in Hq. rewrite combine_nth, seq_nth in Hk by (rewrite ?seq_length; auto). injection Hk as <- <-. cbn [Nat.add].
    change 0%R with (B2R (B754_zero false : b64)). rewrite map_nth. reflexivity. }
  assert (Hs : StronglySorted fle (fsort c)).
  { apply fsort_sorted_acc; auto; [|constructor]. apply Forall_forall. intros k Hk. apply Hc; auto. }
  assert (Hlen : length (fsort c) = length l) by (rewrite (Permutation_length (fsort_perm c)); unfold c; rewrite combine_length, seq_length; lia).
  unfold fargsort. fold c. assert (Hn : forall k, nth k (map snd (fsort c)) 0 = snd (nth k (fsort c) (B754_zero false, 0))) by (intros k; apply (map_nth snd _ (B754_zero false, 0))). rewrite !Hn.
  assert (Hin : forall k, k < length l -> In (nth k (fsort c) (B754_zero false, 0)) c).
  { intros k Hk. apply (Permutation_in _ (fsort_perm c)), nth_In. lia. }
  eapply Rle_trans; [apply Req_le; exact (proj1 (Hc _ (Hin i ltac:(lia))))|].
  eapply Rle_trans; [|apply Req_le; symmetry; exact (proj1 (Hc _ (Hin j ltac:(lia))))].
  apply (StronglySorted_nth fle); auto. lia.
Qed.

Lemma env_F_valid : valid_fenv plain env_F.
Proof.
  split; auto; cbn; auto using fargsort_perm, fargsort_sorts, repeat_length.
  split; cbn; intros n; [rewrite seq_stree_leaves|rewrite seq_dtree_leaves]; apply Permutation_refl.
Qed.

(** Another library: np.sum adds as in numpy's pairwise_sum (numpy/core/src/umath/loops_utils.h.src): from left to right
    below 8 elements, with 8 accumulators up to 128, splitting in halves above; [@] multiplies and adds in one step, from the end. *)
Fixpoint add_run (t : stree) (from n : nat) : stree :=
  match n with 0 => t | S n => add_run (Node t (Leaf from)) (S from) n end.
Fixpoint strided (from c : nat) : stree := match c with 0 => Leaf from | S c => Node (strided from c) (Leaf (from + 8 * S c)) end.
Definition eight (from c : nat) : stree :=
  let r j := strided (from + j) c in
  Node (Node (Node (r 0) (r 1)) (Node (r 2) (r 3))) (Node (Node (r 4) (r 5)) (Node (r 6) (r 7))).
Fixpoint pairwise_sum (fuel from n : nat) : stree :=
  if n <? 8 then add_run (SZero false) from n
  else if n <=? 128 then add_run (eight from (n / 8 - 1)) (from + 8 * (n / 8)) (n mod 8)
  else match fuel with
       | 0 => SZero false
       | S fuel => let n2 := n / 2 - (n / 2) mod 8 in Node (pairwise_sum fuel from n2) (pairwise_sum fuel (from + n2) (n - n2))
       end.
Fixpoint fused (n : nat) : dtree := match n with 0 => DZero true | S n => DFma n (fused n) end.
Definition modern : flib := mkLib (fun _ _ => B754_nan) (fun n => pairwise_sum n 0 n) fused.

Lemma add_run_leaves n : forall t from, sleaves (add_run t from n) = sleaves t ++ seq from n.
Proof. induction n as [|n IH]; intros t from; cbn [add_run seq]; [rewrite app_nil_r; auto|]. rewrite IH. cbn [sleaves]. rewrite <- app_assoc. reflexivity. Qed.
Lemma strided_leaves from c : sleaves (strided from c) = map (fun i => from + 8 * i) (seq 0 (S c)).
Proof.
  induction c as [|c IH]; [cbn; f_equal; lia|]. cbn [strided sleaves]. rewrite IH, (seq_S (S c)), map_app. reflexivity.
Qed.
Lemma flat_map_snoc {A B} (f : A -> list B) (g : A -> B) js : Permutation (flat_map (fun j => f j ++ [g j]) js) (flat_map f js ++ map g js).
Proof.
  induction js as [|j js IH]; [constructor|]. cbn [flat_map map]. rewrite <- !app_assoc. apply Permutation_app_head.
  change ([g j] ++ flat_map (fun j => f j ++ [g j]) js) with (g j :: flat_map (fun j => f j ++ [g j]) js).
  eapply Permutation_trans; [apply perm_skip, IH|]. apply Permutation_middle.
Qed.
Lemma eight_leaves from c : Permutation (sleaves (eight from c)) (seq from (8 * S c)).
Proof.
  assert (H : sleaves (eight from c) = flat_map (fun j => map (fun i => from + j + 8 * i) (seq 0 (S c))) (seq 0 8)).
  { unfold eight. cbn [sleaves flat_map seq app]. rewrite !strided_leaves, <- !app_assoc, app_nil_r. reflexivity. }
  rewrite H. clear H. induction c as [|c IH].
  - assert (H : flat_map (fun j => map (fun i => from + j + 8 * i) (seq 0 1)) (seq 0 8) = seq from (8 * 1)) by (cbn [seq map flat_map app Nat.mul Nat.add]; repeat (apply f_equal2; [lia|]); reflexivity).
    rewrite H. apply Permutation_refl.
  - replace (8 * S (S c)) with (8 * S c + 8) by lia. rewrite seq_app.
    eapply Permutation_trans; [|apply Permutation_app_tail, IH].
    replace (seq (from + 8 * S c) 8) with (map (fun j => from + j + 8 * S c) (seq 0 8)) by (cbn [seq map]; repeat (apply f_equal2; [lia|]); reflexivity).
    eapply Permutation_trans; [|apply flat_map_snoc].
    assert (E : forall j, map (fun i => from + j + 8 * i) (seq 0 (S (S c))) = map (fun i => from + j + 8 * i) (seq 0 (S c)) ++ [from + j + 8 * S c]).
    { intros j. rewrite (seq_S (S c)), map_app. reflexivity. }
    rewrite (flat_map_ext _ _ E). apply Permutation_refl.
Qed.
Lemma pairwise_leaves fuel : forall from n, n <= fuel -> Permutation (sleaves (pairwise_sum fuel from n)) (seq from n).
Proof.
  assert (Base : forall from n, n <= 128 -> forall t, Permutation (sleaves (if n <? 8 then add_run (SZero false) from n
    else if n <=? 128 then add_run (eight from (n / 8 - 1)) (from + 8 * (n / 8)) (n mod 8) else t)) (seq from n)).
  { intros from n Hn t. destruct (Nat.ltb_spec n 8) as [H|H]; [rewrite add_run_leaves; apply Permutation_refl|].
    destruct (Nat.leb_spec n 128) as [_|H']; [|lia]. rewrite add_run_leaves.
    eapply Permutation_trans; [apply Permutation_app_tail, eight_leaves|].
    assert (H8 : 1 <= n / 8) by (apply Nat.div_le_lower_bound; lia). replace (S (n / 8 - 1)) with (n / 8) by lia.
    rewrite <- seq_app. replace (8 * (n / 8) + n mod 8) with n by (apply Nat.div_mod; lia). apply Permutation_refl. }
  induction fuel as [|fuel IH]; intros from n Hn; cbn [pairwise_sum].
  - apply Base. lia.
  - destruct (le_gt_dec n 128) as [H|H]; [apply (Base from n H)|]. destruct (Nat.leb_spec n 128) as [H1|_]; [lia|].
    destruct (Nat.ltb_spec n 8) as [H'|_]; [lia|].
    assert (H2 : 64 <= n / 2 < n) by (split; [apply Nat.div_le_lower_bound; lia|apply Nat.div_lt; lia]).
    pose proof (Nat.mod_upper_bound (n / 2) 8 ltac:(lia)). set (n2 := n / 2 - (n / 2) mod 8) in *. cbv zeta. cbn [sleaves].
    eapply Permutation_trans; [apply Permutation_app; apply IH; lia|]. rewrite <- seq_app. replace (n2 + (n - n2)) with n by lia. apply Permutation_refl.
Qed.
Definition env_M : Env b64 :=
  mkEnv b64 (B64Num modern) fargsort (fun n => repeat B754_nan n) (fun _ => ([], [])) (fun _ _ => B754_nan) true.
Lemma env_M_valid : valid_fenv modern env_M.
Proof.
  split; auto; cbn; auto using fargsort_perm, fargsort_sorts, repeat_length.
  split; cbn [modern f_sum f_dot]; intros n; [apply pairwise_leaves; lia|].
  induction n as [|n IH]; [constructor|]. cbn [fused dleaves]. rewrite seq_S. cbn [Nat.add].
  eapply Permutation_trans; [apply perm_skip, IH|]. apply Permutation_cons_append.
Qed.
