(** Exchangeability: rank of the observed statistic among equally likely rearrangements. *)
From Coq Require Import Reals Lra Lia List Arith Bool ZArith Permutation FinFun.
From Verif Require Import Num Numpy Sums Spec Tab RefTests.
Import ListNotations.
Local Open Scope R_scope.

(** ** Enumerations *)

(** All lists of [k] elements of [l]. *)
Fixpoint words {A} (k : nat) (l : list A) : list (list A) :=
  match k with O => [[]] | S k' => flat_map (fun a => map (cons a) (words k' l)) l end.

Lemma in_words {A} k (l : list A) w : In w (words k l) <-> length w = k /\ incl w l.
Proof.
  revert w. induction k as [|k IH]; intros w; cbn.
  - split; [intros [<-|[]]; split; [reflexivity|intros a []]|]. intros [H _]. destruct w; [auto|discriminate].
  - rewrite in_flat_map. split.
    + intros (a & Ha & H). apply in_map_iff in H as (w' & <- & Hw). apply IH in Hw as [Hl Hi]. split; [cbn; auto|].
      intros b [<-|Hb]; auto.
    + intros [Hl Hi]. destruct w as [|a w]; [discriminate|]. exists a. split; [apply Hi; left; auto|].
      apply in_map. apply IH. split; [cbn in Hl; lia|]. intros b Hb. apply Hi. right; auto.
Qed.

Lemma NoDup_app {A} (l l' : list A) : NoDup l -> NoDup l' -> (forall a, In a l -> ~ In a l') -> NoDup (l ++ l').
Proof.
  induction 1 as [|a l Ha Hl IH]; intros H' Hd; cbn; auto. constructor.
  - rewrite in_app_iff. intros [H|H]; [auto|]. apply (Hd a); [left|]; auto.
  - apply IH; auto. intros b Hb. apply Hd. right; auto.
Qed.

Lemma NoDup_words {A} k (l : list A) : NoDup l -> NoDup (words k l).
Proof.
  intros Hl. induction k as [|k IH]; cbn; [repeat constructor; auto|].
  assert (forall m, NoDup m -> NoDup (flat_map (fun a => map (cons a) (words k l)) m)) as H; [|apply H; auto].
  induction 1 as [|a m Ha Hm IHm]; cbn; [constructor|]. apply NoDup_app; auto.
  - apply Injective_map_NoDup; auto. intros u v Huv. congruence.
  - intros w Hw. apply in_map_iff in Hw as (w' & <- & _). intros Hin. apply in_flat_map in Hin as (b & Hb & Hin).
    apply in_map_iff in Hin as (w'' & He & _). congruence.
Qed.

(** All permutations of 0, ..., n-1. *)
Definition is_permb (n : nat) (q : list nat) : bool :=
  Nat.eqb (length q) n && forallb (fun i => Nat.ltb i n) q && (if ListDec.NoDup_dec Nat.eq_dec q then true else false).
Definition all_perms (n : nat) : list (list nat) := filter (is_permb n) (words n (seq 0 n)).

Lemma is_permb_spec n q : is_permb n q = true <-> is_perm n q.
Proof.
  unfold is_permb. split.
  - intros H. apply andb_prop in H as [H H3]. apply andb_prop in H as [H1 H2]. apply Nat.eqb_eq in H1.
    rewrite forallb_forall in H2. destruct (ListDec.NoDup_dec Nat.eq_dec q) as [Hn|]; [|discriminate].
    apply NoDup_Permutation_bis; auto; [rewrite seq_length; lia|].
    intros i Hi. apply in_seq. specialize (H2 i Hi). apply Nat.ltb_lt in H2. lia.
  - intros H. pose proof (is_perm_length _ _ H) as Hl. pose proof (is_perm_NoDup _ _ H) as Hn.
    rewrite Hl, Nat.eqb_refl. destruct (ListDec.NoDup_dec Nat.eq_dec q) as [_|]; [|contradiction].
    assert (forallb (fun i => Nat.ltb i n) q = true) as -> by (apply forallb_forall; intros; apply Nat.ltb_lt; eapply is_perm_In; eauto).
    reflexivity.
Qed.

Lemma in_all_perms n q : In q (all_perms n) <-> is_perm n q.
Proof.
  unfold all_perms. rewrite filter_In, is_permb_spec, in_words. split; [tauto|]. intros H. split; [|auto]. split.
  - apply is_perm_length; auto.
  - intros i Hi. apply in_seq. pose proof (is_perm_In _ _ _ H Hi). lia.
Qed.
Lemma NoDup_all_perms n : NoDup (all_perms n).
Proof. apply NoDup_filter, NoDup_words, seq_NoDup. Qed.

(** ** Counting *)

Definition count_if {A} (f : A -> bool) (l : list A) : nat := length (filter f l).

Lemma count_if_perm {A} (f : A -> bool) l l' : Permutation l l' -> count_if f l = count_if f l'.
Proof.
  unfold count_if. induction 1; cbn; auto.
  - destruct (f x); cbn; auto.
  - destruct (f x), (f y); cbn; auto.
  - congruence.
Qed.
Lemma count_if_map {A B} (g : A -> B) f l : count_if f (map g l) = count_if (fun a => f (g a)) l.
Proof. unfold count_if. induction l as [|a l IH]; cbn; auto. destruct (f (g a)); cbn; auto. Qed.
Lemma count_if_ext {A} (f g : A -> bool) l : (forall a, In a l -> f a = g a) -> count_if f l = count_if g l.
Proof.
  unfold count_if. induction l as [|a l IH]; intros H; cbn; auto. rewrite H by (left; auto). destruct (g a); cbn; rewrite IH; auto;
    intros; apply H; right; auto.
Qed.

(** Double counting. *)
Lemma count_swap {A B} (f : A -> B -> bool) (l : list A) (k : list B) :
  list_sum (map (fun a => count_if (f a) k) l) = list_sum (map (fun b => count_if (fun a => f a b) l) k).
Proof.
  induction l as [|a l IH]; cbn [map].
  - cbn. induction k as [|b k IHk]; cbn; auto.
  - cbn [list_sum fold_right]. fold (list_sum (map (fun a => count_if (f a) k) l)). rewrite IH. clear IH.
    induction k as [|b k IHk]; cbn; auto. unfold count_if in *. cbn in *. unfold list_sum in *.
    destruct (f a b); cbn; rewrite <- ?plus_n_Sm in *; lia.
Qed.

(** ** Ranks *)

Definition above (v : R) (w : list R) : nat := count_if (fun b => if Rlt_dec v b then true else false) w.

Lemma above_perm v w w' : Permutation w w' -> above v w = above v w'.
Proof. apply count_if_perm. Qed.

(** The p-value of the first entry of a vector. *)
Lemma p_value_above v w : p_value v w = INR (1 + above v (v :: w)) / INR (length (v :: w)).
Proof.
  unfold p_value, above, count_if. cbn [filter]. destruct (Rlt_dec v v) as [H|_]; [exfalso; lra|].
  cbn [length]. rewrite plus_INR, (S_INR (length w)). f_equal. ring.
Qed.

(** Exchange positions 0 and [k]. *)
Definition swap0 {A} (d : A) (k : nat) (w : list A) : list A :=
  match k, w with S k', a :: w' => nth k' w' d :: upd w' k' a | _, _ => w end.

Lemma upd_nth_self {A} (l : list A) i d : upd l i (nth i l d) = l.
Proof. revert i. induction l as [|a l IH]; intros [|i]; cbn; auto. rewrite IH; auto. Qed.
Lemma upd_upd' {A} (l : list A) i v w : upd (upd l i v) i w = upd l i w.
Proof. revert i. induction l as [|a l IH]; intros [|i]; cbn; auto. rewrite IH; auto. Qed.
Lemma nth_upd_eq {A} (l : list A) i v d : (i < length l)%nat -> nth i (upd l i v) d = v.
Proof. revert i. induction l as [|a l IH]; intros [|i] H; cbn in *; auto; try lia. apply IH. lia. Qed.

Lemma upd_perm {A} (l : list A) i v d : (i < length l)%nat -> Permutation (nth i l d :: upd l i v) (v :: l).
Proof.
  revert i. induction l as [|a l IH]; intros [|i] H; cbn in *; try lia.
  - apply perm_swap.
  - specialize (IH i ltac:(lia)). rewrite perm_swap, IH. apply perm_swap.
Qed.

Lemma swap0_perm {A} (d : A) k w : (k < length w)%nat -> Permutation (swap0 d k w) w.
Proof. destruct k as [|k], w as [|a w]; cbn; intros H; auto; try lia. apply upd_perm. lia. Qed.
Lemma swap0_hd {A} (d : A) k w : (k < length w)%nat -> nth 0 (swap0 d k w) d = nth k w d.
Proof. destruct k as [|k], w as [|a w]; cbn; intros; auto. Qed.
Lemma swap0_inv {A} (d : A) k w : (k < length w)%nat -> swap0 d k (swap0 d k w) = w.
Proof.
  destruct k as [|k], w as [|a w]; cbn; intros H; auto; try lia.
  rewrite nth_upd_eq by lia. rewrite upd_upd', upd_nth_self. reflexivity.
Qed.
Lemma swap0_map {A B} (f : A -> B) d k w : map f (swap0 d k w) = swap0 (f d) k (map f w).
Proof.
  destruct k as [|k], w as [|a w]; cbn; auto. rewrite map_nth. f_equal.
  revert k. induction w as [|b w IH]; intros [|k]; cbn; auto. rewrite IH. reflexivity.
Qed.

(** The p-value of a vector of statistics, the observed one first. *)
Definition vector_p (w : list R) : R := p_value (nth 0 w 0) (tl w).

Lemma vector_p_swap w k : (k < length w)%nat ->
  vector_p (swap0 0 k w) = INR (1 + above (nth k w 0) w) / INR (length w).
Proof.
  intros Hk. unfold vector_p. rewrite swap0_hd by auto.
  pose proof (swap0_perm 0 k w Hk) as Hp. pose proof (swap0_hd 0 k w Hk) as Hh.
  destruct (swap0 0 k w) as [|v w'] eqn:Hs; [apply Permutation_length in Hp; cbn in Hp; lia|]. cbn [tl nth] in *. subst v.
  rewrite p_value_above, (above_perm _ _ _ Hp), (Permutation_length Hp). reflexivity.
Qed.

Lemma above_lt w u v : In v w -> u < v -> (above v w < above u w)%nat.
Proof.
  intros Hv Huv. unfold above, count_if.
  assert (forall l, length (filter (fun b => if Rlt_dec v b then true else false) l)
                    <= length (filter (fun b => if Rlt_dec u b then true else false) l))%nat as Hle.
  { induction l as [|b l IH]; cbn; auto. destruct (Rlt_dec v b), (Rlt_dec u b); cbn; lia || (exfalso; lra). }
  induction w as [|b w IH]; [contradiction|]. cbn. destruct Hv as [->|Hv].
  - destruct (Rlt_dec v v) as [|_]; [exfalso; lra|]. destruct (Rlt_dec u v) as [_|]; [|contradiction]. cbn. specialize (Hle w). lia.
  - specialize (IH Hv). destruct (Rlt_dec v b), (Rlt_dec u b); cbn; lia || (exfalso; lra).
Qed.

(** In a vector without ties at most [r] entries have fewer than [r] entries above them. *)
Lemma rank_count w r : NoDup w -> 0 <= r ->
  INR (count_if (fun k => if Rle_dec (INR (1 + above (nth k w 0) w)) r then true else false) (seq 0 (length w))) <= r.
Proof.
  intros Hn Hr. unfold count_if. set (g := fun k => _ : bool). set (ks := filter g (seq 0 (length w))).
  set (ranks := map (fun k => S (above (nth k w 0) w)) ks).
  assert (NoDup ranks) as Hd.
  { assert (forall l, NoDup l -> incl l (seq 0 (length w)) -> NoDup (map (fun k => S (above (nth k w 0) w)) l)) as H.
    { induction 1 as [|k l Hk Hl IH]; intros Hi; cbn; constructor; [|apply IH; intros a Ha; apply Hi; right; auto].
      intros Hin. apply in_map_iff in Hin as (k' & He & Hk'). injection He as He.
      assert (k < length w)%nat as L1 by (specialize (Hi k (or_introl eq_refl)); apply in_seq in Hi; lia).
      assert (k' < length w)%nat as L2 by (specialize (Hi k' (or_intror Hk')); apply in_seq in Hi; lia).
      destruct (Rtotal_order (nth k w 0) (nth k' w 0)) as [H|[H|H]].
      - apply (above_lt w) in H; [lia|apply nth_In; auto].
      - rewrite (NoDup_nth w 0) in Hn. apply Hn in H; auto. congruence.
      - apply (above_lt w) in H; [lia|apply nth_In; auto]. }
    apply H; [apply NoDup_filter, seq_NoDup|]. intros k Hk. apply filter_In in Hk. tauto. }
  replace (length ks) with (length ranks) by apply map_length.
  set (m := Z.to_nat (Int_part r)).
  assert (0 <= Int_part r)%Z as Hip.
  { pose proof (base_Int_part r) as [_ H]. apply Z.lt_succ_r. apply lt_IZR. rewrite succ_IZR. lra. }
  assert (INR m <= r) as Hm by (unfold m; rewrite INR_IZR_INZ, Z2Nat.id by auto; apply base_Int_part).
  apply Rle_trans with (INR m); [|exact Hm]. apply le_INR.
  rewrite <- (seq_length m 1). apply NoDup_incl_length; auto. intros a Ha. apply in_map_iff in Ha as (k & <- & Hk).
  apply filter_In in Hk as [_ Hg]. unfold g in Hg. destruct (Rle_dec _ r) as [Hle|]; [|discriminate].
  apply in_seq. split; [lia|].
  assert (IZR (Z.of_nat (1 + above (nth k w 0) w)) <= r) as Hz by (rewrite <- INR_IZR_INZ; auto).
  pose proof (base_Int_part r) as [_ Hb].
  assert (Z.of_nat (1 + above (nth k w 0%R) w) < Int_part r + 1)%Z as Hlt by (apply lt_IZR; rewrite plus_IZR; lra).
  unfold m. change (S (above (nth k w 0) w)) with (1 + above (nth k w 0%R) w)%nat. lia.
Qed.

(** ** Validity for an exchangeable collection of vectors *)

Definition tie_free (w : list R) : bool := if ListDec.NoDup_dec Req_EM_T w then true else false.
Definition leb (a b : R) : bool := if Rle_dec a b then true else false.

Lemma tie_free_perm w w' : Permutation w w' -> tie_free w = tie_free w'.
Proof.
  intros H. unfold tie_free. destruct (ListDec.NoDup_dec Req_EM_T w) as [Hn|Hn], (ListDec.NoDup_dec Req_EM_T w') as [Hn'|Hn']; auto.
  - exfalso. apply Hn'. eapply Permutation_NoDup; eauto.
  - exfalso. apply Hn. eapply Permutation_NoDup; [symmetry|]; eauto.
Qed.

Lemma exchangeable_valid b (W : list (list R)) t : 0 <= t ->
  (forall w, In w W -> length w = S b) -> (forall k, (k <= b)%nat -> Permutation (map (swap0 0 k) W) W) ->
  INR (count_if (fun w => tie_free w && leb (vector_p w) t) W) <= t * INR (count_if tie_free W).
Proof.
  intros Ht Hl Hex. set (bad := fun w => tie_free w && leb (vector_p w) t).
  assert (forall k, (k <= b)%nat -> count_if bad W = count_if (fun w => bad (swap0 0 k w)) W) as Hk.
  { intros k Hk. rewrite <- (count_if_map (swap0 0 k)). apply count_if_perm. symmetry. auto. }
  assert (S b * count_if bad W = list_sum (map (fun w => count_if (fun k => bad (swap0 0%R k w)) (seq 0 (S b))) W))%nat as Hsum.
  { rewrite (count_swap (fun w k => bad (swap0 0 k w)) W (seq 0 (S b))).
    rewrite (map_ext_in _ (fun _ => count_if bad W)) by (intros k Hin; apply in_seq in Hin; symmetry; apply Hk; lia).
    rewrite <- (seq_length (S b) 0) at 1. clear. induction (seq 0 (S b)) as [|a l IH]; cbn; auto. }
  assert (0 < INR (S b)) as Hb by apply lt_0_INR, Nat.lt_0_succ.
  apply Rmult_le_reg_l with (INR (S b)); auto. rewrite <- mult_INR, Hsum. clear Hsum Hk Hex.
  induction W as [|w W IH]; [cbn; lra|]. cbn [map list_sum fold_right]. rewrite plus_INR.
  assert (INR (S b) * (t * INR (count_if tie_free (w :: W)))
          = (if tie_free w then INR (S b) * t else 0) + INR (S b) * (t * INR (count_if tie_free W))) as ->.
  { unfold count_if. cbn [filter]. destruct (tie_free w); [cbn [length]; rewrite (S_INR (length (filter tie_free W))); ring|ring]. }
  apply Rplus_le_compat; [|apply IH; intros; apply Hl; right; auto]. clear IH.
  assert (length w = S b) as Hw by (apply Hl; left; auto).
  destruct (tie_free w) eqn:Htf.
  - eapply Rle_trans; [|apply (rank_count w (INR (S b) * t))].
    + right. rewrite Hw. f_equal. apply count_if_ext. intros k Hin. apply in_seq in Hin. unfold bad.
      rewrite (tie_free_perm _ w) by (apply swap0_perm; lia). rewrite Htf. cbn [andb].
      rewrite vector_p_swap by lia. rewrite Hw. unfold leb.
      destruct (Rle_dec (INR (1 + above (nth k w 0) w) / INR (S b)) t) as [H|H],
               (Rle_dec (INR (1 + above (nth k w 0) w)) (INR (S b) * t)) as [H'|H']; auto; exfalso.
      * apply H'. apply Rmult_le_reg_r with (/ INR (S b)); [apply Rinv_0_lt_compat; auto|].
        replace (INR (S b) * t * / INR (S b)) with t by (field; lra). exact H.
      * apply H. apply Rmult_le_reg_l with (INR (S b)); auto.
        replace (INR (S b) * (INR (1 + above (nth k w 0) w) / INR (S b))) with (INR (1 + above (nth k w 0) w)) by (field; lra). exact H'.
    + unfold tie_free in Htf. destruct (ListDec.NoDup_dec Req_EM_T w); [auto|discriminate].
    + apply Rmult_le_pos; lra.
  - right. unfold count_if. rewrite (filter_ext_in _ (fun _ => false)).
    + clear. induction (seq 0 (S b)); cbn; auto.
    + intros k Hin. apply in_seq in Hin. unfold bad. rewrite (tie_free_perm _ w) by (apply swap0_perm; lia). rewrite Htf. reflexivity.
Qed.

(** ** Random rearrangements *)

Definition compose (s q : list nat) : list nat := map (fun i => nth i s 0%nat) q.

Lemma compose_perm n s q : is_perm n s -> is_perm n q -> is_perm n (compose s q).
Proof.
  intros Hs Hq. pose proof (is_perm_length n s Hs) as L. unfold compose, is_perm in *.
  transitivity (map (fun i => nth i s 0%nat) (seq 0 n)); [apply Permutation_map; auto|].
  replace (map (fun i => nth i s 0%nat) (seq 0 n)) with s; auto. rewrite seq_tab, tab_map. apply tab_of_list_n; auto.
Qed.

Lemma compose_inj n s q q' : is_perm n s -> is_perm n q -> is_perm n q' -> compose s q = compose s q' -> q = q'.
Proof.
  intros Hs Hq Hq' H. pose proof (is_perm_length _ _ Hq) as L. pose proof (is_perm_length _ _ Hq') as L'.
  apply (nth_ext _ _ 0%nat 0%nat); [congruence|]. intros i Hi.
  apply (f_equal (fun l => nth i l (nth 0 s 0%nat))) in H. unfold compose in H. rewrite !(map_nth (fun i => nth i s 0%nat)) in H.
  pose proof (is_perm_NoDup _ _ Hs) as Hn. rewrite (NoDup_nth s 0%nat) in Hn. apply Hn; auto;
    rewrite (is_perm_length n s Hs); [apply (is_perm_lt n)|apply (is_perm_lt n)]; auto; lia.
Qed.

(** Every vector of permutations arises exactly once as [s, s q1, s q2, ...]. *)
Definition relative (l : list (list nat)) : list (list nat) :=
  match l with [] => [] | s :: r => s :: map (compose s) r end.

Lemma map_inj_in {A B} (f : A -> B) l l' : (forall a a', In a l -> In a' l' -> f a = f a' -> a = a') -> map f l = map f l' -> l = l'.
Proof.
  revert l'. induction l as [|a l IH]; intros [|a' l'] Hf H; cbn in H; try discriminate; auto. injection H as H1 H2. f_equal.
  - apply Hf; auto; left; auto.
  - apply IH; auto. intros. apply Hf; auto; right; auto.
Qed.

Lemma NoDup_map_in {A B} (f : A -> B) l : NoDup l -> (forall a a', In a l -> In a' l -> f a = f a' -> a = a') -> NoDup (map f l).
Proof.
  induction 1 as [|a l Ha Hl IH]; intros Hf; cbn; constructor.
  - intros Hin. apply in_map_iff in Hin as (a' & He & Hin). apply Ha. rewrite <- (Hf a' a); auto; [right|left]; auto.
  - apply IH. intros. apply Hf; auto; right; auto.
Qed.

Lemma relative_perm n b : Permutation (map relative (words (S b) (all_perms n))) (words (S b) (all_perms n)).
Proof.
  pose proof (NoDup_words (S b) _ (NoDup_all_perms n)) as Hn.
  apply NoDup_Permutation_bis; [|rewrite map_length; auto|].
  - apply NoDup_map_in; auto. intros l l' H H' He. apply in_words in H as [L I]. apply in_words in H' as [L' I'].
    destruct l as [|s r], l' as [|s' r']; try discriminate. cbn in He. injection He as <- He. f_equal.
    apply map_inj_in in He; auto. intros a a' Ha Ha' Hc. eapply (compose_inj n s); eauto; apply in_all_perms.
    + apply I; left; auto.
    + apply I; right; auto.
    + apply I'; right; auto.
  - intros w Hw. apply in_map_iff in Hw as (l & <- & H). apply in_words in H as [L I]. apply in_words.
    destruct l as [|s r]; [discriminate|]. cbn in *. split; [rewrite map_length; auto|].
    intros q [<-|Hq]; [apply I; left; auto|]. apply in_map_iff in Hq as (q' & <- & Hq'). apply in_all_perms, compose_perm; apply in_all_perms, I; [left|right]; auto.
Qed.

Lemma swap_words {A} (d : A) l b k : NoDup l -> (k <= b)%nat ->
  Permutation (map (swap0 d k) (words (S b) l)) (words (S b) l).
Proof.
  intros Hl Hk. pose proof (NoDup_words (S b) l Hl) as Hn. apply NoDup_Permutation_bis; [|rewrite map_length; auto|].
  - apply NoDup_map_in; auto. intros w w' H H' He. apply in_words in H as [L _]. apply in_words in H' as [L' _].
    rewrite <- (swap0_inv d k w), <- (swap0_inv d k w') by lia. congruence.
  - intros w Hw. apply in_map_iff in Hw as (l' & <- & H). apply in_words in H as [L I]. apply in_words.
    pose proof (swap0_perm d k l' ltac:(lia)) as Hp. split; [rewrite (Permutation_length Hp); auto|].
    intros a Ha. apply I. eapply Permutation_in; eauto.
Qed.

(** [f q]: the statistic of the rearrangement [q] of the data.  Among all choices of the rearrangement of the data and of the
    [b] resampled ones, the tie-free ones with p-value at most [t] are at most a proportion [t] of the tie-free ones. *)
Lemma rearrangements_valid n b (f : list nat -> R) t : 0 <= t ->
  let stats l := map f (relative l) in
  let runs := words (S b) (all_perms n) in
  INR (count_if (fun l => tie_free (stats l) && leb (vector_p (stats l)) t) runs) <= t * INR (count_if (fun l => tie_free (stats l)) runs).
Proof.
  intros Ht stats runs.
  set (W := map (map f) runs).
  assert (forall g : list R -> bool, count_if (fun l => g (stats l)) runs = count_if g W) as HW.
  { intros g. unfold W. rewrite count_if_map. unfold stats.
    rewrite <- (count_if_map relative (fun l => g (map f l)) runs). apply count_if_perm, relative_perm. }
  rewrite (HW (fun w => tie_free w && leb (vector_p w) t)), (HW tie_free). apply (exchangeable_valid b); auto.
  - intros w Hw. unfold W in Hw. apply in_map_iff in Hw as (l & <- & H). apply in_words in H as [L _]. rewrite map_length. auto.
  - intros k Hk. unfold W. set (d := @nil nat).
    assert (map (swap0 0 k) (map (map f) runs) = map (map f) (map (swap0 d k) runs)) as ->.
    { rewrite !map_map. apply map_ext_in. intros l Hin. rewrite swap0_map. apply in_words in Hin as [L _].
      destruct k as [|k]; [reflexivity|]. destruct (map f l) as [|a r] eqn:Hm; [reflexivity|]. cbn. f_equal.
      apply nth_indep. apply (f_equal (@length R)) in Hm. rewrite map_length in Hm. cbn in Hm. lia. }
    apply Permutation_map, swap_words; auto. apply NoDup_all_perms.
Qed.
