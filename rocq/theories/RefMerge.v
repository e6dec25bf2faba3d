(** Refinement: the merge sort of the MERGESORT method computes the weighted inversion
    sums, with every access in range. *)
From Coq Require Import Reals Lra Lia List Arith Bool ZArith Permutation Sorted.
From Verif Require Import Num Numpy MUtils MInternals MMergesort Sums Tab RefDyad.
Import ListNotations.
Local Open Scope R_scope.

(** ** Slices and block writes *)
Section Lists.
  Context {A : Type}.
  Local Open Scope nat_scope.

  Lemma slice_length (l : list A) a b : length (slice l a b) = Nat.min (b - a) (length l - a).
  Proof. unfold slice. rewrite firstn_length, skipn_length. reflexivity. Qed.

  Lemma slice_nil (l : list A) a b : b <= a -> slice l a b = [].
  Proof. intros. unfold slice. replace (b - a) with 0 by lia. reflexivity. Qed.

  Lemma slice_beyond (l : list A) a b : length l <= a -> slice l a b = [].
  Proof. intros. unfold slice. rewrite skipn_all2 by auto. apply firstn_nil. Qed.

  Lemma skipn_cons (l : list A) a d : a < length l -> skipn a l = nth a l d :: skipn (S a) l.
  Proof.
    revert l. induction a; intros l H; destruct l; simpl in *; try lia; auto.
    rewrite IHa by lia. reflexivity.
  Qed.

  Lemma slice_cons (l : list A) a b d : a < b -> a < length l ->
    slice l a b = nth a l d :: slice l (S a) b.
  Proof.
    intros Hab Hl. unfold slice. rewrite (skipn_cons l a d) by auto.
    replace (b - a) with (S (b - S a)) by lia. reflexivity.
  Qed.

  Lemma slice_trim (l : list A) a b : slice l a b = slice l a (Nat.min b (length l)).
  Proof.
    unfold slice. destruct (Nat.le_ge_cases b (length l)).
    - rewrite Nat.min_l by auto. reflexivity.
    - rewrite Nat.min_r by auto. rewrite !firstn_all2; auto; rewrite skipn_length; lia.
  Qed.

  Lemma skipn_skipn a b (l : list A) : skipn a (skipn b l) = skipn (a + b) l.
  Proof.
    revert l. induction b; intros l; [rewrite Nat.add_0_r; reflexivity|].
    rewrite Nat.add_succ_r. destruct l; simpl; [apply skipn_nil|]. apply IHb.
  Qed.

  Lemma slice_split (l : list A) a b c : a <= b -> b <= c ->
    slice l a c = slice l a b ++ slice l b c.
  Proof.
    intros. unfold slice. replace (c - a) with ((b - a) + (c - b)) by lia.
    rewrite <- (firstn_skipn (b - a) (skipn a l)) at 1.
    rewrite firstn_app, firstn_length, skipn_length, skipn_skipn.
    rewrite firstn_firstn. rewrite Nat.min_r by lia.
    replace (b - a + a) with b by lia.
    f_equal. destruct (Nat.le_gt_cases b (length l)).
    - replace (b - a + (c - b) - Nat.min (b - a) (length l - a)) with (c - b) by lia. reflexivity.
    - rewrite !skipn_all2 by lia. rewrite !firstn_nil. reflexivity.
  Qed.

  Lemma slice_all (l : list A) n : length l <= n -> slice l 0 n = l.
  Proof. intros. unfold slice. simpl. rewrite Nat.sub_0_r. apply firstn_all2. lia. Qed.

  Definition write (i : nat) (o cur : list A) : list A :=
    firstn i cur ++ o ++ skipn (i + length o) cur.

  Lemma write_length i o cur : i + length o <= length cur -> length (write i o cur) = length cur.
  Proof.
    intros. unfold write. rewrite !app_length, firstn_length, skipn_length. lia.
  Qed.

  Lemma write_nil i cur : write i [] cur = cur.
  Proof. unfold write. simpl. rewrite Nat.add_0_r. apply firstn_skipn. Qed.

  Lemma upd_write (cur : list A) i v : i < length cur -> upd cur i v = write i [v] cur.
  Proof.
    unfold write. revert i. induction cur as [|a cur IH]; intros i H; simpl in *; [lia|].
    destruct i; simpl; [reflexivity|]. f_equal. rewrite IH by lia. reflexivity.
  Qed.

  Lemma write_write i o o' (cur : list A) : i + length o + length o' <= length cur ->
    write (i + length o) o' (write i o cur) = write i (o ++ o') cur.
  Proof.
    intros H. unfold write at 1.
    assert (firstn (i + length o) (write i o cur) = firstn i cur ++ o) as ->.
    { unfold write. rewrite app_assoc.
      replace (i + length o) with (length (firstn i cur ++ o))
        by (rewrite app_length, firstn_length; lia).
      rewrite firstn_app, Nat.sub_diag, firstn_all. simpl. apply app_nil_r. }
    assert (skipn (i + length o + length o') (write i o cur) = skipn (i + length (o ++ o')) cur) as ->.
    { unfold write. rewrite app_assoc, skipn_app.
      rewrite (skipn_all2 (firstn i cur ++ o)) by (rewrite app_length, firstn_length; lia).
      simpl. rewrite skipn_skipn. f_equal. rewrite !app_length, firstn_length. lia. }
    unfold write. rewrite <- !app_assoc. reflexivity.
  Qed.

  Lemma write_firstn i o (cur : list A) : i + length o <= length cur ->
    firstn (i + length o) (write i o cur) = firstn i cur ++ o.
  Proof.
    intros. unfold write. rewrite app_assoc.
    replace (i + length o) with (length (firstn i cur ++ o)) at 1
      by (rewrite app_length, firstn_length; lia).
    rewrite firstn_app, Nat.sub_diag, firstn_all. simpl. apply app_nil_r.
  Qed.
End Lists.

(** ** The functional merge *)
Section Merge.
  Variable Y : nat -> R.

  (** Merge two lists of positions by decreasing value; ties take the left one. *)
  Fixpoint mrg (l1 : list nat) : list nat -> list nat :=
    match l1 with
    | [] => fun l2 => l2
    | a :: l1' =>
        fix aux (l2 : list nat) : list nat :=
          match l2 with
          | [] => a :: l1'
          | b :: l2' => if Rleb (Y b) (Y a) then a :: mrg l1' l2 else b :: aux l2'
          end
    end.

  (** The updates of the merge: an element of the right list with what remains of the left. *)
  Fixpoint madd (l1 : list nat) : list nat -> list (nat * list nat) :=
    match l1 with
    | [] => fun _ => []
    | a :: l1' =>
        fix aux (l2 : list nat) : list (nat * list nat) :=
          match l2 with
          | [] => []
          | b :: l2' => if Rleb (Y b) (Y a) then madd l1' l2 else (b, a :: l1') :: aux l2'
          end
    end.

  Lemma mrg_cons a l1 b l2 :
    mrg (a :: l1) (b :: l2)
    = if Rleb (Y b) (Y a) then a :: mrg l1 (b :: l2) else b :: mrg (a :: l1) l2.
  Proof. reflexivity. Qed.
  Lemma madd_cons a l1 b l2 :
    madd (a :: l1) (b :: l2)
    = if Rleb (Y b) (Y a) then madd l1 (b :: l2) else (b, a :: l1) :: madd (a :: l1) l2.
  Proof. reflexivity. Qed.
  Lemma mrg_nil_r l1 : mrg l1 [] = l1.
  Proof. destruct l1; reflexivity. Qed.
  Lemma madd_nil_r l1 : madd l1 [] = [].
  Proof. destruct l1; reflexivity. Qed.

  Definition desc (l : list nat) : Prop := StronglySorted (fun a b => Y b <= Y a) l.

  Lemma mrg_perm l1 l2 : Permutation (mrg l1 l2) (l1 ++ l2).
  Proof.
    revert l2. induction l1 as [|a l1 IH1]; intros l2; [reflexivity|].
    induction l2 as [|b l2 IH2]; [rewrite app_nil_r; reflexivity|].
    rewrite mrg_cons. destruct (Rleb (Y b) (Y a)).
    - simpl. constructor. apply IH1.
    - rewrite IH2. apply (Permutation_middle (a :: l1) l2 b).
  Qed.

  Lemma mrg_length l1 l2 : length (mrg l1 l2) = (length l1 + length l2)%nat.
  Proof. rewrite (Permutation_length (mrg_perm l1 l2)), app_length. reflexivity. Qed.

  Lemma mrg_desc l1 l2 : desc l1 -> desc l2 -> desc (mrg l1 l2).
  Proof.
    revert l2. induction l1 as [|a l1 IH1]; intros l2 H1 H2; [exact H2|].
    induction l2 as [|b l2 IH2]; [rewrite mrg_nil_r; exact H1|].
    rewrite mrg_cons. inversion H1 as [|? ? H1s H1f]; subst. inversion H2 as [|? ? H2s H2f]; subst.
    rewrite Forall_forall in H1f, H2f.
    destruct (Rleb_spec (Y b) (Y a)) as [Hle|Hgt].
    - constructor; [apply IH1; auto|]. apply Forall_forall. intros c Hc.
      apply (Permutation_in _ (mrg_perm _ _)) in Hc. apply in_app_or in Hc.
      destruct Hc as [Hc|[<-|Hc]]; auto. pose proof (H2f c Hc). lra.
    - constructor; [apply IH2; auto|]. apply Forall_forall. intros c Hc.
      apply (Permutation_in _ (mrg_perm _ _)) in Hc. apply in_app_or in Hc.
      destruct Hc as [[<-|Hc]|Hc]; auto; [lra|]. pose proof (H1f c Hc). lra.
  Qed.

  (** Total added to position [i] for the weight [w]. *)
  Definition contrib (w : nat -> R) (i : nat) (m : list (nat * list nat)) : R :=
    lsum (map (fun br => zsel (i =? fst br)%nat (lsum (map w (snd br)))) m).

  Lemma madd_In l1 l2 br : In br (madd l1 l2) -> In (fst br) l2.
  Proof.
    revert l2. induction l1 as [|a l1 IH1]; intros l2; [intros []|].
    induction l2 as [|b l2 IH2]; [rewrite madd_nil_r; intros []|].
    rewrite madd_cons. destruct (Rleb (Y b) (Y a)).
    - intros H. apply IH1; auto.
    - intros [<-|H]; [left; reflexivity|right; auto].
  Qed.

  Lemma contrib_notin w i l1 l2 : ~ In i l2 -> contrib w i (madd l1 l2) = 0.
  Proof.
    intros H. unfold contrib.
    assert (forall br, In br (madd l1 l2) -> fst br <> i) as Hne.
    { intros br Hbr He. apply H. rewrite <- He. eapply madd_In; eauto. }
    induction (madd l1 l2) as [|br m IH]; simpl; auto.
    rewrite IH by (intros; apply Hne; right; auto).
    destruct (Nat.eqb_spec i (fst br)) as [He|]; [|simpl; ring].
    exfalso. apply (Hne br); [left; auto|auto].
  Qed.

  Lemma contrib_in w i l1 l2 : desc l1 -> desc l2 -> NoDup l2 -> In i l2 ->
    contrib w i (madd l1 l2) = lsum (map (fun j => zsel (Rltb (Y j) (Y i)) (w j)) l1).
  Proof.
    revert l2. induction l1 as [|a l1 IH1]; intros l2 H1 H2 Hnd Hi; [reflexivity|].
    induction l2 as [|b l2 IH2]; [destruct Hi|].
    rewrite madd_cons. inversion H1 as [|? ? H1s H1f]; subst. inversion H2 as [|? ? H2s H2f]; subst.
    inversion Hnd as [|? ? Hnb Hnd']; subst.
    assert (Y i <= Y b) as Hib.
    { rewrite Forall_forall in H2f. destruct Hi as [<-|Hi]; [lra|auto]. }
    destruct (Rleb_spec (Y b) (Y a)) as [Hle|Hgt].
    - rewrite IH1 by auto. simpl. destruct (Rltb_spec (Y a) (Y i)); [lra|]. simpl. ring.
    - unfold contrib. rewrite map_cons. cbn [lsum fold_right fst snd].
      fold (lsum (map (fun br => zsel (i =? fst br)%nat (lsum (map w (snd br)))) (madd (a :: l1) l2))).
      fold (contrib w i (madd (a :: l1) l2)).
      destruct (Nat.eqb_spec i b) as [->|Hne].
      + rewrite contrib_notin by auto. cbn [zsel]. rewrite Rplus_0_r.
        assert (forall l, (forall j, In j l -> Y j < Y b) ->
          lsum (map w l) = lsum (map (fun j => zsel (Rltb (Y j) (Y b)) (w j)) l)) as Hall.
        { induction l as [|j l IHl]; simpl; intros Hj; auto.
          rewrite <- IHl by auto. destruct (Rltb_spec (Y j) (Y b)) as [|Hn]; auto.
          exfalso; apply Hn; auto. }
        apply Hall. intros j [<-|Hj]; [lra|]. rewrite Forall_forall in H1f.
        pose proof (H1f j Hj). lra.
      + cbn [zsel]. rewrite Rplus_0_l. apply IH2; auto. destruct Hi; [congruence|auto].
  Qed.
End Merge.

(** ** The merge loop of the code *)
Ltac ms_eq :=
  match goal with
  | |- Ok (_, _, mkMS ?a ?b ?c) = Ok (_, _, mkMS ?a' ?b' ?c') =>
      assert (a = a'); [|assert (b = b'); [|assert (c = c'); [|congruence]]]
  | |- Ok (mkMS ?a ?b ?c) = Ok (mkMS ?a' ?b' ?c') =>
      assert (a = a'); [|assert (b = b'); [|assert (c = c'); [|congruence]]]
  end.

Section Loop.
  Variables (E : Env R) (oob : exn).
  Hypothesis HN : e_num E = RNum.
  Variables (n : nat) (Y : nat -> R) (Ws : list (nat -> R)).

  (** [weight_sums], for one function of weight and position per variable. *)
  Definition wsrows (F : (nat -> R) -> nat -> R) : list (list R) := map (fun w => tab n (F w)) Ws.

  Lemma wsrows_ext F G : (forall w i, (i < n)%nat -> F w i = G w i) -> wsrows F = wsrows G.
  Proof. intros H. apply map_ext. intros w. apply tab_ext. intros i Hi. auto. Qed.

  Definition cumf (prev : list nat) (w : nat -> R) (q : nat) : R :=
    rsum q (fun k => w (nth k prev 0%nat)).

  Definition cumrows (prev : list nat) : list (list R) :=
    map (fun w => tab (S n) (cumf prev w)) Ws.

  Lemma slice_lsum prev w a b : (a <= b)%nat -> (b <= length prev)%nat ->
    cumf prev w b - cumf prev w a = lsum (map w (slice prev a b)).
  Proof.
    intros Hab Hb. unfold cumf. replace b with (a + (b - a))%nat by lia.
    rewrite rsum_app. set (k := (b - a)%nat).
    assert (slice prev a (a + k) = tab k (fun i => nth (a + i) prev 0%nat)) as ->.
    { apply (list_tab_eq 0%nat).
      - rewrite slice_length. lia.
      - intros i Hi. unfold slice. replace (a + k - a)%nat with k by lia.
        rewrite <- (firstn_skipn a prev) at 2.
        rewrite app_nth2; rewrite firstn_length; [|lia].
        replace (a + i - Nat.min a (length prev))%nat with i by lia.
        rewrite <- (firstn_skipn k (skipn a prev)) at 2.
        rewrite app_nth1; [reflexivity|]. rewrite firstn_length, skipn_length. lia. }
    rewrite tab_map, <- np_sum_lsum, np_sum_tab. ring.
  Qed.

  Lemma rd_ok {A} (l : list A) i d : (i < length l)%nat -> rd oob l i = Ok (nth i l d).
  Proof. intros. unfold rd. rewrite (nth_error_nth' l d) by auto. reflexivity. Qed.

  Lemma upd_tab {A} m (f : nat -> A) p v : (p < m)%nat ->
    upd (tab m f) p v = tab m (fun i => if (i =? p)%nat then v else f i).
  Proof.
    intros. apply (list_tab_eq v).
    - rewrite upd_length, tab_length. reflexivity.
    - intros i Hi. rewrite upd_nth by (rewrite tab_length; auto).
      destruct (i =? p)%nat; auto. apply tab_nth; auto.
  Qed.

  Lemma add_weights_ok prev F p hi lo : (p < n)%nat -> (hi <= n)%nat -> (lo <= hi)%nat ->
    length prev = n ->
    add_weights E oob p hi lo (wsrows F) (cumrows prev)
    = Ok (wsrows (fun w i => F w i + zsel (i =? p)%nat (lsum (map w (slice prev lo hi))))).
  Proof.
    intros Hp Hhi Hlo Hlen. unfold wsrows, cumrows.
    induction Ws as [|w Ws' IH]; simpl; auto.
    unfold add_weight. rewrite (rd_ok _ _ 0), tab_nth by (rewrite ?tab_length; lia). cbn [rbind].
    rewrite (rd_ok _ _ 0), tab_nth by (rewrite ?tab_length; lia). cbn [rbind].
    rewrite (rd_ok _ _ 0), tab_nth by (rewrite ?tab_length; lia). cbn [rbind].
    rewrite IH. cbn [rbind]. do 2 f_equal. rewrite upd_tab by auto.
    apply tab_ext. intros i Hi. rewrite HN. cbn [nadd nsub RNum].
    rewrite slice_lsum by lia. destruct (Nat.eqb_spec i p) as [->|]; unfold zsel; ring.
  Qed.

  Lemma merge_loop_ok prev : length prev = n -> (forall i, In i prev -> (i < n)%nat) ->
    forall fuel s1 last1 s2 last2 l1 l2 cur idx F,
    l1 = slice prev s1 (S last1) -> l2 = slice prev s2 (S last2) ->
    (S last1 <= n)%nat -> (S last2 <= n)%nat ->
    (length l1 + length l2 <= fuel)%nat ->
    (idx + length l1 + length l2 <= length cur)%nat ->
    exists s1' s2' o,
      merge_loop E oob true fuel (tab n Y) prev (cumrows prev) s1 last1 s2 last2
        (mkMS cur idx (wsrows F))
      = Ok (s1', s2', mkMS (write idx o cur) (idx + length o)
              (wsrows (fun w i => F w i + contrib w i (madd Y l1 l2)))) /\
      mrg Y l1 l2 = o ++ slice prev s1' (S last1) ++ slice prev s2' (S last2) /\
      ((last1 < s1')%nat \/ (last2 < s2')%nat).
  Proof.
    intros Hlen Hin. induction fuel as [|fuel IH];
      intros s1 last1 s2 last2 l1 l2 cur idx F H1 H2 Hn1 Hn2 Hf Hc.
    - assert (l1 = [] /\ l2 = []) as [E1 E2]
        by (destruct l1, l2; simpl in Hf; try lia; auto).
      exists s1, s2, []. cbn [merge_loop].
      assert ((s1 <=? last1)%nat = false) as Hs1.
      { apply Nat.leb_gt. destruct (Nat.lt_ge_cases last1 s1); auto. exfalso.
        rewrite (slice_cons _ _ _ 0%nat) in H1 by lia. congruence. }
      rewrite Hs1. cbn [andb]. rewrite write_nil, Nat.add_0_r. rewrite <- H1, <- H2, E1, E2.
      split; [|split; [reflexivity|left; apply Nat.leb_gt; auto]].
      match goal with |- Ok (_, _, mkMS _ _ ?a) = Ok (_, _, mkMS _ _ ?b) => replace b with a; [reflexivity|] end.
      apply wsrows_ext. intros w i _. unfold contrib. simpl. ring.
    - cbn [merge_loop].
      destruct (Nat.leb_spec s1 last1) as [Hs1|Hs1]; cbn [andb].
      2:{ exists s1, s2, []. rewrite write_nil, Nat.add_0_r. rewrite <- H1, <- H2.
          assert (l1 = []) as -> by (rewrite H1; apply slice_nil; lia).
          split; [|split; [reflexivity|left; lia]].
          match goal with |- Ok (_, _, mkMS _ _ ?a) = Ok (_, _, mkMS _ _ ?b) => replace b with a; [reflexivity|] end.
      apply wsrows_ext. intros w i _. unfold contrib. simpl. ring. }
      destruct (Nat.leb_spec s2 last2) as [Hs2|Hs2].
      2:{ exists s1, s2, []. rewrite write_nil, Nat.add_0_r. rewrite <- H1, <- H2.
          assert (l2 = []) as -> by (rewrite H2; apply slice_nil; lia).
          rewrite mrg_nil_r, madd_nil_r, app_nil_r.
          split; [|split; [reflexivity|right; lia]].
          match goal with |- Ok (_, _, mkMS _ _ ?a) = Ok (_, _, mkMS _ _ ?b) => replace b with a; [reflexivity|] end.
      apply wsrows_ext. intros w i _. unfold contrib. simpl. ring. }
      rewrite (rd_ok prev s1 0%nat) by lia. cbn [rbind].
      rewrite (rd_ok prev s2 0%nat) by lia. cbn [rbind].
      set (p1 := nth s1 prev 0%nat). set (p2 := nth s2 prev 0%nat).
      assert (p1 < n)%nat as Hp1 by (apply Hin, nth_In; lia).
      assert (p2 < n)%nat as Hp2 by (apply Hin, nth_In; lia).
      rewrite (rd_ok (tab n Y) p1 0), tab_nth by (rewrite ?tab_length; auto). cbn [rbind].
      rewrite (rd_ok (tab n Y) p2 0), tab_nth by (rewrite ?tab_length; auto). cbn [rbind].
      rewrite HN. cbn [nleb RNum].
      assert (l1 = p1 :: slice prev (S s1) (S last1)) as H1'
        by (rewrite H1; apply slice_cons; lia).
      assert (l2 = p2 :: slice prev (S s2) (S last2)) as H2'
        by (rewrite H2; apply slice_cons; lia).
      set (m1 := slice prev (S s1) (S last1)) in *. set (m2 := slice prev (S s2) (S last2)) in *.
      rewrite H1', H2' in Hf, Hc. cbn [length] in Hf, Hc.
      destruct (Rleb (Y p2) (Y p1)) eqn:Hcmp.
      + unfold push. cbn [ms_idx ms_cur ms_ws].
        assert ((idx <? length cur)%nat = true) as -> by (apply Nat.ltb_lt; lia).
        cbn [rbind]. rewrite upd_write by lia.
        destruct (IH (S s1) last1 s2 last2 m1 l2 (write idx [p1] cur) (S idx) F)
          as (s1' & s2' & o & R1 & R2 & R3); auto.
        { rewrite H2'; cbn [length]; lia. }
        { rewrite write_length by (simpl; lia). rewrite H2'; cbn [length]; lia. }
        exists s1', s2', (p1 :: o). split; [|split; [|exact R3]].
        * rewrite R1. ms_eq.
          -- replace (S idx) with (idx + length [p1])%nat by (simpl; lia).
             rewrite write_write; [reflexivity|]. simpl length.
             pose proof (f_equal (@length nat) R2) as HL. rewrite mrg_length, !app_length in HL.
             rewrite H2' in HL. cbn [length] in HL. lia.
          -- simpl. lia.
          -- apply wsrows_ext. intros w i _. do 2 f_equal. rewrite H2'. rewrite H1', madd_cons, Hcmp. reflexivity.
        * rewrite H1', H2', mrg_cons, Hcmp. rewrite <- H2', R2. reflexivity.
      + replace (last1 + 1)%nat with (S last1) by lia.
        cbn [ms_idx ms_cur ms_ws]. rewrite add_weights_ok by (auto; lia). cbn [rbind].
        unfold push. cbn [ms_idx ms_cur ms_ws].
        assert ((idx <? length cur)%nat = true) as -> by (apply Nat.ltb_lt; lia).
        cbn [rbind]. rewrite upd_write by lia. rewrite <- H1.
        destruct (IH s1 last1 (S s2) last2 l1 m2 (write idx [p2] cur) (S idx)
                    (fun w i => F w i + zsel (i =? p2)%nat (lsum (map w l1))))
          as (s1' & s2' & o & R1 & R2 & R3); auto.
        { rewrite H1'; cbn [length]; lia. }
        { rewrite write_length by (simpl; lia). rewrite H1'; cbn [length]; lia. }
        exists s1', s2', (p2 :: o). split; [|split; [|exact R3]].
        * rewrite R1. ms_eq.
          -- replace (S idx) with (idx + length [p2])%nat by (simpl; lia).
             rewrite write_write; [reflexivity|]. simpl length.
             pose proof (f_equal (@length nat) R2) as HL. rewrite mrg_length, !app_length in HL.
             rewrite H1' in HL. cbn [length] in HL. lia.
          -- simpl. lia.
          -- apply wsrows_ext. intros w i _.
             rewrite H2'. rewrite H1' at 3. rewrite madd_cons, Hcmp. rewrite <- H1'.
             unfold contrib at 2. simpl. unfold contrib. ring.
        * rewrite H2'. rewrite H1' at 1. rewrite mrg_cons, Hcmp. rewrite <- H1', R2. reflexivity.
  Qed.

  Lemma copy_slice_ok prev lo k cur idx F : (lo + k <= length prev)%nat ->
    (idx + k <= length cur)%nat ->
    copy_slice prev lo k (mkMS cur idx F)
    = Ok (mkMS (write idx (slice prev lo (lo + k)) cur) (idx + k) F : mstate (T:=R)).
  Proof.
    intros H1 H2. unfold copy_slice. cbn [ms_idx ms_cur ms_ws].
    rewrite slice_length. replace (Nat.min (lo + k - lo) (length prev - lo)) with k by lia.
    rewrite Nat.eqb_refl. assert ((idx + k <=? length cur)%nat = true) as -> by (apply Nat.leb_le; auto).
    cbn [andb]. unfold write. rewrite slice_length.
    replace (Nat.min (lo + k - lo) (length prev - lo)) with k by lia. reflexivity.
  Qed.

  (** One pair of blocks. *)
  Lemma merge_pair_ok prev len p cur F : length prev = n -> (forall i, In i prev -> (i < n)%nat) ->
    (1 <= len)%nat -> (p < n)%nat -> length cur = n ->
    let l1 := slice prev p (p + len) in
    let l2 := slice prev (p + len) (p + 2 * len) in
    merge_pair E oob true n len (tab n Y) prev (cumrows prev) (mkMS cur p (wsrows F)) p
    = Ok (mkMS (write p (mrg Y l1 l2) cur) (Nat.min (p + 2 * len) n)
            (wsrows (fun w i => F w i + contrib w i (madd Y l1 l2)))).
  Proof.
    intros Hlen Hin Hl Hp Hcur l1 l2. unfold merge_pair.
    set (last1 := Nat.min (p + len - 1) (n - 1)). set (last2 := Nat.min (p + len + len - 1) (n - 1)).
    assert (S last1 = Nat.min (p + len) n) as HL1 by (unfold last1; lia).
    assert (S last2 = Nat.min (p + 2 * len) n) as HL2 by (unfold last2; lia).
    assert (l1 = slice prev p (S last1)) as E1
      by (unfold l1; rewrite slice_trim, HL1, Hlen; reflexivity).
    assert (l2 = slice prev (p + len) (S last2)) as E2
      by (unfold l2; rewrite slice_trim, HL2, Hlen; reflexivity).
    assert (length l1 = (Nat.min (p + len) n - p)%nat) as N1
      by (unfold l1; rewrite slice_length; lia).
    assert (length l2 = (Nat.min (p + 2 * len) n - (p + len))%nat) as N2
      by (unfold l2; rewrite slice_length; lia).
    destruct (merge_loop_ok prev Hlen Hin (2 * len) p last1 (p + len) last2 l1 l2 cur p F)
      as (s1' & s2' & o & R1 & R2 & R3); auto; try lia.
    rewrite R1. cbn [rbind]. clear R1.
    pose proof (f_equal (@length nat) R2) as HL. rewrite mrg_length, !app_length, !slice_length, Hlen in HL.
    clear E1 E2. clearbody l1 l2 last1 last2.
    assert (S last1 <= n)%nat as N5 by (rewrite HL1; apply Nat.le_min_r).
    assert (S last2 <= n)%nat as N6 by (rewrite HL2; apply Nat.le_min_r).
    rewrite (Nat.min_l (S last1 - s1')) in HL by (apply Nat.sub_le_mono_r; exact N5).
    rewrite (Nat.min_l (S last2 - s2')) in HL by (apply Nat.sub_le_mono_r; exact N6).
    assert (p + length l1 + length l2 = Nat.min (p + 2 * len) n)%nat as N7
      by (rewrite N1, N2; clear - Hp Hl; lia).
    assert (p + length l1 + length l2 <= n)%nat as N4 by (rewrite N7; apply Nat.le_min_r).
    clear N1 N2.
    rewrite <- N7. clear N7 HL1 HL2.
    destruct (Nat.leb_spec s1' last1) as [Hs1|Hs1].
    - assert (last2 < s2')%nat by lia.
      rewrite (slice_nil prev s2') in R2 by lia. rewrite app_nil_r in R2.
      rewrite copy_slice_ok; [|lia|].
      + replace (s1' + (last1 - s1' + 1))%nat with (S last1) by lia.
        assert (length (slice prev s1' (S last1)) = S last1 - s1')%nat as Hsl
          by (rewrite slice_length; lia).
        rewrite write_write, <- R2; [|rewrite Hsl; lia].
        ms_eq; auto. lia.
      + rewrite write_length; lia.
    - rewrite (slice_nil prev s1') in R2 by lia. cbn [app] in R2.
      destruct (Nat.leb_spec s2' last2) as [Hs2|Hs2].
      + rewrite copy_slice_ok; [|lia|].
        * replace (s2' + (last2 - s2' + 1))%nat with (S last2) by lia.
          assert (length (slice prev s2' (S last2)) = S last2 - s2')%nat as Hsl
            by (rewrite slice_length; lia).
          rewrite write_write, <- R2; [|rewrite Hsl; lia].
          ms_eq; auto. lia.
        * rewrite write_length; lia.
      + rewrite (slice_nil prev s2') in R2 by lia. rewrite app_nil_r in R2. rewrite R2.
        ms_eq; auto. lia.
  Qed.

  (** All the pairs of a pass. *)
  Section Pass.
    Variables (prev : list nat) (len : nat).
    Hypothesis Hlen : length prev = n.
    Hypothesis Hin : forall i, In i prev -> (i < n)%nat.
    Hypothesis Hl : (1 <= len)%nat.

    Definition left_blk (b : nat) := slice prev (b * (2 * len)) (b * (2 * len) + len).
    Definition right_blk (b : nat) := slice prev (b * (2 * len) + len) (b * (2 * len) + 2 * len).
    Definition out_blk (b : nat) := mrg Y (left_blk b) (right_blk b).

    Lemma out_blk_length b : length (out_blk b) = Nat.min (2 * len) (n - b * (2 * len)).
    Proof.
      unfold out_blk. rewrite mrg_length. unfold left_blk, right_blk. rewrite !slice_length. lia.
    Qed.

    Lemma merge_pairs_ok k b cur F : length cur = n ->
      (forall j, (j < k)%nat -> ((b + j) * (2 * len) < n)%nat) ->
      exists cur',
      merge_pairs E oob true n len (tab n Y) prev (cumrows prev)
        (tab k (fun j => (b + j) * (2 * len))%nat) (mkMS cur (Nat.min (b * (2 * len)) n) (wsrows F))
      = Ok (mkMS cur' (Nat.min ((b + k) * (2 * len)) n)
              (wsrows (fun w i => F w i + rsum k (fun j => contrib w i (madd Y (left_blk (b + j)) (right_blk (b + j))))))) /\
      length cur' = n /\
      firstn (Nat.min ((b + k) * (2 * len)) n) cur'
      = firstn (Nat.min (b * (2 * len)) n) cur ++ concat (tab k (fun j => out_blk (b + j))).
    Proof.
      revert b cur F. induction k; intros b cur F Hcur Hb.
      - exists cur. cbn [tab seq map merge_pairs concat]. rewrite Nat.add_0_r, app_nil_r.
        split; [|auto].
        match goal with |- Ok (mkMS _ _ ?a) = Ok (mkMS _ _ ?b) => replace b with a; [reflexivity|] end.
        apply wsrows_ext. intros w i _. simpl. ring.
      - rewrite tab_S. cbn [merge_pairs].
        assert (b * (2 * len) < n)%nat as Hbn
          by (specialize (Hb 0%nat ltac:(lia)); rewrite Nat.add_0_r in Hb; exact Hb).
        rewrite Nat.add_0_r. rewrite (Nat.min_l (b * (2 * len)) n) by lia.
        rewrite merge_pair_ok by auto. cbn [rbind].
        fold (left_blk b) (right_blk b) (out_blk b).
        pose proof (out_blk_length b) as HLb.
        set (F1 := fun w i => F w i + contrib w i (madd Y (left_blk b) (right_blk b))).
        destruct (IHk (S b) (write (b * (2 * len)) (out_blk b) cur) F1) as (cur' & R1 & R2 & R3).
        { rewrite write_length; lia. }
        { intros j Hj. replace (S b + j)%nat with (b + S j)%nat by lia. apply Hb. lia. }
        exists cur'. split; [|split; [exact R2|]].
        + replace (b * (2 * len) + 2 * len)%nat with (S b * (2 * len))%nat by lia.
          rewrite (tab_ext k (fun i => (b + S i) * (2 * len))%nat (fun j => (S b + j) * (2 * len))%nat)
            by (intros; f_equal; lia).
          rewrite R1. ms_eq; [reflexivity|f_equal; lia|].
          apply wsrows_ext. intros w i _.
          unfold F1. rewrite rsum_S_l, Nat.add_0_r, Rplus_assoc. do 2 f_equal.
          apply rsum_ext; intros. replace (S b + i0)%nat with (b + S i0)%nat by lia. reflexivity.
        + replace (b + S k)%nat with (S b + k)%nat by lia. rewrite R3.
          rewrite tab_S. cbn [concat]. rewrite Nat.add_0_r, app_assoc. f_equal.
          * replace (Nat.min (S b * (2 * len)) n) with (b * (2 * len) + length (out_blk b))%nat
              by (rewrite HLb; lia).
            apply write_firstn. lia.
          * f_equal. apply tab_ext; intros. f_equal. lia.
    Qed.

    Definition npairs : nat := (n + 2 * len - 1) / (2 * len).

    Lemma npairs_spec b : (b < npairs <-> b * (2 * len) < n)%nat.
    Proof.
      clear - Hl. unfold npairs. split; intros H.
      - pose proof (Nat.mul_div_le (n + 2 * len - 1) (2 * len) ltac:(lia)).
        assert ((b + 1) * (2 * len) <= n + 2 * len - 1)%nat by nia. nia.
      - apply Nat.div_le_lower_bound; lia.
    Qed.

    Lemma pass_ok cur F : length cur = n ->
      merge_pairs E oob true n len (tab n Y) prev (cumrows prev) (range_step n (2 * len))
        (mkMS cur 0 (wsrows F))
      = Ok (mkMS (concat (tab npairs out_blk)) n
              (wsrows (fun w i => F w i +
                 rsum npairs (fun b => contrib w i (madd Y (left_blk b) (right_blk b)))))).
    Proof.
      intros Hcur. unfold range_step. fold npairs. fold (tab npairs (fun k => (k * (2 * len))%nat)).
      destruct (merge_pairs_ok npairs 0 cur F Hcur) as (cur' & R1 & R2 & R3).
      { intros j Hj. apply npairs_spec. auto. }
      cbn [Nat.add] in R1, R3. simpl (0 * _)%nat in R1, R3. cbn [Nat.min] in R1, R3.
      rewrite R1.
      assert (Nat.min (npairs * (2 * len)) n = n) as Hm.
      { destruct (Nat.lt_ge_cases (npairs * (2 * len)) n) as [H|H]; [|lia].
        apply npairs_spec in H. lia. }
      rewrite Hm in *. rewrite firstn_all2 in R3 by lia. rewrite R3. reflexivity.
    Qed.
  End Pass.

  Lemma slice_concat_tab K g (f : nat -> list nat) b :
    (b < K)%nat -> (forall j, (S j < K)%nat -> length (f j) = g) -> (forall j, (length (f j) <= g)%nat) ->
    slice (concat (tab K f)) (b * g) (b * g + g) = f b.
  Proof.
    intros Hb Hlen Hle.
    assert (forall k, (k < K)%nat -> length (concat (tab k f)) = (k * g)%nat) as Hc.
    { induction k; intros Hk; [reflexivity|]. rewrite tab_snoc, concat_app, app_length, IHk by lia.
      simpl. rewrite app_nil_r, Hlen by lia. lia. }
    replace K with (b + (1 + (K - b - 1)))%nat by lia.
    rewrite tab_app, (tab_app 1), !concat_app. unfold tab at 2. simpl. rewrite app_nil_r, Nat.add_0_r.
    unfold slice. replace (b * g + g - b * g)%nat with g by lia.
    rewrite skipn_app, Hc, Nat.sub_diag by auto. rewrite skipn_all2 by (rewrite Hc; auto).
    simpl. rewrite firstn_app. rewrite firstn_all2 by auto.
    destruct (Nat.eq_dec (S b) K) as [He|Hne].
    - replace (K - b - 1)%nat with 0%nat by lia. simpl. rewrite firstn_nil, app_nil_r. reflexivity.
    - rewrite Hlen by lia. rewrite Nat.sub_diag. simpl. apply app_nil_r.
  Qed.

  (** ** The invariant of the passes *)

  Definition blocks_ok (len : nat) (prev : list nat) : Prop :=
    length prev = n /\
    forall b, (b * len < n)%nat ->
      Permutation (slice prev (b * len) (b * len + len)) (seq (b * len) (Nat.min len (n - b * len))) /\
      desc Y (slice prev (b * len) (b * len + len)).

  (** Inversions inside the blocks of length [len]. *)
  Definition inv_sum (len : nat) (w : nat -> R) (i : nat) : R :=
    rsum i (fun j => zsel ((j / len =? i / len)%nat && Rltb (Y j) (Y i)) (w j)).

  Lemma blocks_In len prev : (1 <= len)%nat -> blocks_ok len prev ->
    forall i, In i prev -> (i < n)%nat.
  Proof.
    intros Hl [Hlen Hb] i Hi. destruct (In_nth prev i 0%nat Hi) as (q & Hq & <-).
    set (b := (q / len)%nat).
    pose proof (Nat.div_mod q len ltac:(lia)) as Hdm. pose proof (Nat.mod_upper_bound q len ltac:(lia)).
    fold b in Hdm.
    assert (b * len < n)%nat as Hbn by nia.
    destruct (Hb b Hbn) as [Hp _].
    assert (In (nth q prev 0%nat) (slice prev (b * len) (b * len + len))) as Hs.
    { rewrite (slice_split prev (b * len) q) by nia. apply in_or_app. right.
      rewrite (slice_cons _ _ _ 0%nat) by nia. left; auto. }
    apply (Permutation_in _ Hp) in Hs. apply in_seq in Hs. lia.
  Qed.

  Lemma zsel_add a b c : (a && b = false)%bool -> zsel a c + zsel b c = zsel (a || b) c.
  Proof. destruct a, b; simpl; intros; try discriminate; ring. Qed.

  Lemma lsum_perm_seq f a k l : Permutation l (seq a k) ->
    lsum (map f l) = rsum k (fun j => f (a + j)%nat).
  Proof.
    intros H. rewrite (lsum_perm _ _ (Permutation_map f H)). apply lsum_map_seq.
  Qed.

  Lemma rsum_window a k m (P : nat -> bool) w : (a + k <= m)%nat ->
    rsum k (fun j => zsel (P (a + j)%nat) (w (a + j)%nat))
    = rsum m (fun j => zsel (((a <=? j) && (j <? a + k))%nat && P j) (w j)).
  Proof.
    intros H. replace m with (a + (k + (m - a - k)))%nat by lia.
    rewrite !rsum_app. rewrite (rsum_zero a), (rsum_zero (m - a - k)).
    - rewrite Rplus_0_l, Rplus_0_r. apply rsum_ext. intros j Hj.
      assert (((a <=? a + j) && (a + j <? a + k))%nat = true) as ->
        by (apply andb_true_iff; split; [apply Nat.leb_le|apply Nat.ltb_lt]; lia).
      reflexivity.
    - intros j Hj. assert ((a + (k + j) <? a + k)%nat = false) as -> by (apply Nat.ltb_ge; lia).
      rewrite andb_false_r. reflexivity.
    - intros j Hj. assert ((a <=? j)%nat = false) as -> by (apply Nat.leb_gt; lia). reflexivity.
  Qed.

  Lemma pass_inv prev len : (1 <= len)%nat -> blocks_ok len prev ->
    blocks_ok (2 * len) (concat (tab (npairs len) (out_blk prev len))) /\
    forall w i, (i < n)%nat ->
      inv_sum len w i
      + rsum (npairs len) (fun b => contrib w i (madd Y (left_blk prev len b) (right_blk prev len b)))
      = inv_sum (2 * len) w i.
  Proof.
    intros Hl [Hlen Hb].
    (* the two halves of a pair *)
    assert (forall b, (b * (2 * len) < n)%nat ->
      Permutation (left_blk prev len b) (seq (b * (2 * len)) (Nat.min len (n - b * (2 * len)))) /\
      desc Y (left_blk prev len b)) as HL.
    { intros b H. specialize (Hb (b * 2)%nat). unfold left_blk.
      replace (b * (2 * len))%nat with (b * 2 * len)%nat by lia. apply Hb. lia. }
    assert (forall b, 
      Permutation (right_blk prev len b)
        (seq (b * (2 * len) + len) (Nat.min len (n - (b * (2 * len) + len)))) /\
      desc Y (right_blk prev len b)) as HR.
    { intros b. destruct (Nat.lt_ge_cases (b * (2 * len) + len) n) as [H|H].
      - specialize (Hb (b * 2 + 1)%nat). unfold right_blk.
        replace (b * (2 * len) + len)%nat with ((b * 2 + 1) * len)%nat by lia.
        replace (b * (2 * len) + 2 * len)%nat with ((b * 2 + 1) * len + len)%nat by lia.
        apply Hb. lia.
      - unfold right_blk. rewrite slice_beyond by lia.
        replace (n - (b * (2 * len) + len))%nat with 0%nat by lia.
        rewrite Nat.min_0_r. split; [apply perm_nil|constructor]. }
    split; [split|].
    - (* length *)
      assert (forall k, (k <= npairs len)%nat ->
        length (concat (tab k (out_blk prev len))) = Nat.min (k * (2 * len)) n) as Hk.
      { induction k; intros Hk; [reflexivity|].
        rewrite tab_snoc, concat_app, app_length, IHk by lia. simpl length.
        rewrite app_nil_r, out_blk_length by auto.
        pose proof (proj1 (npairs_spec len Hl k) ltac:(lia)). nia. }
      rewrite Hk by auto. destruct (Nat.lt_ge_cases (npairs len * (2 * len)) n) as [H|H]; [|lia].
      apply (npairs_spec len Hl) in H. lia.
    - intros b H. rewrite slice_concat_tab.
      + unfold out_blk. destruct (HL b H) as [HL1 HL2]. destruct (HR b) as [HR1 HR2]. split.
        * rewrite mrg_perm, HL1, HR1.
          destruct (Nat.le_gt_cases (b * (2 * len) + len) n).
          -- rewrite (Nat.min_l len (n - b * (2 * len))) by lia. rewrite <- seq_app.
             replace (len + Nat.min len (n - (b * (2 * len) + len)))%nat
               with (Nat.min (2 * len) (n - b * (2 * len))) by lia. reflexivity.
          -- replace (n - (b * (2 * len) + len))%nat with 0%nat by lia.
             rewrite Nat.min_0_r. simpl seq at 2. rewrite app_nil_r.
             replace (Nat.min len (n - b * (2 * len))) with (Nat.min (2 * len) (n - b * (2 * len))) by lia.
             reflexivity.
        * apply mrg_desc; auto.
      + apply npairs_spec; auto.
      + intros j Hj. rewrite out_blk_length by auto. apply npairs_spec in Hj; auto. lia.
      + intros j. rewrite out_blk_length by auto. lia.
    - (* sums *)
      intros w i Hi. set (b := (i / (2 * len))%nat).
      pose proof (Nat.div_mod i (2 * len) ltac:(lia)) as Hdm.
      pose proof (Nat.mod_upper_bound i (2 * len) ltac:(lia)) as Hmb. fold b in Hdm.
      assert (b * (2 * len) <= i < b * (2 * len) + 2 * len)%nat as Hib by nia.
      assert (b * (2 * len) < n)%nat as Hbn by lia.
      assert (b < npairs len)%nat as HbK by (apply npairs_spec; auto).
      (* only the pair of i contributes *)
      rewrite (rsum_ext (npairs len) _
        (fun k => if (k =? b)%nat then contrib w i (madd Y (left_blk prev len k) (right_blk prev len k)) else 0)).
      2:{ intros k Hk. destruct (Nat.eqb_spec k b); auto. apply contrib_notin.
          intros Hc. apply (Permutation_in _ (proj1 (HR k))) in Hc. apply in_seq in Hc.
          assert (k = b); [|auto]. unfold b. apply Nat.div_unique with (i - k * (2 * len))%nat; lia. }
      rewrite rsum_delta by auto.
      unfold inv_sum.
      assert (forall j, (j < i)%nat -> (j / len =? i / len)%nat = true -> (j / (2 * len) =? i / (2 * len))%nat = true) as Hsub.
      { intros j Hj He. apply Nat.eqb_eq in He. apply Nat.eqb_eq.
        rewrite (Nat.mul_comm 2 len), <- !Nat.div_div by lia. rewrite He. reflexivity. }
      destruct (Nat.lt_ge_cases i (b * (2 * len) + len)) as [Hleft|Hright].
      + (* i in the left half: nothing added *)
        rewrite contrib_notin.
        2:{ intros Hc. apply (Permutation_in _ (proj1 (HR b))) in Hc. apply in_seq in Hc. lia. }
        rewrite Rplus_0_r. apply rsum_ext. intros j Hj. f_equal. f_equal.
        destruct (j / len =? i / len)%nat eqn:He.
        * rewrite Hsub by auto. reflexivity.
        * destruct (Nat.eqb_spec (j / (2 * len)) (i / (2 * len))) as [He2|]; auto.
          exfalso. apply Nat.eqb_neq in He. apply He. fold b in He2.
          pose proof (Nat.div_mod j (2 * len) ltac:(lia)) as Hj2. rewrite He2 in Hj2.
          assert (i / len = b * 2)%nat as -> by (symmetry; apply Nat.div_unique with (i - b * (2 * len))%nat; lia).
          symmetry. apply Nat.div_unique with (j - b * (2 * len))%nat; nia.
      + (* i in the right half: the left block is added *)
        destruct (HL b Hbn) as [HL1 HL2]. destruct (HR b) as [HR1 HR2].
        rewrite contrib_in; auto.
        2:{ apply (Permutation_NoDup (Permutation_sym HR1)), seq_NoDup. }
        2:{ apply (Permutation_in _ (Permutation_sym HR1)). apply in_seq. lia. }
        rewrite (lsum_perm_seq _ _ _ _ HL1). rewrite Nat.min_l by lia.
        rewrite (rsum_window (b * (2 * len)) len i (fun j => Rltb (Y j) (Y i)) w) by lia.
        rewrite <- rsum_plus. apply rsum_ext. intros j Hj.
        assert (i / len = b * 2 + 1)%nat as Hi2
          by (symmetry; apply Nat.div_unique with (i - (b * 2 + 1) * len)%nat; nia).
        rewrite Hi2. fold b.
        rewrite zsel_add.
        * f_equal. rewrite <- andb_orb_distrib_l. f_equal.
          destruct (Nat.eqb_spec (j / (2 * len)) b) as [He|Hne].
          -- pose proof (Nat.div_mod j (2 * len) ltac:(lia)) as Hj2. rewrite He in Hj2.
             pose proof (Nat.mod_upper_bound j (2 * len) ltac:(lia)).
             destruct (Nat.lt_ge_cases j (b * (2 * len) + len)).
             ++ apply orb_true_iff. right. apply andb_true_iff.
                split; [apply Nat.leb_le|apply Nat.ltb_lt]; lia.
             ++ apply orb_true_iff. left. apply Nat.eqb_eq. symmetry.
                apply Nat.div_unique with (j - (b * 2 + 1) * len)%nat; nia.
          -- apply orb_false_iff. split.
             ++ apply Nat.eqb_neq. intros He. apply Hne.
                rewrite (Nat.mul_comm 2 len), <- Nat.div_div, He by lia.
                symmetry. apply Nat.div_unique with 1%nat; lia.
             ++ apply andb_false_iff. 
                destruct (Nat.le_gt_cases (b * (2 * len)) j); [|left; apply Nat.leb_gt; lia].
                right. apply Nat.ltb_ge. destruct (Nat.le_gt_cases (b * (2 * len) + len) j); auto.
                exfalso. apply Hne. symmetry. apply Nat.div_unique with (j - b * (2 * len))%nat; lia.
        * destruct (Nat.eqb_spec (j / len) (b * 2 + 1)) as [He|]; [|reflexivity].
          assert ((j <? b * (2 * len) + len)%nat = false) as ->.
          { apply Nat.ltb_ge. pose proof (Nat.mul_div_le j len ltac:(lia)). rewrite He in *. nia. }
          rewrite andb_false_r. simpl. apply andb_false_r.
  Qed.

  Lemma cumsum_var_ok prev w : length prev = n -> (forall i, In i prev -> (i < n)%nat) ->
    cumsum_var E oob prev (tab n w) = Ok (tab (S n) (cumf prev w)).
  Proof.
    intros Hlen Hin. unfold cumsum_var.
    rewrite (take_chk_ok oob 0) by (intros; rewrite tab_length; auto). cbn [rbind].
    rewrite HN, (take_tab 0 n) by auto. rewrite np_cumsum_tab, tab_S. f_equal. f_equal.
    apply tab_ext. intros q Hq. unfold cumf. apply rsum_ext. intros k Hk.
    apply tab_nth. apply Hin, nth_In. lia.
  Qed.

  Lemma cumrows_ok prev : length prev = n -> (forall i, In i prev -> (i < n)%nat) ->
    mapM (cumsum_var E oob prev) (map (tab n) Ws) = Ok (cumrows prev).
  Proof.
    intros Hlen Hin. unfold cumrows. induction Ws as [|w Ws' IH]; simpl; auto.
    rewrite cumsum_var_ok by auto. cbn [rbind]. rewrite IH. reflexivity.
  Qed.

  Lemma merge_passes_ok fuel len prev cur : (1 <= len)%nat -> blocks_ok len prev ->
    length cur = n -> (n <= len * 2 ^ fuel)%nat ->
    merge_passes E oob true fuel n len (tab n Y) (map (tab n) Ws) prev cur
      (wsrows (inv_sum len))
    = Ok (wsrows (fun w i => rsum i (fun j => zsel (Rltb (Y j) (Y i)) (w j)))).
  Proof.
    revert len prev cur. induction fuel as [|fuel IH]; intros len prev cur Hl Hb Hcur Hf;
      cbn [merge_passes]; destruct (Nat.ltb_spec len n) as [Hlt|Hge].
    1: simpl in Hf; lia.
    1,3: f_equal; unfold wsrows; apply map_ext; intros w; apply tab_ext; intros i Hi;
      unfold inv_sum; apply rsum_ext; intros j Hj;
      rewrite !Nat.div_small by lia; rewrite Nat.eqb_refl; reflexivity.
    pose proof (blocks_In len prev Hl Hb) as Hin. pose proof (proj1 Hb) as Hlen.
    rewrite cumrows_ok by auto. cbn [rbind].
    rewrite pass_ok by auto. cbn [rbind ms_cur ms_ws].
    destruct (pass_inv prev len Hl Hb) as [Hb' Hs].
    rewrite <- (IH (2 * len)%nat (concat (tab (npairs len) (out_blk prev len))) prev); auto.
    - f_equal. unfold wsrows. apply map_ext; intros w. apply tab_ext; intros i Hi. auto.
    - lia.
    - cbn [Nat.pow] in Hf. nia.
  Qed.

  Lemma blocks_ok_1 : blocks_ok 1 (seq 0 n).
  Proof.
    split; [apply seq_length|]. intros b Hb. rewrite Nat.mul_1_r in *.
    assert (slice (seq 0 n) b (b + 1) = [b]) as ->.
    { rewrite (slice_cons _ _ _ 0%nat) by (rewrite ?seq_length; lia).
      rewrite seq_nth, slice_nil by lia. reflexivity. }
    rewrite Nat.min_l by lia. split; [reflexivity|]. repeat constructor.
  Qed.

  Lemma pow2_ge m : (m <= 2 ^ m)%nat.
  Proof. pose proof (Nat.pow_gt_lin_r 2 m). lia. Qed.

  Lemma compute_weight_sums_ok :
    compute_weight_sums E oob true (tab n Y) (map (tab n) Ws)
    = Ok (wsrows (fun w i => rsum i (fun j => zsel (Rltb (Y j) (Y i)) (w j)))).
  Proof.
    unfold compute_weight_sums. rewrite tab_length.
    rewrite <- (merge_passes_ok n 1 (seq 0 n) (repeat 0%nat n)).
    - f_equal. rewrite map_map. unfold wsrows. apply map_ext; intros w. rewrite HN, repeat_tab.
      apply tab_ext; intros i Hi. unfold inv_sum. symmetry. apply rsum_zero. intros j Hj.
      rewrite !Nat.div_1_r. assert ((j =? i)%nat = false) as -> by (apply Nat.eqb_neq; lia).
      reflexivity.
    - lia.
    - apply blocks_ok_1.
    - apply repeat_length.
    - pose proof (pow2_ge n). lia.
  Qed.
End Loop.
