(** Refinement: the dyadic update of the AVL algorithm computes prefix sums in a second
    order, with every access to the scratch array in range. *)
From Coq Require Import Reals Lra Lia List Arith Bool ZArith Permutation.
From Verif Require Import Num Numpy MUtils MMergesort MAvl Sums Tab.
Import ListNotations.
Local Open Scope R_scope.

(** ** Bits *)
Section Bits.
  Local Open Scope Z_scope.

  Definition blk (l : nat) (z : Z) : Z := z / 2 ^ Z.of_nat l.
  (** [z] is in the right sibling, [w] in the left sibling, at level [l]. *)
  Definition sib (l : nat) (z w : Z) : bool := Z.odd (blk l z) && (blk l w =? blk l z - 1).

  Lemma blk_S l z : blk (S l) z = blk l z / 2.
  Proof.
    unfold blk. rewrite Nat2Z.inj_succ, Z.pow_succ_r by lia.
    rewrite Z.div_div by (try apply Z.pow_nonzero; lia). f_equal; lia.
  Qed.

  Lemma blk_0 z : blk 0 z = z.
  Proof. unfold blk. simpl. apply Z.div_1_r. Qed.

  Lemma odd_half q : Z.odd q = true -> q = 2 * (q / 2) + 1.
  Proof.
    intros H. rewrite (Z.div_mod q 2) at 1 by lia. rewrite Zmod_odd, H. reflexivity.
  Qed.

  Lemma sib_S l z w : sib l z w = true -> blk (S l) w = blk (S l) z.
  Proof.
    unfold sib. intros H. apply andb_true_iff in H. destruct H as [Ho He].
    apply Z.eqb_eq in He. rewrite !blk_S, He. apply odd_half in Ho.
    set (q := blk l z) in *. rewrite Ho at 1.
    replace (2 * (q / 2) + 1 - 1) with ((q / 2) * 2) by lia. apply Z.div_mul. lia.
  Qed.

  Lemma blk_eq_mono l l' z w : (l <= l')%nat -> blk l w = blk l z -> blk l' w = blk l' z.
  Proof. intros H. induction H; auto. intros. rewrite !blk_S, IHle; auto. Qed.

  Lemma sib_high l l' z w : sib l z w = true -> (l < l')%nat -> blk l' w = blk l' z.
  Proof. intros H Hl. apply (blk_eq_mono (S l)); auto. apply sib_S; auto. Qed.

  Lemma blk_lt_mono l z w : blk l w < blk l z -> w < z.
  Proof.
    unfold blk. intros H. destruct (Z_lt_le_dec w z); auto.
    pose proof (Z.div_le_mono z w (2 ^ Z.of_nat l)). lia.
  Qed.

  Lemma blk_range L l z : (l <= L)%nat -> 0 <= z < 2 ^ Z.of_nat L ->
    0 <= blk l z < 2 ^ (Z.of_nat L - Z.of_nat l).
  Proof.
    intros Hl Hz. unfold blk. split.
    - apply Z.div_pos; lia.
    - apply Z.div_lt_upper_bound; [lia|]. rewrite <- Z.pow_add_r by lia.
      replace (Z.of_nat l + (Z.of_nat L - Z.of_nat l)) with (Z.of_nat L) by lia. lia.
  Qed.
End Bits.

Definition zsel (b : bool) (c : R) : R := if b then c else 0.

(** Two numbers meet as siblings at exactly one level iff the first is larger. *)
Lemma sib_sum_high L z w c : blk L w = blk L z ->
  rsum L (fun l => zsel (sib l z w) c) = zsel (w <? z)%Z c.
Proof.
  induction L; intros H.
  - rewrite !blk_0 in H. subst. simpl. rewrite Z.ltb_irrefl. reflexivity.
  - cbn [rsum]. destruct (Z.eq_dec (blk L w) (blk L z)) as [He|Hne].
    + rewrite IHL by auto. unfold sib at 1. rewrite He.
      assert ((blk L z =? blk L z - 1)%Z = false) as -> by (apply Z.eqb_neq; lia).
      rewrite andb_false_r. unfold zsel at 2. ring.
    + rewrite rsum_zero.
      2:{ intros l Hl. destruct (sib l z w) eqn:Hs; [|reflexivity]. exfalso. apply Hne.
          apply (sib_high l L z w); auto. }
      rewrite !blk_S in H. unfold sib.
      pose proof (Z.div_mod (blk L w) 2 ltac:(lia)) as Hw.
      pose proof (Z.div_mod (blk L z) 2 ltac:(lia)) as Hz.
      rewrite Zmod_odd in Hw, Hz.
      destruct (Z.odd (blk L z)) eqn:Hoz, (Z.odd (blk L w)) eqn:How; simpl; try lia.
      * assert ((blk L w =? blk L z - 1)%Z = true) as -> by (apply Z.eqb_eq; lia).
        assert (w < z)%Z by (apply (blk_lt_mono L); lia).
        assert ((w <? z)%Z = true) as -> by (apply Z.ltb_lt; auto). unfold zsel; lra.
      * assert (z < w)%Z by (apply (blk_lt_mono L); lia).
        assert ((w <? z)%Z = false) as -> by (apply Z.ltb_ge; lia). unfold zsel; lra.
Qed.

Lemma sib_sum L z w c : (0 <= z < 2 ^ Z.of_nat L)%Z -> (0 <= w < 2 ^ Z.of_nat L)%Z ->
  rsum L (fun l => zsel (sib l z w) c) = zsel (w <? z)%Z c.
Proof.
  intros Hz Hw. apply sib_sum_high. unfold blk. rewrite !Z.div_small; auto.
Qed.

(** ** Positions *)
Section Pos.
  Local Open Scope Z_scope.

  Definition off (L l : nat) : Z := 2 ^ (Z.of_nat L + 1) - 2 ^ (Z.of_nat L + 1 - Z.of_nat l).

  Lemma off_0 L : off L 0 = 0.
  Proof. unfold off. rewrite Z.sub_0_r. lia. Qed.

  Lemma off_S L l : (l <= L)%nat -> off L (S l) = off L l + 2 ^ (Z.of_nat L - Z.of_nat l).
  Proof.
    intros. unfold off.
    replace (Z.of_nat L + 1 - Z.of_nat l) with (Z.succ (Z.of_nat L - Z.of_nat l)) by lia.
    rewrite Z.pow_succ_r by lia.
    replace (Z.of_nat L + 1 - Z.of_nat (S l)) with (Z.of_nat L - Z.of_nat l) by lia. lia.
  Qed.

  Lemma zcumsum_pos L k a l : (a + k <= S L)%nat -> (l < k)%nat ->
    nth l (zcumsum (off L a) (map (fun l => 2 ^ (Z.of_nat L - Z.of_nat l)) (seq a k))) 0
    = off L (S (a + l)).
  Proof.
    revert a l. induction k; intros a l Hk Hl; [lia|]. simpl.
    rewrite <- off_S by lia. destruct l.
    - rewrite Nat.add_0_r. reflexivity.
    - rewrite IHk by lia. f_equal. lia.
  Qed.

  Lemma level_offset_off L l : (l < L)%nat -> level_offset (mk_pos_sums L) l = off L l.
  Proof.
    intros. destruct l; simpl; [symmetry; apply off_0|].
    pose proof (zcumsum_pos L L 0 l ltac:(lia) ltac:(lia)) as Hp. rewrite off_0 in Hp. exact Hp.
  Qed.

  Lemma off_mono L l l' : (l <= l')%nat -> (l' <= S L)%nat -> off L l <= off L l'.
  Proof.
    intros H. induction H; intros; [lia|]. rewrite off_S by lia.
    pose proof (Z.pow_nonneg 2 (Z.of_nat L - Z.of_nat m)). lia.
  Qed.

  Lemma off_nonneg L l : (l <= S L)%nat -> 0 <= off L l.
  Proof. intros. rewrite <- (off_0 L). apply off_mono; lia. Qed.

  Lemma off_range L l k : (l < L)%nat -> 0 <= k < 2 ^ (Z.of_nat L - Z.of_nat l) ->
    0 <= off L l + k < 2 ^ (Z.of_nat L + 1).
  Proof.
    intros Hl Hk. pose proof (off_nonneg L l ltac:(lia)). split; [lia|].
    pose proof (off_S L l ltac:(lia)). pose proof (off_mono L (S l) (S L) ltac:(lia) ltac:(lia)).
    assert (off L (S L) < 2 ^ (Z.of_nat L + 1)).
    { unfold off. pose proof (Z.pow_pos_nonneg 2 (Z.of_nat L + 1 - Z.of_nat (S L))). lia. }
    lia.
  Qed.

  Lemma off_inj L l k l' k' : (l < L)%nat -> (l' < L)%nat ->
    0 <= k < 2 ^ (Z.of_nat L - Z.of_nat l) -> 0 <= k' < 2 ^ (Z.of_nat L - Z.of_nat l') ->
    off L l + k = off L l' + k' -> l = l' /\ k = k'.
  Proof.
    intros Hl Hl' Hk Hk' He.
    assert (forall a b ka kb, (a < L)%nat -> (b < L)%nat -> (a < b)%nat ->
      0 <= ka < 2 ^ (Z.of_nat L - Z.of_nat a) -> 0 <= kb ->
      off L a + ka = off L b + kb -> False) as Hx.
    { intros a b ka kb Ha Hb Hab Hka Hkb Hq. pose proof (off_S L a ltac:(lia)).
      pose proof (off_mono L (S a) b ltac:(lia) ltac:(lia)). lia. }
    destruct (lt_eq_lt_dec l l') as [[H|H]|H].
    - exfalso. eapply (Hx l l' k k'); eauto; lia.
    - subst. split; auto. lia.
    - exfalso. eapply (Hx l' l k' k); eauto; lia.
  Qed.

  (** The three formulas of the code, for the rank [y = z + 1]. *)
  Lemma ceil_div_blk z l : 0 <= z -> ceil_div (z + 1) (2 ^ Z.of_nat l) - 1 = blk l z.
  Proof.
    intros Hz. unfold ceil_div, blk. set (d := 2 ^ Z.of_nat l).
    assert (0 < d) by (apply Z.pow_pos_nonneg; lia).
    pose proof (Z.div_mod z d ltac:(lia)). pose proof (Z.mod_pos_bound z d ltac:(lia)).
    assert ((- (z + 1)) / d = - (z / d) - 1) as ->; [|lia].
    symmetry. apply (Z.div_unique_pos _ _ _ (d - 1 - z mod d)); lia.
  Qed.

  Lemma pos_3a_eq L z l : (l < L)%nat -> 0 <= z ->
    pos_3a (mk_pos_sums L) (z + 1) l = off L l + blk l z.
  Proof.
    intros. unfold pos_3a. rewrite ceil_div_blk, level_offset_off by auto. lia.
  Qed.

  Lemma pos_3b_eq L z l : (l < L)%nat ->
    pos_3b (mk_pos_sums L) (z + 1) l = off L l + (blk l z - 1).
  Proof.
    intros. unfold pos_3b, pos_3b_raw, blk. rewrite level_offset_off by auto.
    replace (z + 1 - 1) with z by lia. lia.
  Qed.

  Lemma valid_3b_eq z l : valid_3b (z + 1) l = Z.odd (blk l z).
  Proof.
    unfold valid_3b, pos_3b_raw. replace (z + 1 - 1) with z by lia. fold (blk l z).
    rewrite Zmod_odd, Z.odd_sub. simpl. destruct (Z.odd (blk l z)); reflexivity.
  Qed.
End Pos.

(** ** Reading and writing the scratch array *)
Section Rw.
  Variable oob : exn.

  Lemma zget_ok (s : list R) p : (0 <= p < Z.of_nat (length s))%Z ->
    zget oob s p = Ok (nth (Z.to_nat p) s 0).
  Proof.
    intros H. unfold zget, pyidx.
    assert ((0 <=? p)%Z && (p <? Z.of_nat (length s))%Z = true) as ->
      by (apply andb_true_iff; split; [apply Z.leb_le|apply Z.ltb_lt]; lia).
    simpl. rewrite (nth_error_nth' s 0) by lia. reflexivity.
  Qed.

  Lemma zset_ok (s : list R) p v : (0 <= p < Z.of_nat (length s))%Z ->
    zset oob s p v = Ok (upd s (Z.to_nat p) v).
  Proof.
    intros H. unfold zset, pyidx.
    assert ((0 <=? p)%Z && (p <? Z.of_nat (length s))%Z = true) as ->
      by (apply andb_true_iff; split; [apply Z.leb_le|apply Z.ltb_lt]; lia).
    reflexivity.
  Qed.

  Lemma zgets_ok (s : list R) ps : (forall p, In p ps -> (0 <= p < Z.of_nat (length s))%Z) ->
    zgets oob s ps = Ok (map (fun p => nth (Z.to_nat p) s 0) ps).
  Proof.
    induction ps; intros H; simpl; auto.
    rewrite zget_ok by (apply H; left; auto). simpl.
    rewrite IHps by (intros; apply H; right; auto). reflexivity.
  Qed.

  (** Values that depend only on the position: the order of the writes is irrelevant. *)
  Lemma zsets_fun (s : list R) ps (f : Z -> R) :
    (forall p, In p ps -> (0 <= p < Z.of_nat (length s))%Z) ->
    exists s', zsets oob s ps (map f ps) = Ok s' /\ length s' = length s /\
      forall q, (0 <= q)%Z ->
        (In q ps -> nth (Z.to_nat q) s' 0 = f q) /\
        (~ In q ps -> nth (Z.to_nat q) s' 0 = nth (Z.to_nat q) s 0).
  Proof.
    revert s. induction ps as [|p ps IH]; intros s H; simpl.
    - exists s. repeat split; auto. tauto.
    - rewrite zset_ok by (apply H; left; auto). simpl.
      destruct (IH (upd s (Z.to_nat p) (f p))) as (s' & H1 & H2 & H3).
      { intros. rewrite upd_length. apply H. right; auto. }
      exists s'. rewrite upd_length in H2. split; [auto|]. split; [auto|].
      assert (0 <= p < Z.of_nat (length s))%Z as Hp by (apply H; left; auto).
      intros q Hq. destruct (H3 q Hq) as [H4 H5].
      destruct (in_dec Z.eq_dec q ps) as [Hi|Hi].
      + split; [auto|]. intros Hn. exfalso; apply Hn; auto.
      + rewrite H5 by auto. rewrite upd_nth by lia. split.
        * intros [->|]; [|contradiction]. rewrite Nat.eqb_refl. reflexivity.
        * intros Hn. destruct (Nat.eqb_spec (Z.to_nat q) (Z.to_nat p)); auto.
          exfalso; apply Hn; left; lia.
  Qed.

  (** One addition per position, one after the other. *)
  Lemma update_levels_ok ps y c ls s :
    (forall l, In l ls -> (0 <= pos_3a ps y l < Z.of_nat (length s))%Z) ->
    NoDup (map (pos_3a ps y) ls) ->
    exists s', update_levels RNum oob ps y c ls s = Ok s' /\ length s' = length s /\
      forall q, (0 <= q)%Z ->
        (In q (map (pos_3a ps y) ls) -> nth (Z.to_nat q) s' 0 = nth (Z.to_nat q) s 0 + c) /\
        (~ In q (map (pos_3a ps y) ls) -> nth (Z.to_nat q) s' 0 = nth (Z.to_nat q) s 0).
  Proof.
    revert s. induction ls as [|l ls IH]; intros s H Hnd; simpl.
    - exists s. repeat split; auto. tauto.
    - assert (0 <= pos_3a ps y l < Z.of_nat (length s))%Z as Hp by (apply H; left; auto).
      rewrite zget_ok by auto. simpl. rewrite zset_ok by auto. simpl.
      inversion Hnd as [|? ? Hni Hnd']; subst.
      set (p := pos_3a ps y l) in *.
      destruct (IH (upd s (Z.to_nat p) (nth (Z.to_nat p) s 0 + c))) as (s' & H1 & H2 & H3); auto.
      { intros. rewrite upd_length. apply H. right; auto. }
      exists s'. rewrite upd_length in H2. split; [auto|]. split; [auto|].
      intros q Hq. destruct (H3 q Hq) as [H4 H5].
      destruct (in_dec Z.eq_dec q (map (pos_3a ps y) ls)) as [Hi|Hi].
      + rewrite H4 by auto. rewrite upd_nth by lia.
        destruct (Nat.eqb_spec (Z.to_nat q) (Z.to_nat p)).
        * exfalso. apply Hni. replace p with q by lia. auto.
        * split; [auto|]. intros Hn; exfalso; apply Hn; auto.
      + rewrite H5 by auto. rewrite upd_nth by lia. split.
        * intros [Hqp|]; [|contradiction]. rewrite Hqp, Nat.eqb_refl. reflexivity.
        * intros Hn. destruct (Nat.eqb_spec (Z.to_nat q) (Z.to_nat p)); auto.
          exfalso; apply Hn; left; lia.
  Qed.

  Lemma gamma_levels_ok ps y ls s g :
    (forall l, In l ls -> valid_3b y l = true -> (0 <= pos_3b ps y l < Z.of_nat (length s))%Z) ->
    gamma_levels RNum oob ps y ls s g
    = Ok (g + lsum (map (fun l => zsel (valid_3b y l) (nth (Z.to_nat (pos_3b ps y l)) s 0)) ls)).
  Proof.
    revert g. induction ls as [|l ls IH]; intros g H; simpl.
    - f_equal; ring.
    - destruct (valid_3b y l) eqn:Hv.
      + rewrite zget_ok by (apply H; [left|]; auto). simpl.
        rewrite IH by (intros; apply H; [right|]; auto). f_equal. simpl. ring.
      + rewrite IH by (intros; apply H; [right|]; auto). f_equal. simpl. ring.
  Qed.
End Rw.

Lemma lsum_filter {A} (v : A -> bool) (f : A -> R) l :
  lsum (map f (filter v l)) = lsum (map (fun a => zsel (v a) (f a)) l).
Proof.
  induction l as [|a l IH]; simpl; auto. destruct (v a); simpl; rewrite IH; unfold zsel; ring.
Qed.

(** ** The invariant *)
Section Dyad.
  Variables (oob : exn) (L n : nat) (z : nat -> Z) (c : nat -> R).
  Hypothesis Hz : forall i, (i < n)%nat -> (0 <= z i < 2 ^ Z.of_nat L)%Z.

  (** After processing the first [i] elements: each level holds the block sums. *)
  Definition dyad_inv (i : nat) (s : list R) : Prop :=
    length s = (2 ^ (L + 1))%nat /\
    forall l k, (l < L)%nat -> (0 <= k < 2 ^ (Z.of_nat L - Z.of_nat l))%Z ->
      nth (Z.to_nat (off L l + k)) s 0 = rsum i (fun j => zsel (blk l (z j) =? k)%Z (c j)).

  Let ps := mk_pos_sums L.

  Lemma len_Z : Z.of_nat (2 ^ (L + 1)) = (2 ^ (Z.of_nat L + 1))%Z.
  Proof. rewrite Nat2Z.inj_pow. f_equal. lia. Qed.

  Lemma pos_a_range i l (s : list R) : length s = (2 ^ (L + 1))%nat -> (i < n)%nat -> (l < L)%nat ->
    (0 <= pos_3a ps (z i + 1) l < Z.of_nat (length s))%Z.
  Proof.
    intros Hs Hi Hl. rewrite Hs, len_Z. unfold ps. pose proof (Hz i Hi).
    rewrite pos_3a_eq by lia. apply off_range; auto. apply blk_range; auto; lia.
  Qed.

  Lemma odd_pos q : (0 <= q)%Z -> Z.odd q = true -> (1 <= q)%Z.
  Proof. intros H Ho. destruct (Z.eq_dec q 0) as [->|]; [discriminate|lia]. Qed.

  Lemma pos_b_range i l (s : list R) : length s = (2 ^ (L + 1))%nat -> (i < n)%nat -> (l < L)%nat ->
    valid_3b (z i + 1) l = true ->
    (0 <= pos_3b ps (z i + 1) l < Z.of_nat (length s))%Z.
  Proof.
    intros Hs Hi Hl Hv. rewrite Hs, len_Z. unfold ps. rewrite valid_3b_eq in Hv.
    rewrite pos_3b_eq by lia. apply off_range; auto.
    pose proof (blk_range L l (z i) ltac:(lia) (Hz i Hi)) as Hb.
    apply odd_pos in Hv; lia.
  Qed.

  Lemma dyad_gamma i s : dyad_inv i s -> (i < n)%nat ->
    lsum (map (fun l => zsel (valid_3b (z i + 1) l)
                          (nth (Z.to_nat (pos_3b ps (z i + 1) l)) s 0)) (seq 0 L))
    = rsum i (fun j => zsel (z j <? z i)%Z (c j)).
  Proof.
    intros [Hs H] Hi. rewrite <- rsum_lsum.
    rewrite (rsum_ext L _ (fun l => rsum i (fun j => zsel (sib l (z i) (z j)) (c j)))).
    - rewrite rsum_swap. apply rsum_ext; intros j Hj. apply sib_sum; apply Hz; lia.
    - intros l Hl. rewrite valid_3b_eq. unfold sib, ps.
      destruct (Z.odd (blk l (z i))) eqn:Ho.
      + rewrite pos_3b_eq by auto.
        pose proof (blk_range L l (z i) ltac:(lia) (Hz i Hi)).
        rewrite H; auto. apply odd_pos in Ho; lia.
      + simpl. symmetry. apply rsum_zero; auto.
  Qed.

  Lemma In_pos_a i q l k : (i < n)%nat -> (l < L)%nat ->
    (0 <= k < 2 ^ (Z.of_nat L - Z.of_nat l))%Z -> q = (off L l + k)%Z ->
    In q (map (pos_3a ps (z i + 1)) (seq 0 L)) <-> blk l (z i) = k.
  Proof.
    intros Hi Hl Hk ->. rewrite in_map_iff. pose proof (Hz i Hi). split.
    - intros (l' & He & Hin). apply in_seq in Hin. unfold ps in He.
      rewrite pos_3a_eq in He by lia.
      destruct (off_inj L l' (blk l' (z i)) l k) as [-> ->]; auto; try lia.
      apply blk_range; lia.
    - intros <-. exists l. split; [|apply in_seq; lia]. unfold ps. apply pos_3a_eq; lia.
  Qed.

  Lemma dyad_inv_step i s s' : dyad_inv i s -> (i < n)%nat -> length s' = length s ->
    (forall q, (0 <= q)%Z ->
       (In q (map (pos_3a ps (z i + 1)) (seq 0 L)) ->
          nth (Z.to_nat q) s' 0 = nth (Z.to_nat q) s 0 + c i) /\
       (~ In q (map (pos_3a ps (z i + 1)) (seq 0 L)) ->
          nth (Z.to_nat q) s' 0 = nth (Z.to_nat q) s 0)) ->
    dyad_inv (S i) s'.
  Proof.
    intros [Hs H] Hi Hl Hq. split; [congruence|]. intros l k Hll Hk.
    cbn [rsum]. rewrite <- H by auto.
    pose proof (off_range L l k Hll Hk).
    destruct (Hq (off L l + k)%Z ltac:(lia)) as [H1 H2].
    pose proof (In_pos_a i _ l k Hi Hll Hk eq_refl) as HI.
    destruct (Z.eqb_spec (blk l (z i)) k) as [He|He].
    - rewrite H1 by (apply HI; auto). reflexivity.
    - rewrite H2 by (intros Hx; apply He, HI; auto). unfold zsel. ring.
  Qed.

  Lemma dyad_inv_0 (s : list R) : length s = (2 ^ (L + 1))%nat -> dyad_inv 0 (map (fun _ => 0) s).
  Proof.
    intros Hs. split; [rewrite map_length; auto|]. intros l k Hl Hk. simpl.
    pose proof (off_range L l k Hl Hk) as Hr. pose proof len_Z.
    rewrite map_const_tab, tab_nth by (rewrite Hs; lia). reflexivity.
  Qed.

  Definition dyad_out (i : nat) : R := rsum i (fun j => zsel (z j <? z i)%Z (c j)).

  Lemma dyad_loop_ok m i s : (i + m <= n)%nat -> dyad_inv i s ->
    exists s', dyad_loop RNum oob L ps (tab m (fun j => (z (i + j)%nat + 1)%Z))
                 (tab m (fun j => c (i + j)%nat)) s
               = Ok (tab m (fun j => dyad_out (i + j)), s') /\ length s' = length s.
  Proof.
    revert i s. induction m; intros i s Him Hinv.
    - exists s. split; reflexivity.
    - rewrite !tab_S. cbn [dyad_loop]. rewrite Nat.add_0_r.
      assert (length s = (2 ^ (L + 1))%nat) as Hs by apply Hinv.
      rewrite zgets_ok.
      2:{ intros p Hp. apply in_map_iff in Hp. destruct Hp as (l & <- & Hl).
          apply filter_In in Hl. destruct Hl as [Hl Hv]. apply in_seq in Hl.
          apply pos_b_range; auto; lia. }
      cbn [rbind]. rewrite zgets_ok.
      2:{ intros p Hp. apply in_map_iff in Hp. destruct Hp as (l & <- & Hl).
          apply in_seq in Hl. apply pos_a_range; auto; lia. }
      cbn [rbind].
      rewrite map_map.
      change (fun x : Z => nadd RNum (nth (Z.to_nat x) s 0) (c i))
        with (fun x : Z => nth (Z.to_nat x) s 0 + c i).
      destruct (zsets_fun oob s (map (pos_3a ps (z i + 1)) (seq 0 L))
                  (fun x => nth (Z.to_nat x) s 0 + c i)) as (s' & H1 & H2 & H3).
      { intros p Hp. apply in_map_iff in Hp. destruct Hp as (l & <- & Hl).
        apply in_seq in Hl. apply pos_a_range; auto; lia. }
      rewrite H1. cbn [rbind].
      assert (dyad_inv (S i) s') as Hinv'.
      { eapply dyad_inv_step; eauto. lia. }
      destruct (IHm (S i) s') as (s2 & H4 & H5); [lia|auto|].
      exists s2. split; [|congruence].
      rewrite (tab_ext m (fun i0 => (z (i + S i0)%nat + 1)%Z) (fun j => (z (S i + j)%nat + 1)%Z))
        by (intros; do 2 f_equal; lia).
      rewrite (tab_ext m (fun i0 => c (i + S i0)%nat) (fun j => c (S i + j)%nat))
        by (intros; f_equal; lia).
      rewrite H4. cbn [rbind]. f_equal. f_equal. f_equal.
      + rewrite np_sum_lsum, map_map.
        rewrite (lsum_filter (valid_3b (z i + 1))
                   (fun l => nth (Z.to_nat (pos_3b ps (z i + 1) l)) s 0)).
        apply dyad_gamma; auto. lia.
      + apply tab_ext; intros. f_equal. lia.
  Qed.

  Lemma dyad_update_ok s : length s = (2 ^ (L + 1))%nat ->
    exists s', dyad_update RNum oob (tab n (fun j => (z j + 1)%Z)) (tab n c) L s ps
               = Ok (tab n dyad_out, s') /\ length s' = (2 ^ (L + 1))%nat.
  Proof.
    intros Hs. unfold dyad_update.
    destruct (dyad_loop_ok n 0 (map (fun _ => 0) s)) as (s' & H1 & H2).
    - lia.
    - apply dyad_inv_0; auto.
    - exists s'. split; [exact H1|]. rewrite H2, map_length. auto.
  Qed.

  Lemma NoDup_pos_a i : (i < n)%nat -> NoDup (map (pos_3a ps (z i + 1)) (seq 0 L)).
  Proof.
    intros Hi. apply (NoDup_nth _ 0%Z). intros a b Ha Hb He.
    rewrite map_length, seq_length in Ha, Hb.
    fold (tab L (pos_3a ps (z i + 1))) in He. rewrite !tab_nth in He by auto.
    unfold ps in He. pose proof (Hz i Hi). rewrite !pos_3a_eq in He by lia.
    eapply (off_inj L a _ b _); eauto; apply blk_range; lia.
  Qed.

  Lemma dyad_compiled_loop_ok m i s : (i + S m <= n)%nat -> dyad_inv i s ->
    exists s', dyad_compiled_loop RNum oob L ps (z i + 1) (c i)
                 (tab m (fun j => (z (S i + j)%nat + 1)%Z))
                 (tab m (fun j => c (S i + j)%nat)) (tab m (fun _ => 0)) s
               = Ok (tab m (fun j => dyad_out (S i + j)), s') /\ length s' = length s.
  Proof.
    revert i s. induction m; intros i s Him Hinv.
    - exists s. split; reflexivity.
    - rewrite !tab_S. cbn [dyad_compiled_loop].
      assert (length s = (2 ^ (L + 1))%nat) as Hs by apply Hinv.
      destruct (update_levels_ok oob ps (z i + 1) (c i) (seq 0 L) s) as (s' & H1 & H2 & H3).
      { intros l Hl. apply in_seq in Hl. apply pos_a_range; auto; lia. }
      { apply NoDup_pos_a. lia. }
      rewrite H1. cbn [rbind].
      assert (dyad_inv (S i) s') as Hinv'.
      { eapply dyad_inv_step; eauto. lia. }
      rewrite gamma_levels_ok.
      2:{ intros l Hl Hv. apply in_seq in Hl. apply pos_b_range; auto; try lia; try congruence. }
      cbn [rbind]. rewrite Nat.add_0_r.
      destruct (IHm (S i) s') as (s2 & H4 & H5); [lia|auto|].
      exists s2. split; [|congruence].
      rewrite (tab_ext m (fun i0 => (z (S i + S i0)%nat + 1)%Z)
                 (fun j => (z (S (S i) + j)%nat + 1)%Z)) by (intros; do 2 f_equal; lia).
      rewrite (tab_ext m (fun i0 => c (S i + S i0)%nat) (fun j => c (S (S i) + j)%nat))
        by (intros; f_equal; lia).
      rewrite H4. cbn [rbind]. f_equal. f_equal. f_equal.
      + rewrite dyad_gamma by (auto; lia). unfold dyad_out. ring.
      + apply tab_ext; intros. f_equal. lia.
  Qed.

  Lemma dyad_update_compiled_ok s : (1 <= n)%nat -> length s = (2 ^ (L + 1))%nat ->
    exists s', dyad_update_compiled RNum oob (tab n (fun j => (z j + 1)%Z)) (tab n c)
                 (tab n (fun _ => 0)) L s ps
               = Ok (tab n dyad_out, s') /\ length s' = (2 ^ (L + 1))%nat.
  Proof.
    intros Hn Hs. unfold dyad_update_compiled.
    assert (exists m, n = S m) as [m Hm] by (exists (n - 1)%nat; lia). rewrite Hm, !tab_S.
    destruct (dyad_compiled_loop_ok m 0 (map (fun _ => 0) s)) as (s' & H1 & H2).
    - lia.
    - apply dyad_inv_0; auto.
    - exists s'. split; [|rewrite H2, map_length; auto].
      change (fun _ : R => nzero RNum) with (fun _ : R => 0).
      change (fun j => c (1 + j)%nat) with (fun j => c (S j)) in H1.
      change (fun j => (z (1 + j)%nat + 1)%Z) with (fun j => (z (S j) + 1)%Z) in H1.
      rewrite H1. cbn [rbind]. reflexivity.
  Qed.
End Dyad.
