(** The two variants of the AVL inner loop agree and stay inside the scratch array, for every
    number type (no property of the arithmetic is used except 0 + 0 = 0, and that np.sum adds from left to right). *)
From Coq Require Import Reals Lra Lia List Arith Bool ZArith.
From Verif Require Import Num Numpy MUtils MInternals MMergesort MAvl Sums Tab RefDyad.
Import ListNotations.

Section Gen.
  Context {T : Type} (N : Num T).
  Let d := nzero N.

  Lemma gzget_ok oob (s : list T) p : (0 <= p < Z.of_nat (length s))%Z ->
    zget oob s p = Ok (nth (Z.to_nat p) s d).
  Proof.
    intros H. unfold zget, pyidx.
    assert ((0 <=? p)%Z && (p <? Z.of_nat (length s))%Z = true) as ->
      by (apply andb_true_iff; split; [apply Z.leb_le|apply Z.ltb_lt]; lia).
    simpl. rewrite (nth_error_nth' s d) by lia. reflexivity.
  Qed.

  Lemma gzset_ok oob (s : list T) p v : (0 <= p < Z.of_nat (length s))%Z ->
    zset oob s p v = Ok (upd s (Z.to_nat p) v).
  Proof.
    intros H. unfold zset, pyidx.
    assert ((0 <=? p)%Z && (p <? Z.of_nat (length s))%Z = true) as ->
      by (apply andb_true_iff; split; [apply Z.leb_le|apply Z.ltb_lt]; lia).
    reflexivity.
  Qed.

  Definition in_range (s : list T) (ps : list Z) : Prop :=
    forall p, In p ps -> (0 <= p < Z.of_nat (length s))%Z.
  Definition gather (s : list T) (ps : list Z) : list T := map (fun p => nth (Z.to_nat p) s d) ps.

  Lemma gzgets_ok oob s ps : in_range s ps -> zgets oob s ps = Ok (gather s ps).
  Proof.
    induction ps as [|p ps IH]; intros H; simpl; auto.
    rewrite gzget_ok by (apply H; left; auto). simpl.
    rewrite IH by (intros q Hq; apply H; right; auto). reflexivity.
  Qed.

  Lemma gzsets_ok s ps vs : in_range s ps -> exists s', (forall oob, zsets oob s ps vs = Ok s') /\ length s' = length s.
  Proof.
    revert s vs. induction ps as [|p ps IH]; intros s vs H; [exists s; destruct vs; auto|].
    destruct vs as [|v vs]; [exists s; auto|]. cbn [zsets].
    destruct (IH (upd s (Z.to_nat p) v) vs) as (s' & H1 & H2).
    { intros q Hq. rewrite upd_length. apply H. right; auto. }
    exists s'. rewrite upd_length in H2. split; auto. intros oob.
    rewrite gzset_ok by (apply H; left; auto). cbn [rbind]. auto.
  Qed.

  (** One addition per level = gather, add, scatter. *)
  Lemma update_levels_scatter oob ps y c ls s :
    in_range s (map (pos_3a ps y) ls) -> NoDup (map (pos_3a ps y) ls) ->
    update_levels N oob ps y c ls s
    = zsets oob s (map (pos_3a ps y) ls) (map (fun v => nadd N v c) (gather s (map (pos_3a ps y) ls))).
  Proof.
    revert s. induction ls as [|l ls IH]; intros s H Hnd; [reflexivity|].
    cbn [update_levels map gather zsets]. set (p := pos_3a ps y l) in *.
    assert (0 <= p < Z.of_nat (length s))%Z as Hp by (apply H; left; auto).
    rewrite gzget_ok by auto. cbn [rbind]. rewrite gzset_ok by auto. cbn [rbind].
    inversion Hnd as [|? ? Hni Hnd']; subst.
    rewrite IH; auto.
    - f_equal. f_equal. apply map_ext_in. intros q Hq. rewrite upd_nth by lia.
      assert (0 <= q < Z.of_nat (length s))%Z by (apply H; right; auto).
      destruct (Nat.eqb_spec (Z.to_nat q) (Z.to_nat p)) as [He|]; auto.
      exfalso. apply Hni. fold p. replace p with q by lia. auto.
    - intros q Hq. rewrite upd_length. apply H. right; auto.
  Qed.

  Lemma gamma_levels_fold oob ps y ls s g :
    in_range s (map (pos_3b ps y) (filter (valid_3b y) ls)) ->
    gamma_levels N oob ps y ls s g
    = Ok (fold_left (nadd N) (gather s (map (pos_3b ps y) (filter (valid_3b y) ls))) g).
  Proof.
    revert g. induction ls as [|l ls IH]; intros g H; [reflexivity|].
    cbn [gamma_levels filter] in *. destruct (valid_3b y l) eqn:Hv.
    - cbn [map] in *. rewrite gzget_ok by (apply H; left; auto). cbn [rbind].
      rewrite IH by (intros q Hq; apply H; right; auto). reflexivity.
    - apply IH; auto.
  Qed.

  Variable L : nat.
  Let ps := mk_pos_sums L.

  (** Ranks from 1 to 2^L. *)
  Definition rank_ok (y : Z) : Prop := (1 <= y <= 2 ^ Z.of_nat L)%Z.

  Lemma gpos_a_range y (s : list T) : rank_ok y -> length s = 2 ^ (L + 1) ->
    in_range s (map (pos_3a ps y) (seq 0 L)).
  Proof.
    intros Hy Hs p Hp. apply in_map_iff in Hp. destruct Hp as (l & <- & Hl). apply in_seq in Hl.
    unfold rank_ok in Hy. rewrite Hs, len_Z. replace y with ((y - 1) + 1)%Z by lia. unfold ps.
    rewrite pos_3a_eq by lia. apply off_range; [lia|]. apply blk_range; lia.
  Qed.

  Lemma gpos_b_range y (s : list T) : rank_ok y -> length s = 2 ^ (L + 1) ->
    in_range s (map (pos_3b ps y) (filter (valid_3b y) (seq 0 L))).
  Proof.
    intros Hy Hs p Hp. apply in_map_iff in Hp. destruct Hp as (l & <- & Hl).
    apply filter_In in Hl. destruct Hl as [Hl Hv]. apply in_seq in Hl.
    unfold rank_ok in Hy. rewrite Hs, len_Z.
    assert (exists z, y = (z + 1)%Z) as [z ->] by (exists (y - 1)%Z; lia).
    rewrite valid_3b_eq in Hv. unfold ps.
    rewrite pos_3b_eq by lia. apply off_range; [lia|].
    assert (0 <= blk l z < 2 ^ (Z.of_nat L - Z.of_nat l))%Z by (apply blk_range; lia).
    pose proof (odd_pos (blk l z)). intuition lia.
  Qed.

  Lemma gNoDup_pos_a y : rank_ok y -> NoDup (map (pos_3a ps y) (seq 0 L)).
  Proof.
    intros Hy. unfold rank_ok in Hy. apply (NoDup_nth _ 0%Z). intros a b Ha Hb He.
    rewrite map_length, seq_length in Ha, Hb.
    fold (tab L (pos_3a ps y)) in He. rewrite !tab_nth in He by auto.
    unfold ps in He. replace y with ((y - 1) + 1)%Z in He by lia. rewrite !pos_3a_eq in He by lia.
    eapply (off_inj L a _ b _); eauto; apply blk_range; lia.
  Qed.

  (** The value read for rank [y]. *)
  Definition read_gamma (s : list T) (y : Z) : T :=
    np_sum N (gather s (map (pos_3b ps y) (filter (valid_3b y) (seq 0 L)))).

  Lemma loops_agree y c : forall yp cp s,
    Forall rank_ok (yp :: y) -> length c = length y -> length s = 2 ^ (L + 1) ->
    exists g g' s1 s2,
      (forall oob, dyad_loop N oob L ps (yp :: y) (cp :: c) s = Ok (read_gamma s yp :: g, s1)) /\
      (forall oob, dyad_compiled_loop N oob L ps yp cp y c (map (fun _ => nzero N) c) s = Ok (g', s2)) /\
      length g = length y /\ length g' = length y /\ length s1 = length s /\ length s2 = length s /\ (sequential N -> g = g').
  Proof.
    revert c. induction y as [|yi y IH]; intros c yp cp s HF Hc Hs.
    - destruct c; [|discriminate]. cbn [dyad_loop dyad_compiled_loop map].
      inversion HF as [|? ? Hy0 HF']; subst.
      destruct (gzsets_ok s (map (pos_3a ps yp) (seq 0 L))
        (map (fun v => nadd N v cp) (gather s (map (pos_3a ps yp) (seq 0 L))))) as (s' & H1 & H2).
      { apply gpos_a_range; auto. }
      exists [], [], s', s. split; [|auto 10]. intros oob.
      rewrite gzgets_ok by (apply gpos_b_range; auto). cbn [rbind].
      rewrite gzgets_ok by (apply gpos_a_range; auto). cbn [rbind].
      rewrite H1. reflexivity.
    - destruct c as [|ci c]; [discriminate|]. injection Hc as Hc.
      inversion HF as [|? ? Hy0 HF']; subst.
      destruct (gzsets_ok s (map (pos_3a ps yp) (seq 0 L))
        (map (fun v => nadd N v cp) (gather s (map (pos_3a ps yp) (seq 0 L))))) as (s' & H1 & H2).
      { apply gpos_a_range; auto. }
      destruct (IH c yi ci s' HF' Hc ltac:(congruence)) as (g & g' & s1 & s2 & E1 & E2 & E3 & E3' & E4 & E5 & E6).
      exists (read_gamma s' yi :: g), (fold_left (nadd N) (gather s' (map (pos_3b ps yi) (filter (valid_3b yi) (seq 0 L)))) (nzero N) :: g'), s1, s2.
      cbn [dyad_loop dyad_compiled_loop map] in *.
      inversion HF' as [|? ? Hy1 _]; subst.
      split; [|split; [|cbn [length]; repeat split; try congruence; intros HS; rewrite (E6 HS); f_equal; apply HS]]; intros oob.
      + rewrite gzgets_ok by (apply gpos_b_range; auto). cbn [rbind].
        rewrite gzgets_ok by (apply gpos_a_range; auto). cbn [rbind].
        rewrite H1. cbn [rbind]. rewrite E1. reflexivity.
      + rewrite update_levels_scatter by (auto using gpos_a_range, gNoDup_pos_a).
        rewrite H1. cbn [rbind].
        rewrite gamma_levels_fold by (apply gpos_b_range; auto; congruence). cbn [rbind].
        rewrite E2. reflexivity.
  Qed.

  Lemma fold_zeros k : nadd N (nzero N) (nzero N) = nzero N ->
    fold_left (nadd N) (repeat (nzero N) k) (nzero N) = nzero N.
  Proof. intros H. induction k; auto. cbn. rewrite H. auto. Qed.

  (** Both variants succeed, and return the same array if np.sum adds from left to right. *)
  Lemma dyads_agree y c : Forall rank_ok y -> length c = length y ->
    exists g g' s1 s2, (sequential N -> nadd N (nzero N) (nzero N) = nzero N -> g = g') /\
      length g = length y /\ length g' = length y /\ length s1 = 2 ^ (L + 1) /\ length s2 = 2 ^ (L + 1) /\
      forall oob s, length s = 2 ^ (L + 1) ->
      dyad_update N oob y c L s ps = Ok (g, s1) /\
      dyad_update_compiled N oob y c (map (fun _ => nzero N) c) L s ps = Ok (g', s2).
  Proof.
    intros HF Hc. unfold dyad_update, dyad_update_compiled.
    set (z := repeat (nzero N) (2 ^ (L + 1))).
    assert (length z = 2 ^ (L + 1)) as Hz by apply repeat_length.
    assert (forall s : list T, length s = 2 ^ (L + 1) -> map (fun _ => nzero N) s = z) as Hs.
    { intros s Hs. unfold z. rewrite map_const_tab, repeat_tab, Hs. reflexivity. }
    destruct y as [|y0 y]; destruct c as [|c0 c]; try discriminate.
    - exists [], [], z, z. repeat split; auto; intros; rewrite (Hs s) by auto; reflexivity.
    - injection Hc as Hc.
      destruct (loops_agree y c y0 c0 z HF Hc Hz) as (g & g' & s1 & s2 & E1 & E2 & E3 & E3' & E4 & E5 & E6).
      exists (read_gamma z y0 :: g), (nzero N :: g'), s1, s2. cbn [length]. repeat split; try congruence.
      + intros HS H00. rewrite (E6 HS). f_equal. unfold read_gamma, np_sum, gather. rewrite HS. unfold seq_sum.
        rewrite (map_ext_in _ (fun _ => nzero N)).
        * rewrite map_const_tab, <- repeat_tab. apply fold_zeros; auto.
        * intros p Hp. unfold z. apply nth_repeat.
      + rewrite (Hs s) by auto. rewrite E1. reflexivity.
      + rewrite (Hs s) by auto. cbn [map]. rewrite E2. reflexivity.
  Qed.
End Gen.
