(** The merge sort algorithm on arbitrary doubles: absolute error of its sums, compared with the run in exact arithmetic. *)
From Coq Require Import Reals Lra Lia List Arith Bool ZArith Psatz Permutation.
From Flocq Require Import Core IEEE754.BinarySingleNaN.
From Verif Require Import Num Numpy MUtils MInternals MMergesort MFloat Sums Tab RefFloat FloatError FloatSum FloatAvl RefMerge FloatAvlErr.
Import ListNotations.
Local Open Scope R_scope.

Lemma blocks_NoDup n Y len prev : (1 <= len)%nat -> blocks_ok n Y len prev -> NoDup prev.
Proof.
  intros Hl [Hlen Hb]. apply (NoDup_incl_NoDup (l := seq 0 n)); [apply seq_NoDup|rewrite seq_length; lia|].
  intros i Hi. apply in_seq in Hi. pose proof (Nat.div_mod i len ltac:(lia)) as Hd. pose proof (Nat.mod_upper_bound i len ltac:(lia)) as Hm.
  set (b := (i / len)%nat) in *. destruct (Hb b ltac:(nia)) as [HP _].
  assert (In i (slice prev (b * len) (b * len + len))) as H.
  { eapply Permutation_in; [symmetry; exact HP|]. apply in_seq. nia. }
  unfold slice in H. rewrite <- (firstn_skipn (b * len) prev). apply in_or_app. right.
  rewrite <- (firstn_skipn (b * len + len - b * len) (skipn (b * len) prev)). apply in_or_app. left. exact H.
Qed.

(** One row per weight variable, of size [K]. *)
Inductive rows (P : R -> list b64 -> list R -> Prop) : list R -> list (list b64) -> list (list R) -> Prop :=
| rows_nil : rows P [] [] []
| rows_cons K l r Ks ls rs : P K l r -> rows P Ks ls rs -> rows P (K :: Ks) (l :: ls) (r :: rs).
Lemma rows_impl (P Q : R -> list b64 -> list R -> Prop) Ks ls rs : (forall K l r, In K Ks -> P K l r -> Q K l r) -> rows P Ks ls rs -> rows Q Ks ls rs.
Proof. intros H HP. induction HP; constructor; [apply H; cbn; auto|apply IHHP; intros; apply H; cbn; auto]. Qed.

Lemma Forall2_nth {A B} (P : A -> B -> Prop) l l' d d' : length l = length l' ->
  (forall i, (i < length l)%nat -> P (nth i l d) (nth i l' d')) -> Forall2 P l l'.
Proof.
  revert l'. induction l as [|a l IH]; intros [|b l'] HL H; try discriminate; constructor.
  - apply (H 0%nat). cbn. lia.
  - apply IH; [cbn in HL; lia|]. intros i Hi. apply (H (S i)). cbn. lia.
Qed.

Section Sim.
  Context (lib : flib) (GL : good_lib lib).
  Notation NF := (B64Num lib).
  Notation NR := RNum.
  Context (EF : Env b64) (ER : Env R) (HNF : e_num EF = NF) (HNR : e_num ER = NR).
  Context (oob : exn).

  Lemma rel_rd {A A'} (P : A -> A' -> Prop) l l' i : Forall2 P l l' -> rel P (rd oob l i) (rd oob l' i).
  Proof. unfold rd. intros H. revert i. induction H; intros [|i]; cbn; auto. Qed.
  Lemma rd_get {A} (l : list A) i d v : rd oob l i = Ok v -> (i < length l)%nat /\ v = nth i l d.
  Proof.
    unfold rd. intros H. destruct (nth_error l i) as [w|] eqn:E; [|discriminate]. injection H as <-.
    split; [apply nth_error_Some; congruence|]. symmetry. apply nth_error_nth; auto.
  Qed.
  Lemma rel_take_chk k M l rs idx : apxs k M l rs -> rel (fun v w => apxs k M v w /\ length v = length idx) (take_chk oob l idx) (take_chk oob rs idx).
  Proof.
    intros H. induction idx as [|i idx IH]; [split; [constructor|auto]|]. cbn [take_chk].
    pose proof (rel_rd (apx k M) l rs i H) as Hr. unfold rd in Hr.
    destruct (nth_error l i), (nth_error rs i); cbn [of_option rel] in Hr; try contradiction; [|exact Hr].
    destruct (take_chk oob l idx), (take_chk oob rs idx); cbn [rel] in *; try contradiction; auto.
    destruct IH. split; [constructor; auto|cbn; auto].
  Qed.

  Lemma apxs_dot k l M M' a b p q : apxs k M a p -> apxs l M' b q -> length a = length b -> 0 <= M -> 0 <= M' -> lowM (M * M') ->
    lenR a * (M * M') <= BB -> few (S (k + l + length a)) ->
    apx (S (k + l + length a)) (lenR a * (M * M')) (ndot NF a b) (ndot NR p q).
  Proof.
    intros Ha Hb Hl M0 M0' HL HB Hf. assert (length (combine a b) = length a) as Hc by (rewrite combine_length; lia).
    assert (lenR (combine a b) = lenR a) as Hc' by (unfold lenR; rewrite Hc; auto).
    rewrite dot_R. rewrite <- Hc, <- Hc'. unfold map2. apply (apxs_dot_of k l M M'); auto.
    - apply ndot_of; auto.
    - apply apx_pairs; auto.
    - rewrite Hc'. auto.
    - rewrite Hc. auto.
  Qed.
  Lemma rel_dot k l M M' a b p q : apxs k M a p -> apxs l M' b q -> length a = length b -> 0 <= M -> 0 <= M' -> lowM (M * M') ->
    lenR a * (M * M') <= BB -> few (S (k + l + length a)) ->
    rel (apx (S (k + l + length a)) (lenR a * (M * M'))) (np_dot NF a b) (np_dot NR p q).
  Proof.
    intros Ha Hb Hl. intros. unfold np_dot. rewrite <- (apxs_length _ _ _ _ Ha), <- (apxs_length _ _ _ _ Hb), Hl, Nat.eqb_refl.
    cbn [rel]. rewrite <- Hl. apply apxs_dot; auto.
  Qed.

  (** ** One pass *)
  Context (n : nat) (yF : list b64) (Fy : Forall (fun v => is_finite v = true) yF).
  Notation m := (INR n).
  Notation yR := (map B2R yF).

  Lemma rel_rd_y i : rel (fun a r => is_finite a = true /\ r = B2R a) (rd oob yF i) (rd oob yR i).
  Proof.
    apply rel_rd. clear i. induction Fy; cbn [map]; constructor; auto.
  Qed.
  Lemma leb_R a b : is_finite a = true -> is_finite b = true -> nleb NF a b = nleb NR (B2R a) (B2R b).
  Proof.
    intros Fa Fb. cbn [nleb B64Num RNum]. rewrite Bleb_correct by auto. unfold Rleb.
    destruct (Rle_bool_spec (B2R a) (B2R b)), (Rle_dec (B2R a) (B2R b)); auto; lra.
  Qed.

  (** [p] passes are over, and the pass reading [prev] has dealt with the positions before [q] *)
  Definition okrow (p : nat) (prev : list nat) (q : nat) (K : R) (row : list b64) (rowR : list R) : Prop :=
    length row = n /\ length rowR = n /\
    (forall i, (i < n)%nat -> apx (n + 3 + p) (INR (S p) * (2 * (m * K))) (nth i row fz) (nth i rowR 0)) /\
    (forall j, (q <= j)%nat -> (j < n)%nat -> apx (n + 2 + p) (INR p * (2 * (m * K))) (nth (nth j prev 0%nat) row fz) (nth (nth j prev 0%nat) rowR 0)).
  Definition okcum (K : R) (row : list b64) (rowR : list R) : Prop := apxs (n + 1) (m * K) row rowR.
  (** sizes that do not overflow *)
  Context (L : nat) (Hn : (1 <= n)%nat).
  Definition sized (K : R) : Prop := 0 < K /\ lowM K /\ INR L * (2 * (m * K)) <= BB.
  Context (Hfew : few (n + 4 + L)).
  Lemma m1 : 1 <= m. Proof. replace 1 with (INR 1) by (cbn; ring). apply le_INR. auto. Qed.
  Lemma fewk k : (k <= n + 4 + L)%nat -> few k.
  Proof. intros H. apply (few_le _ _ Hfew). auto. Qed.
  Lemma size_p K p : sized K -> (p <= L)%nat -> 0 < 2 * (m * K) /\ lowM (INR p * (2 * (m * K))) /\ INR p * (2 * (m * K)) <= BB.
  Proof.
    intros (K0 & KL & KB) Hp. pose proof m1. assert (0 < m * K) by (apply Rmult_lt_0_compat; lra). split; [lra|]. split.
    - destruct p as [|p]; [left; cbn; ring|]. apply lowM_mul; [rewrite S_INR; pose proof (pos_INR p); lra|]. apply lowM_mul; [lra|]. apply lowM_mul; auto.
    - eapply Rle_trans; [|exact KB]. apply Rmult_le_compat_r; [lra|]. apply le_INR; auto.
  Qed.

  Lemma okrow_mono p prev q q' K row rowR : (q <= q')%nat -> okrow p prev q K row rowR -> okrow p prev q' K row rowR.
  Proof. intros H (H1 & H2 & H3 & H4). split; [auto|]. split; [auto|]. split; [auto|]. intros j Hj Hj'. apply H4; lia. Qed.

  Lemma rel_add_weight p prev q hi lo K row rowR cum cumR : NoDup prev -> length prev = n -> sized K -> (S p <= L)%nat ->
    (q < n)%nat -> (nth q prev 0 < n)%nat ->
    okrow p prev q K row rowR -> okcum K cum cumR ->
    rel (okrow p prev (S q) K) (add_weight EF oob (nth q prev 0%nat) hi lo row cum) (add_weight ER oob (nth q prev 0%nat) hi lo rowR cumR).
  Proof.
    intros ND Lp HK HpL Hq Hpq (R1 & R2 & R3 & R4) HC. unfold add_weight. rewrite HNF, HNR.
    set (p2 := nth q prev 0%nat) in *.
    destruct (size_p K p HK) as (D0 & DL & DB); [lia|]. destruct (size_p K (S p) HK) as (_ & EL & EB); [lia|].
    assert (E1 : rd oob row p2 = Ok (nth p2 row fz)). { unfold rd. rewrite (nth_error_nth' row fz) by lia. reflexivity. }
    assert (E2 : rd oob rowR p2 = Ok (nth p2 rowR 0)). { unfold rd. rewrite (nth_error_nth' rowR 0) by lia. reflexivity. }
    rewrite E1, E2. cbn [rbind].
    apply (rel_bind _ _ _ _ _ _ (rel_rd _ _ _ hi HC)). intros chi chiR Hhi.
    apply (rel_bind _ _ _ _ _ _ (rel_rd _ _ _ lo HC)). intros clo cloR Hlo.
    cbn [rel]. pose proof m1 as M1.
    assert (B2 : 2 * (m * K) <= BB).
    { rewrite S_INR in EB. pose proof (pos_INR p). assert (0 <= INR p * (2 * (m * K))) by (apply Rmult_le_pos; lra). lra. }
    assert (D : apx (n + 2 + p) (2 * (m * K)) (nsub NF chi clo) (nsub NR chiR cloR)).
    { replace (2 * (m * K)) with (m * K + m * K) by ring. apply (apx_k (S (n + 1))); [|lia].
      apply apx_sub; auto; [apply fewk; lia|lra]. }
    assert (N' : apx (n + 3 + p) (INR (S p) * (2 * (m * K))) (nadd NF (nth p2 row fz) (nsub NF chi clo)) (nadd NR (nth p2 rowR 0) (nsub NR chiR cloR))).
    { replace (n + 3 + p)%nat with (S (n + 2 + p)) by lia. rewrite S_INR in *.
      replace ((INR p + 1) * (2 * (m * K))) with (INR p * (2 * (m * K)) + 2 * (m * K)) in * by ring.
      apply apx_add; auto; [apply R4; lia|apply fewk; lia]. }
    split; [rewrite upd_length; auto|]. split; [rewrite upd_length; auto|]. split.
    - intros i Hi. rewrite !upd_nth by lia. destruct (i =? p2)%nat; auto.
    - intros j Hj Hj'. assert (nth j prev 0%nat <> p2) as Hne.
      { unfold p2. intros H. apply (proj1 (NoDup_nth prev 0%nat) ND) in H; lia. }
      destruct (Nat.lt_ge_cases (nth j prev 0%nat) n) as [Hb|Hb].
      + rewrite !upd_nth by lia. apply Nat.eqb_neq in Hne. rewrite Hne. apply R4; lia.
      + rewrite !nth_overflow by (rewrite upd_length; lia). apply apx_zero; auto.
  Qed.

  Lemma rel_add_weights p prev q hi lo Ks : NoDup prev -> length prev = n -> Forall sized Ks -> (S p <= L)%nat ->
    (q < n)%nat -> (nth q prev 0 < n)%nat -> forall ws wsR, rows (okrow p prev q) Ks ws wsR -> forall cums cumsR, rows okcum Ks cums cumsR ->
    rel (rows (okrow p prev (S q)) Ks) (add_weights EF oob (nth q prev 0%nat) hi lo ws cums) (add_weights ER oob (nth q prev 0%nat) hi lo wsR cumsR).
  Proof.
    intros ND Lp HS HpL Hq Hpq ws wsR HW. induction HW as [|K row rowR Ks ws wsR HK HW IH]; intros cums cumsR HC; inversion HC; subst; cbn [add_weights]; [constructor|].
    eapply rel_bind; [apply rel_add_weight; eauto; apply (Forall_inv HS)|]. intros row' rowR' Hr.
    eapply rel_bind; [apply IH; eauto; eapply Forall_inv_tail; eauto|]. intros rest restR Hrest. cbn. constructor; auto.
  Qed.

  Definition okst p prev q Ks (st : mstate (T:=b64)) (stR : mstate (T:=R)) : Prop :=
    ms_cur st = ms_cur stR /\ ms_idx st = ms_idx stR /\ rows (okrow p prev q) Ks (ms_ws st) (ms_ws stR).
  Lemma okst_mono p prev q q' Ks st stR : (q <= q')%nat -> okst p prev q Ks st stR -> okst p prev q' Ks st stR.
  Proof. intros H (A & B & C). split; [auto|]. split; [auto|]. eapply rows_impl; [|exact C]. intros. eapply okrow_mono; eauto. Qed.

  Section Pass.
    Context (p : nat) (prev : list nat) (ND : NoDup prev) (Lp : length prev = n) (Hin : forall i, In i prev -> (i < n)%nat).
    Context (Ks : list R) (HS : Forall sized Ks) (HpL : (S p <= L)%nat).
    Context (cums : list (list b64)) (cumsR : list (list R)) (HC : rows okcum Ks cums cumsR).

    Lemma rel_push q st stR v ws wsR : ms_cur st = ms_cur stR -> ms_idx st = ms_idx stR -> rows (okrow p prev q) Ks ws wsR ->
      rel (okst p prev q Ks) (push oob st v ws) (push oob stR v wsR).
    Proof. intros A B C. unfold push. rewrite A, B. destruct (_ <? _)%nat; cbn [rel]; auto. repeat split; auto. Qed.

    Lemma rel_merge_loop fuel : forall s1 last1 s2 last2 st stR, okst p prev s2 Ks st stR ->
      rel (fun r r' => fst r = fst r' /\ okst p prev (Nat.max s2 (S last2)) Ks (snd r) (snd r'))
        (merge_loop EF oob true fuel yF prev cums s1 last1 s2 last2 st) (merge_loop ER oob true fuel yR prev cumsR s1 last1 s2 last2 stR).
    Proof.
      induction fuel as [|fuel IH]; intros s1 last1 s2 last2 st stR Hst; cbn [merge_loop];
        (destruct ((s1 <=? last1)%nat && (s2 <=? last2)%nat) eqn:Hc;
         [|cbn [rel fst snd]; split; auto; eapply okst_mono; [|exact Hst]; lia]); [reflexivity|].
      apply andb_true_iff in Hc. destruct Hc as [_ Hc2]. apply Nat.leb_le in Hc2.
      destruct (rd oob prev s1) as [p1|e] eqn:E1; [|reflexivity]. cbn [rbind].
      destruct (rd oob prev s2) as [p2|e] eqn:E2; [|reflexivity]. cbn [rbind].
      apply (rel_bind _ _ _ _ _ _ (rel_rd_y p1)). intros y1 r1 (F1 & ->).
      apply (rel_bind _ _ _ _ _ _ (rel_rd_y p2)). intros y2 r2 (F2 & ->).
      rewrite HNF, HNR, leb_R by auto. destruct Hst as (A & B & C).
      destruct (nleb NR (B2R y2) (B2R y1)).
      - eapply rel_bind; [apply (rel_push s2); eauto|]. intros st' stR' Hst'. apply IH; auto.
      - destruct (rd_get prev s2 0%nat p2 E2) as [Hs2 Ep2]. rewrite Lp in Hs2. subst p2.
        eapply rel_bind; [apply (rel_add_weights p prev s2 (last1 + 1) s1 Ks); eauto; apply Hin, nth_In; lia|].
        intros ws wsR Hws. eapply rel_bind; [apply (rel_push (S s2)); eauto|]. intros st' stR' Hst'.
        eapply rel_weaken; [apply IH; eauto|]. intros r r' (G1 & G2). split; auto. eapply okst_mono; [|exact G2]. lia.
    Qed.

    Lemma rel_copy q lo k st stR : okst p prev q Ks st stR -> rel (okst p prev q Ks) (copy_slice prev lo k st) (copy_slice prev lo k stR).
    Proof. intros (A & B & C). unfold copy_slice. rewrite A, B. destruct (_ && _); cbn [rel]; auto. repeat split; auto. Qed.

    Lemma rel_merge_pair len st stR a : (1 <= len)%nat -> okst p prev a Ks st stR ->
      rel (okst p prev (a + 2 * len) Ks) (merge_pair EF oob true n len yF prev cums st a) (merge_pair ER oob true n len yR prev cumsR stR a).
    Proof.
      intros Hl Hst. unfold merge_pair. cbv zeta.
      assert (Hst' : okst p prev (a + len) Ks st stR) by (eapply okst_mono; [|exact Hst]; lia).
      eapply rel_bind; [apply rel_merge_loop; exact Hst'|].
      intros [[s1 s2] st'] [[s1' s2'] stR'] (G1 & G2). cbn [fst snd] in *. injection G1 as <- <-.
      assert (G3 : okst p prev (a + 2 * len) Ks st' stR') by (eapply okst_mono; [|exact G2]; lia).
      destruct (_ <=? _)%nat; [apply rel_copy; auto|]. destruct (_ <=? _)%nat; [apply rel_copy; auto|]. exact G3.
    Qed.

    Lemma rel_merge_pairs len k : (1 <= len)%nat -> forall b st stR, okst p prev (b * (2 * len)) Ks st stR ->
      rel (okst p prev ((b + k) * (2 * len)) Ks)
        (merge_pairs EF oob true n len yF prev cums (map (fun j => j * (2 * len))%nat (seq b k)) st)
        (merge_pairs ER oob true n len yR prev cumsR (map (fun j => j * (2 * len))%nat (seq b k)) stR).
    Proof.
      intros Hl. induction k as [|k IH]; intros b st stR Hst; cbn [seq map merge_pairs]; [cbn; rewrite Nat.add_0_r; auto|].
      eapply rel_bind; [apply rel_merge_pair; eauto|]. intros st' stR' Hst'.
      replace (b + S k)%nat with (S b + k)%nat by lia. apply IH. eapply okst_mono; [|exact Hst']. lia.
    Qed.
  End Pass.

  (** ** All passes *)
  Definition okdone (p : nat) (K : R) (row : list b64) (rowR : list R) : Prop :=
    apxs (n + 2 + p) (INR p * (2 * (m * K))) row rowR /\ length row = n.
  Lemma okdone_start p prev K row rowR : sized K -> (S p <= L)%nat -> okdone p K row rowR -> okrow p prev 0 K row rowR.
  Proof.
    intros HK HpL [H Hl]. pose proof (apxs_length _ _ _ _ H) as Hl'.
    destruct (size_p K p HK) as (D0 & DL & DB); [lia|]. destruct (size_p K (S p) HK) as (_ & EL & EB); [lia|].
    split; auto. split; [congruence|]. split.
    - intros i Hi. eapply apx_weaken; [apply apxs_nth; [exact H|auto|auto]|lia| |auto|auto]. rewrite S_INR. lra.
    - intros j _ Hj. apply apxs_nth; auto.
  Qed.
  Lemma okrow_done p prev q K row rowR : okrow p prev q K row rowR -> okdone (S p) K row rowR.
  Proof.
    intros (H1 & H2 & H3 & _). split; auto. apply (Forall2_nth _ _ _ fz 0); [congruence|]. intros i Hi.
    replace (n + 2 + S p)%nat with (n + 3 + p)%nat by lia. apply H3. lia.
  Qed.
  Lemma okdone_weaken p q K row rowR : sized K -> (p <= q <= L)%nat -> okdone p K row rowR -> okdone q K row rowR.
  Proof.
    intros HK Hp [H Hl]. split; auto. destruct (size_p K q HK) as (D0 & DL & DB); [lia|].
    eapply apxs_weaken; [exact H|lia| |auto|auto]. apply Rmult_le_compat_r; [lra|]. apply le_INR. lia.
  Qed.

  Context (Yf : nat -> R) (HY : yR = tab n Yf) (Ws : list (nat -> R)).
  Context (Ks : list R) (HS : Forall sized Ks).
  Context (weights : list (list b64)) (HW : rows (fun K l r => apxs 1 K l r) Ks weights (map (tab n) Ws)).
  Context (HL1 : (1 <= L)%nat).

  Lemma rel_cums prev : length prev = n -> rel (rows okcum Ks) (mapM (cumsum_var EF oob prev) weights) (mapM (cumsum_var ER oob prev) (map (tab n) Ws)).
  Proof.
    intros Lp. generalize (map (tab n) Ws) HW. intros wR HWR. revert HS. clear - HWR Lp GL HNF HNR Hn Hfew HL1.
    induction HWR as [|K l r Ks ls rs HK HR IH]; intros HS; cbn [mapM]; [constructor|].
    pose proof (Forall_inv HS) as SK. destruct (size_p K 1 SK) as (D0 & DL & DB); [lia|]. cbn [INR] in DL, DB. rewrite Rmult_1_l in DL, DB.
    destruct SK as (K0 & KL & _). pose proof m1. assert (LK : lowM (m * K)) by (apply lowM_mul; auto).
    eapply rel_bind.
    - unfold cumsum_var. eapply rel_bind; [apply (rel_take_chk 1 K l r prev HK)|]. intros v w (Hv & Lv). rewrite HNF, HNR.
      instantiate (1 := okcum K). cbn [rel]. unfold okcum. constructor; [apply apx_zero; auto; lra|].
      replace (n + 1)%nat with (1 + length v)%nat by lia. replace m with (lenR v) by (unfold lenR; congruence).
      apply apxs_cumsum; auto; [lra| |apply fewk; lia]. unfold lenR. rewrite Lv, Lp. lra.
    - intros c cR Hc. eapply rel_bind; [apply IH; eapply Forall_inv_tail; eauto|]. intros cs csR Hcs. cbn. constructor; auto.
  Qed.

  Lemma rel_passes fuel : forall len p prev cur ws F, (1 <= len)%nat -> blocks_ok n Yf len prev -> length cur = n ->
    (exists r, (n <= len * 2 ^ r)%nat /\ (p + r = L)%nat) -> rows (okdone p) Ks ws (wsrows n Ws F) ->
    rel (rows (okdone L) Ks) (merge_passes EF oob true fuel n len yF weights prev cur ws)
      (merge_passes ER oob true fuel n len yR (map (tab n) Ws) prev cur (wsrows n Ws F)).
  Proof.
    induction fuel as [|fuel IH]; intros len p prev cur ws F Hl Hb Hcur (r & Hr & HpL) Hws; cbn [merge_passes];
      (destruct (Nat.ltb_spec len n) as [Hlt|Hge];
       [|eapply rows_impl; [|exact Hws]; intros K l r0 HK; apply okdone_weaken; [rewrite Forall_forall in HS; auto|lia]]); [reflexivity|].
    destruct r as [|r]; [cbn in Hr; lia|].
    pose proof (blocks_In n Yf len prev Hl Hb) as Hin. pose proof (proj1 Hb) as Hlen. pose proof (blocks_NoDup n Yf len prev Hl Hb) as ND.
    pose proof (rel_cums prev Hlen) as HC. rewrite (cumrows_ok ER oob HNR n Ws prev Hlen Hin) in HC |- *.
    destruct (mapM (cumsum_var EF oob prev) weights) as [cums|e]; [|contradiction]. cbn [rel rbind] in HC |- *.
    assert (PS : okst p prev 0 Ks (mkMS cur 0 ws) (mkMS cur 0 (wsrows n Ws F))).
    { repeat split. eapply rows_impl; [|exact Hws]. intros K l r0 HK. apply okdone_start; [rewrite Forall_forall in HS; auto|lia]. }
    pose proof (rel_merge_pairs p prev ND Hlen Hin Ks HS ltac:(lia) cums _ HC len ((n + 2 * len - 1) / (2 * len)) Hl 0 _ _ PS) as HM.
    fold (range_step n (2 * len)) in HM. rewrite HY in HM |- *.
    rewrite (pass_ok ER oob HNR n Yf Ws prev len Hlen Hin Hl cur F Hcur) in HM |- *.
    destruct (merge_pairs EF oob true n len yF prev cums (range_step n (2 * len)) (mkMS cur 0 ws)) as [st|e]; [|contradiction].
    cbn [rel rbind ms_cur ms_ws] in HM |- *. destruct HM as (HM1 & _ & HM2). cbn [ms_cur ms_ws] in HM1, HM2. rewrite HM1.
    destruct (pass_inv n Yf prev len Hl Hb) as [Hb' _]. rewrite <- HY.
    apply (IH (2 * len)%nat (S p)); auto; [lia| |].
    - exists r. split; [cbn [Nat.pow] in Hr; nia|lia].
    - eapply rows_impl; [|exact HM2]. intros K l r0 _. apply okrow_done.
  Qed.

  Lemma rel_weight_sums : length yF = n -> (n <= 2 ^ L)%nat ->
    rel (rows (okdone L) Ks) (compute_weight_sums EF oob true yF weights) (compute_weight_sums ER oob true yR (map (tab n) Ws)).
  Proof.
    intros Ly HnL. assert (Ly' : length yR = n) by (rewrite map_length; exact Ly). unfold compute_weight_sums. rewrite Ly, Ly'.
    assert (map (fun _ => repeat (nzero (e_num ER)) n) (map (tab n) Ws) = wsrows n Ws (fun _ _ => 0)) as ->.
    { unfold wsrows. rewrite map_map. apply map_ext. intros w. rewrite HNR. cbn [nzero RNum]. rewrite repeat_tab. reflexivity. }
    apply (rel_passes n 1 0); [lia|apply blocks_ok_1|apply repeat_length|exists L; lia|].
    unfold wsrows. rewrite HNF. cbn [nzero B64Num]. clear - HW HL1 HS Hn.
    replace (map (fun _ : nat -> R => tab n (fun _ : nat => 0)) Ws) with (map (fun _ : list R => tab n (fun _ : nat => 0)) (map (tab n) Ws)) by (rewrite map_map; reflexivity).
    revert HS. induction HW as [|K l r Ks ls rs HK HR IH]; intros HS; cbn [map]; constructor.
    - split; [|apply repeat_length]. destruct (size_p K 0 (Forall_inv HS)) as (_ & DL & DB); [lia|].
      apply (Forall2_nth _ _ _ fz 0); [rewrite repeat_length, tab_length; auto|]. rewrite repeat_length. intros i Hi.
      rewrite tab_nth by auto. rewrite nth_repeat. apply apx_zero; auto.
    - apply IH; auto. eapply Forall_inv_tail; eauto.
  Qed.
End Sim.
