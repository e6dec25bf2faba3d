(** The MERGESORT method never reads or writes out of range and always terminates, for every
    number type and every comparison (NaN included): its result does not depend on what an
    out-of-range access would do.  When the weights cannot be cast (integer [y], see MMergesort.v)
    it either raises TypeError or returns that same result. *)
From Coq Require Import Lia List Arith Bool ZArith.
From Verif Require Import Num Numpy MUtils MInternals MMergesort Sums Tab RefMerge.
Import ListNotations.

(** A run, as a function of the out-of-range behaviour and of the cast flag. *)
Definition good {A} (run : exn -> bool -> res A) (P : A -> Prop) : Prop :=
  exists a, P a /\ forall o c, run o c = Ok a \/ (c = false /\ run o c = Err TypeError).

Lemma good_ret {A} (run : exn -> bool -> res A) a (P : A -> Prop) :
  P a -> (forall o c, run o c = Ok a) -> good run P.
Proof. intros H1 H2. exists a. auto. Qed.

Lemma good_bind {A B} (run : exn -> bool -> res A) (k : exn -> bool -> A -> res B) P Q :
  good run P -> (forall a, P a -> good (fun o c => k o c a) Q) ->
  good (fun o c => rbind (run o c) (k o c)) Q.
Proof.
  intros (a & Ha & H1) H2. destruct (H2 a Ha) as (b & Hb & H3). exists b. split; auto.
  intros o c. destruct (H1 o c) as [->|[Hc ->]]; cbn [rbind]; auto.
Qed.

Lemma good_ext {A} (run run' : exn -> bool -> res A) P :
  (forall o c, run' o c = run o c) -> good run P -> good run' P.
Proof. intros H (a & Ha & H1). exists a. split; auto. intros. rewrite H. auto. Qed.

Lemma good_weaken {A} (run : exn -> bool -> res A) (P Q : A -> Prop) :
  good run P -> (forall a, P a -> Q a) -> good run Q.
Proof. intros (a & Ha & H1) H. exists a. auto. Qed.

Lemma Forall_upd {A} (P : A -> Prop) l i v : Forall P l -> P v -> Forall P (upd l i v).
Proof.
  intros H Hv. revert i. induction H; intros [|i]; cbn; auto.
Qed.

Lemma Forall_firstn {A} (P : A -> Prop) l i : Forall P l -> Forall P (firstn i l).
Proof. intros H. revert i. induction H; intros [|i]; cbn; auto. Qed.

Lemma Forall_skipn {A} (P : A -> Prop) l i : Forall P l -> Forall P (skipn i l).
Proof. intros H. revert i. induction H; intros [|i]; cbn; auto. Qed.

Lemma cumsum_length {T} (N : Num T) a l : length (cumsum_from N a l) = length l.
Proof. revert a. induction l; intros; cbn; auto. Qed.

Section Gen.
  Context {T : Type} (E : Env T).
  Let N := e_num E.
  Variable n : nat.
  Variable y : list T.
  Hypothesis Hy : length y = n.

  Definition below (l : list nat) : Prop := Forall (fun i => i < n) l.
  Definition rows_ok (m : nat) (ws : list (list T)) : Prop := Forall (fun r => length r = m) ws.
  Definition st_ok (w idx : nat) (st : mstate (T:=T)) : Prop :=
    length (ms_cur st) = n /\ below (ms_cur st) /\ ms_idx st = idx /\
    rows_ok n (ms_ws st) /\ length (ms_ws st) = w.

  Lemma below_nth l i d : below l -> i < length l -> nth i l d < n.
  Proof. intros H Hi. unfold below in H. rewrite Forall_forall in H. apply H. apply nth_In; auto. Qed.

  Lemma add_weights_good p hi lo ws cums : p < n -> hi <= n -> lo <= n ->
    rows_ok n ws -> rows_ok (S n) cums -> length ws = length cums ->
    exists ws', (forall o, add_weights E o p hi lo ws cums = Ok ws') /\ rows_ok n ws' /\ length ws' = length ws.
  Proof.
    intros Hp Hhi Hlo H. revert cums. induction H as [|row ws Hr H IH]; intros cums Hc Hl.
    - exists []. destruct cums; [|discriminate]. repeat split; auto. constructor.
    - destruct cums as [|cs cums]; [discriminate|]. inversion Hc; subst.
      destruct (IH cums) as (ws' & E1 & E2 & E3); auto.
      eexists (upd row p _ :: ws'). split; [|split].
      + intros o. cbn [add_weights add_weight]. unfold add_weight.
        rewrite (rd_ok o row p (nzero N)) by lia. cbn [rbind].
        rewrite (rd_ok o cs hi (nzero N)) by lia. cbn [rbind].
        rewrite (rd_ok o cs lo (nzero N)) by lia. cbn [rbind]. rewrite E1. reflexivity.
      + constructor; auto. rewrite upd_length; auto.
      + cbn. auto.
  Qed.

  Lemma push_ok w idx st v ws : st_ok w idx st -> idx < n -> v < n -> rows_ok n ws -> length ws = w ->
    exists st', (forall o, push o st v ws = Ok st') /\ st_ok w (S idx) st'.
  Proof.
    intros (H1 & H2 & H3 & H4 & H5) Hi Hv Hw Hl.
    eexists. split.
    - intros o. unfold push. rewrite H3, H1. destruct (Nat.ltb_spec idx n); [reflexivity|lia].
    - unfold st_ok. cbn. rewrite upd_length. repeat split; auto. apply Forall_upd; auto.
  Qed.

  Section Pass.
    Variable prev : list nat.
    Variable cums : list (list T).
    Hypothesis Hprev : length prev = n.
    Hypothesis Hbelow : below prev.
    Hypothesis Hcums : rows_ok (S n) cums.

    Lemma merge_loop_good last1 last2 : last1 < n -> last2 < n ->
      forall fuel s1 s2 st idx, (S last1 - s1) + (S last2 - s2) <= fuel ->
      st_ok (length cums) idx st -> idx + (S last1 - s1) + (S last2 - s2) <= n ->
      good (fun o c => merge_loop E o c fuel y prev cums s1 last1 s2 last2 st)
        (fun r => let '(s1', s2', st') := r in
           ~ (s1' <= last1 /\ s2' <= last2) /\
           exists idx', st_ok (length cums) idx' st' /\
           idx' + (S last1 - s1') + (S last2 - s2') = idx + (S last1 - s1) + (S last2 - s2)).
    Proof.
      intros HL1 HL2. induction fuel as [|fuel IH]; intros s1 s2 st idx Hf Hst Hroom.
      - apply good_ret with (a := (s1, s2, st)).
        + split; [lia|]. exists idx. auto.
        + intros o c. cbn [merge_loop].
          destruct (Nat.leb_spec s1 last1), (Nat.leb_spec s2 last2); try reflexivity. lia.
      - destruct (le_dec s1 last1) as [H1|H1]; [destruct (le_dec s2 last2) as [H2|H2]|].
        + assert (nth s1 prev 0 < n) as Hp1 by (apply below_nth; auto; lia).
          assert (nth s2 prev 0 < n) as Hp2 by (apply below_nth; auto; lia).
          set (p1 := nth s1 prev 0) in *. set (p2 := nth s2 prev 0) in *.
          set (b := nleb N (nth p2 y (nzero N)) (nth p1 y (nzero N))).
          apply good_ext with (run := fun o c =>
            if b then rbind (push o st p1 (ms_ws st)) (fun st => merge_loop E o c fuel y prev cums (S s1) last1 s2 last2 st)
            else if c then rbind (add_weights E o p2 (last1 + 1) s1 (ms_ws st) cums) (fun ws =>
                 rbind (push o st p2 ws) (fun st => merge_loop E o c fuel y prev cums s1 last1 (S s2) last2 st))
            else Err TypeError).
          { intros o c. cbn [merge_loop].
            destruct (Nat.leb_spec s1 last1), (Nat.leb_spec s2 last2); try lia. cbn [andb].
            rewrite (rd_ok o prev s1 0) by lia. cbn [rbind].
            rewrite (rd_ok o prev s2 0) by lia. cbn [rbind]. fold p1 p2.
            rewrite (rd_ok o y p1 (nzero N)) by lia. cbn [rbind].
            rewrite (rd_ok o y p2 (nzero N)) by lia. cbn [rbind]. reflexivity. }
          destruct b.
          * destruct (push_ok (length cums) idx st p1 (ms_ws st)) as (st' & E1 & E2); auto; try lia.
            1-2: apply Hst.
            apply good_bind with (P := fun s => s = st').
            { apply good_ret with (a := st'); auto. }
            intros ? ->. eapply good_weaken; [apply (IH (S s1) s2 st' (S idx)); auto; lia|].
            intros [[s1' s2'] st''] [Q1 (idx' & Q2 & Q3)]. split; auto. exists idx'. split; auto. lia.
          * destruct Hst as (G1 & G2 & G3 & G4 & G5).
            destruct (add_weights_good p2 (last1 + 1) s1 (ms_ws st) cums) as (ws' & E1 & E2 & E3); auto; try lia.
            destruct (push_ok (length cums) idx st p2 ws') as (st' & E4 & E5); auto; try lia.
            { unfold st_ok. auto. }
            destruct (IH s1 (S s2) st' (S idx)) as ([[s1' s2'] st''] & [Q1 (idx' & Q2 & Q3)] & Q4); auto; try lia.
            exists (s1', s2', st''). split.
            { split; auto. exists idx'. split; auto. lia. }
            intros o [|]; auto. left. rewrite E1. cbn [rbind]. rewrite E4. cbn [rbind].
            destruct (Q4 o true) as [|[? _]]; [auto|discriminate].
        + apply good_ret with (a := (s1, s2, st)).
          * split; [lia|]. exists idx. auto.
          * intros o c. cbn [merge_loop].
            destruct (Nat.leb_spec s1 last1), (Nat.leb_spec s2 last2); try reflexivity; lia.
        + apply good_ret with (a := (s1, s2, st)).
          * split; [lia|]. exists idx. auto.
          * intros o c. cbn [merge_loop].
            destruct (Nat.leb_spec s1 last1), (Nat.leb_spec s2 last2); try reflexivity; lia.
    Qed.

    Lemma copy_slice_good lo k st idx w : st_ok w idx st -> idx + k <= n -> lo + k <= n ->
      exists st', copy_slice prev lo k st = Ok st' /\ st_ok w (idx + k) st'.
    Proof.
      intros (H1 & H2 & H3 & H4 & H5) Hi Hlo.
      assert (length (slice prev lo (lo + k)) = k) as Hs by (rewrite slice_length; lia).
      unfold copy_slice. rewrite Hs, H3, H1, Nat.eqb_refl.
      destruct (Nat.leb_spec (idx + k) n); [|lia]. cbn [andb]. eexists. split; [reflexivity|].
      unfold st_ok. cbn. rewrite !app_length, Hs, firstn_length, skipn_length, H1.
      repeat split; auto; [lia|]. unfold below, slice in *.
      apply Forall_app. split; [apply Forall_firstn; auto|].
      apply Forall_app. split; [|apply Forall_skipn; auto].
      apply Forall_firstn, Forall_skipn; auto.
    Qed.

    Lemma merge_pair_good len p st : 1 <= len -> p < n -> st_ok (length cums) p st ->
      good (fun o c => merge_pair E o c n len y prev cums st p)
        (st_ok (length cums) (Nat.min (p + 2 * len) n)).
    Proof.
      intros Hl Hp Hst. unfold merge_pair.
      set (last1 := Nat.min (p + len - 1) (n - 1)). set (last2 := Nat.min (p + len + len - 1) (n - 1)).
      assert (last1 < n) by (unfold last1; lia). assert (last2 < n) by (unfold last2; lia).
      assert (p + (S last1 - p) + (S last2 - (p + len)) = Nat.min (p + 2 * len) n) as Hroom
        by (unfold last1, last2; lia).
      assert (S last1 - p <= len /\ S last2 - (p + len) <= len) as [F1 F2] by (unfold last1, last2; lia).
      clearbody last1 last2.
      eapply good_bind; [apply (merge_loop_good last1 last2); eauto; lia|].
      intros [[s1 s2] st'] [Q1 (idx & Q2 & Q3)].
      destruct (Nat.leb_spec s1 last1).
      - destruct (copy_slice_good s1 (last1 - s1 + 1) st' idx (length cums)) as (st'' & E1 & E2); auto; try lia.
        apply good_ret with (a := st''); auto.
        replace (Nat.min (p + 2 * len) n) with (idx + (last1 - s1 + 1)) by lia. auto.
      - destruct (Nat.leb_spec s2 last2).
        + destruct (copy_slice_good s2 (last2 - s2 + 1) st' idx (length cums)) as (st'' & E1 & E2); auto; try lia.
          apply good_ret with (a := st''); auto.
          replace (Nat.min (p + 2 * len) n) with (idx + (last2 - s2 + 1)) by lia. auto.
        + apply good_ret with (a := st'); auto.
          replace (Nat.min (p + 2 * len) n) with idx by lia. auto.
    Qed.

    Lemma merge_pairs_good len : 1 <= len -> forall k b st,
      (forall j, j < k -> (b + j) * (2 * len) < n) ->
      st_ok (length cums) (Nat.min (b * (2 * len)) n) st ->
      good (fun o c => merge_pairs E o c n len y prev cums (tab k (fun j => (b + j) * (2 * len))) st)
        (st_ok (length cums) (Nat.min ((b + k) * (2 * len)) n)).
    Proof.
      intros Hl. induction k; intros b st Hb Hst.
      - apply good_ret with (a := st); auto. rewrite Nat.add_0_r. auto.
      - assert (b * (2 * len) < n) as Hbn
          by (specialize (Hb 0 ltac:(lia)); rewrite Nat.add_0_r in Hb; exact Hb).
        rewrite (Nat.min_l (b * (2 * len)) n) in Hst by lia.
        apply good_ext with (run := fun o c => rbind (merge_pair E o c n len y prev cums st (b * (2 * len)))
          (fun st => merge_pairs E o c n len y prev cums (tab k (fun j => (S b + j) * (2 * len))) st)).
        { intros o c. rewrite tab_S. cbn [merge_pairs]. rewrite Nat.add_0_r.
          destruct (merge_pair E o c n len y prev cums st (b * (2 * len))); cbn [rbind]; auto.
          f_equal. apply tab_ext. intros. f_equal. lia. }
        eapply good_bind; [apply merge_pair_good; auto|].
        intros st' Hst'. eapply good_weaken.
        + apply (IHk (S b)).
          * intros j Hj. replace (S b + j) with (b + S j) by lia. apply Hb. lia.
          * replace (S b * (2 * len)) with (b * (2 * len) + 2 * len) by lia. auto.
        + intros a. replace (S b + k) with (b + S k) by lia. auto.
    Qed.
  End Pass.

  Lemma take_chk_any {A} (d : A) l idx : Forall (fun i => i < length l) idx ->
    forall o, take_chk o l idx = Ok (take d l idx).
  Proof.
    intros H o. induction H as [|i idx Hi H IH]; cbn; auto.
    rewrite (nth_error_nth' l d) by auto. rewrite IH. reflexivity.
  Qed.

  Lemma cums_good prev weights : length prev = n -> below prev -> rows_ok n weights ->
    exists cums, (forall o, mapM (cumsum_var E o prev) weights = Ok cums) /\
      rows_ok (S n) cums /\ length cums = length weights.
  Proof.
    intros Hp Hb H. induction H as [|w weights Hw H IH].
    - exists []. repeat split; auto. constructor.
    - destruct IH as (cums & E1 & E2 & E3).
      eexists (_ :: cums). repeat split.
      + intros o. cbn [mapM]. unfold cumsum_var at 1.
        rewrite (take_chk_any (nzero N)) by (rewrite Hw; auto). cbn [rbind]. rewrite E1. reflexivity.
      + constructor; auto. cbn [length]. unfold np_cumsum. rewrite cumsum_length. unfold take.
        rewrite map_length. auto.
      + cbn. auto.
  Qed.

  Lemma merge_passes_good weights : rows_ok n weights ->
    forall fuel len prev cur ws, 1 <= len -> n <= len + fuel ->
    length prev = n -> below prev -> length cur = n -> below cur ->
    rows_ok n ws -> length ws = length weights ->
    good (fun o c => merge_passes E o c fuel n len y weights prev cur ws)
      (fun r => rows_ok n r /\ length r = length weights).
  Proof.
    intros Hw. induction fuel as [|fuel IH]; intros len prev cur ws Hl Hf Hp Hbp Hc Hbc Hws Hlw.
    - apply good_ret with (a := ws); auto. intros o c. cbn [merge_passes].
      destruct (Nat.ltb_spec len n); auto. lia.
    - destruct (le_lt_dec n len) as [Hn|Hn].
      { apply good_ret with (a := ws); auto. intros o c. cbn [merge_passes].
        destruct (Nat.ltb_spec len n); auto. lia. }
      destruct (cums_good prev weights Hp Hbp Hw) as (cums & E1 & E2 & E3).
      apply good_ext with (run := fun o c =>
        rbind (merge_pairs E o c n len y prev cums (range_step n (2 * len)) (mkMS cur 0 ws))
          (fun st => merge_passes E o c fuel n (2 * len) y weights (ms_cur st) prev (ms_ws st))).
      { intros o c. cbn [merge_passes]. destruct (Nat.ltb_spec len n); [|lia].
        rewrite E1. reflexivity. }
      eapply good_bind.
      + unfold range_step. fold (npairs n len). fold (tab (npairs n len) (fun k => k * (2 * len))).
        apply (merge_pairs_good prev cums Hp Hbp E2 len Hl (npairs n len) 0).
        * intros j Hj. apply (npairs_spec n len Hl). auto.
        * unfold st_ok. cbn. rewrite E3. repeat split; auto.
      + intros st (G1 & G2 & G3 & G4 & G5). apply IH; auto; try lia.
  Qed.

  Lemma compute_weight_sums_good weights : rows_ok n weights ->
    good (fun o c => compute_weight_sums E o c y weights)
      (fun r => rows_ok n r /\ length r = length weights).
  Proof.
    intros Hw. unfold compute_weight_sums. rewrite Hy.
    apply merge_passes_good; auto; try lia.
    - apply seq_length.
    - apply Forall_forall. intros i Hi. apply in_seq in Hi. lia.
    - apply repeat_length.
    - apply Forall_forall. intros i Hi. assert (Hi' := Hi). apply repeat_spec in Hi. subst i.
      destruct n; [contradiction|lia].
    - apply Forall_forall. intros r Hr. apply in_map_iff in Hr. destruct Hr as (? & <- & _).
      apply repeat_length.
    - apply map_length.
  Qed.
End Gen.

Section Terms.
  Context {T : Type} (E : Env T).
  Let N := e_num E.

  Lemma np_dot_len a b : length a = length b -> np_dot N a b = Ok (ndot N a b).
  Proof. intros H. unfold np_dot. rewrite H, Nat.eqb_refl. reflexivity. Qed.

  Lemma compute_aijbij_good x y : length x = length y ->
    good (fun o c => compute_aijbij_term E o c x y) (fun _ => True).
  Proof.
    intros H. unfold compute_aijbij_term. cbv zeta.
    assert (length (map2 (nmul N) x y) = length y) as Hxy by (rewrite map2_length; lia).
    eapply good_bind.
    - apply (compute_weight_sums_good E (length y) y eq_refl).
      repeat constructor; auto. apply map_length.
    - intros ws [Hr Hl]. cbn [length] in Hl. unfold rows_ok in Hr. rewrite Forall_forall in Hr.
      assert (forall k, k < 4 -> length (nth k ws []) = length y) as Hk
        by (intros k Hk; apply Hr, nth_In; lia).
      eapply good_ret with (P := fun _ => True); [exact I|]. intros o c.
      fold N. rewrite !np_dot_len by (rewrite ?Hk, ?map_length by lia; auto). cbn [rbind]. reflexivity.
  Qed.

  Lemma compute_row_sums_good x : 1 <= length x ->
    exists r, (forall o, compute_row_sums E o x = Ok r) /\ length r = length x.
  Proof.
    intros H. unfold compute_row_sums.
    assert (length (np_cumsum (e_num E) x) = length x) as Hl by apply cumsum_length.
    eexists. split.
    - intros o. rewrite (nth_error_nth' _ (nzero N)) by (rewrite Hl; lia). cbn [of_option rbind]. reflexivity.
    - rewrite !map2_length, !map_length, seq_length, Hl. lia.
  Qed.

  Hypothesis Hargsort : forall l, is_perm (length l) (e_argsort E l).

  Lemma argsort_below l : Forall (fun i => i < length l) (e_argsort E l).
  Proof. apply Forall_forall. intros i Hi. eapply is_perm_In; eauto. Qed.

  Theorem terms_mergesort_good k kv x y rv : 1 <= length x -> length x <= length y ->
    good (fun o c => terms_mergesort_impl E o c k kv x y rv) (fun _ => True).
  Proof.
    intros H1 H2. unfold terms_mergesort_impl. cbv zeta.
    assert (length (e_argsort E x) = length x) as Hlx by (apply is_perm_length; auto).
    eapply good_ext.
    { intros o c. rewrite (take_chk_any (nzero N) x) by apply argsort_below. cbn [rbind].
      rewrite (take_chk_any (nzero N) y)
        by (eapply Forall_impl; [|apply argsort_below]; cbn; intros; lia). cbn [rbind]. reflexivity. }
    set (xs := take (nzero N) x (e_argsort E x)). set (ys := take (nzero N) y (e_argsort E x)).
    assert (length xs = length x) as Lx by (unfold xs, take; rewrite map_length; auto).
    assert (length ys = length x) as Ly by (unfold ys, take; rewrite map_length; auto).
    clearbody xs ys.
    eapply good_bind; [apply compute_aijbij_good; lia|]. intros aijbij _.
    destruct (compute_row_sums_good xs) as (ra & R1 & R2); [lia|].
    assert (length (take (nzero N) ys (e_argsort E ys)) = length x) as Lys
      by (unfold take; rewrite map_length, <- Ly; apply is_perm_length; auto).
    destruct (compute_row_sums_good (take (nzero N) ys (e_argsort E ys))) as (rb & R3 & R4); [lia|].
    eapply good_ret with (P := fun _ => True); [exact I|]. intros o c.
    rewrite R1. cbn [rbind]. rewrite (take_chk_any (nzero N) ys) by apply argsort_below. cbn [rbind].
    rewrite R3. cbn [rbind]. reflexivity.
  Qed.
End Terms.
