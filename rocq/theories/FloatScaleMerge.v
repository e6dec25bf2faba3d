(** The MERGESORT algorithm on two samples and on the same samples multiplied by powers of two: every number of the second run is a
    power of two times the one of the first run. *)
From Coq Require Import Reals Lra Lia List Arith Bool ZArith Psatz.
From Flocq Require Import Core IEEE754.BinarySingleNaN.
From Verif Require Import Num Numpy MUtils MInternals MMergesort MAvl MFloat RefFloat Sums Spec Tab Invariance RefAvl MergeGeneric FloatError FloatSum FloatScale FloatScaleAvl.
Import ListNotations.
Local Open Scope R_scope.
Local Notation p2 := (bpow radix2).
Local Notation fz := (B754_zero false : b64).

Lemma rel_rd {A A'} oob (P : A -> A' -> Prop) l l' i : Forall2 P l l' -> rel P (rd oob l i) (rd oob l' i).
Proof. unfold rd. intros H. revert i. induction H; intros [|i]; cbn; auto. Qed.
Lemma rel_refl {A} (r : res A) : rel eq r r.
Proof. destruct r; cbn; auto. Qed.
Lemma rel_take oob (P : b64 -> b64 -> Prop) l l' idx : Forall2 P l l' ->
  rel (fun v w => Forall2 P v w /\ length v = length idx) (take_chk oob l idx) (take_chk oob l' idx).
Proof.
  intros H. induction idx as [|i idx IH]; [split; [constructor|auto]|]. cbn [take_chk].
  pose proof (rel_rd oob P l l' i H) as Hr. unfold rd in Hr.
  destruct (nth_error l i), (nth_error l' i); cbn [of_option rel] in Hr; try contradiction; [|exact Hr].
  destruct (take_chk oob l idx), (take_chk oob l' idx); cbn [rel] in *; try contradiction; auto.
  destruct IH. split; [constructor; auto|cbn; auto].
Qed.

Lemma F2_impl {A B} (P Q : A -> B -> Prop) l l' : (forall a b, P a b -> Q a b) -> Forall2 P l l' -> Forall2 Q l l'.
Proof. intros H. induction 1; constructor; auto. Qed.

Lemma scs_map2' k q e k' q' e' k2 q2 e2 f g l l' m m' : (forall a b c d, sc k q e a b -> sc k' q' e' c d -> sc k2 q2 e2 (f a c) (g b d)) ->
  scs k q e l l' -> scs k' q' e' m m' -> scs k2 q2 e2 (map2 f l m) (map2 g l' m').
Proof.
  intros Hf H. revert m m'. unfold map2. induction H as [|a b u v Hab Huv IH]; intros p r H'; cbn [combine map]; [constructor|].
  destruct H'; cbn [combine map fst snd]; constructor; auto. apply IH. auto.
Qed.

(** Rows of numbers, each with its own exponents (factor, multiple, bound). *)
Fixpoint rows (P : Z * Z * Z -> list b64 -> list b64 -> Prop) (Ss : list (Z * Z * Z)) (l l' : list (list b64)) : Prop :=
  match Ss, l, l' with
  | [], [], [] => True
  | s :: Ss, a :: l, a' :: l' => P s a a' /\ rows P Ss l l'
  | _, _, _ => False
  end.
Lemma rows_impl (P Q : Z * Z * Z -> list b64 -> list b64 -> Prop) Ss l l' : (forall s a b, P s a b -> Q s a b) -> rows P Ss l l' -> rows Q Ss l l'.
Proof. intros H. revert l l'. induction Ss; intros [|] [|]; cbn; try tauto. intros [H1 H2]. split; auto. Qed.

Definition fine (s : Z * Z * Z) : Prop := let '(k, q, e) := s in calm k q /\ (0 <= e <= 80)%Z.
Definition okc (s : Z * Z * Z) : list b64 -> list b64 -> Prop := let '(k, q, e) := s in scs k q (e + 18).
(** After at most [j] additions to each number. *)
Definition okr (n j : nat) (s : Z * Z * Z) (a b : list b64) : Prop := let '(k, q, e) := s in Forall2 (run k q (e + 19) j) a b /\ length a = n.

Lemma run_add40 k q e j a b c d : calm k q -> (-500 <= e <= 500)%Z -> (Z.of_nat (S j) <= 2 ^ 40)%Z -> run k q e j a b -> sc k q e c d ->
  run k q e (S j) (b64_add a c) (b64_add b d).
Proof.
  intros K He Hj H H'. unfold run. replace (INR (S j) * p2 e) with (INR j * p2 e + p2 e) by (rewrite S_INR; ring).
  apply scaled_add; auto; replace (INR j * p2 e + p2 e) with (INR (S j) * p2 e) by (rewrite S_INR; ring).
  - apply format_count; lia.
  - eapply Rle_trans; [apply (count_le _ 40); lia|apply p2_le; lia].
Qed.

Section Sim.
  Context (lib : flib) (GL : good_lib lib) (E : Env b64) (EN : e_num E = B64Num lib).
  Notation NF := (B64Num lib).
  Context (oob : exn) (n : nat) (Hn : (1 <= n)%nat) (Hn' : (Z.of_nat n <= 2 ^ 18)%Z).

  Lemma okr_le i j s a b : okr n i s a b -> (i <= j)%nat -> okr n j s a b.
  Proof. destruct s as [[k q] e]. intros [H L] Hij. split; [eapply runs_le; eauto|exact L]. Qed.

  Lemma rel_add_weights p hi lo Ss : Forall fine Ss -> forall ws ws' cs cs' j, rows (okr n j) Ss ws ws' -> rows okc Ss cs cs' -> (Z.of_nat (S j) <= 2 ^ 40)%Z ->
    rel (rows (okr n (S j)) Ss) (add_weights E oob p hi lo ws cs) (add_weights E oob p hi lo ws' cs').
  Proof.
    induction 1 as [|s Ss Hs HS IH]; intros [|w ws] [|w' ws'] [|c cs] [|c' cs'] j Hw Hc Hj; cbn [rows] in *; try tauto; cbn [add_weights rel rows]; auto.
    destruct Hw as [Hw Hws]. destruct Hc as [Hc Hcs]. destruct s as [[k q] e]. destruct Hs as [K He].
    apply (rel_bind (okr n (S j) (k, q, e))).
    - unfold add_weight. rewrite EN. cbn [okr okc] in *. destruct Hw as [Hw Lw].
      eapply rel_bind; [apply (rel_rd oob _ w w' p Hw)|]. intros a a' Ha.
      eapply rel_bind; [apply (rel_rd oob _ c c' hi Hc)|]. intros b b' Hb.
      eapply rel_bind; [apply (rel_rd oob _ c c' lo Hc)|]. intros d d' Hd. cbn [rel].
      split; [|rewrite upd_length; exact Lw]. apply rel_upd; [eapply runs_le; [exact Hw|lia]|]. apply run_add40; auto; [lia|]. replace (e + 19)%Z with (e + 18 + 1)%Z by lia. apply sc_sub; auto. lia.
    - intros r r' Hr. apply (rel_bind _ _ _ _ _ _ (IH ws ws' cs cs' j Hws Hcs Hj)). intros rs rs' Hrs. cbn [rel rows]. auto.
  Qed.

  Context (ky : Z) (y y' : list b64) (Hy : scs ky 92 40 y y').
  Context (Ss : list (Z * Z * Z)) (HS : Forall fine Ss).

  Lemma same_leb a b c d : sc ky 92 40 a b -> sc ky 92 40 c d -> Bleb a c = Bleb b d.
  Proof.
    intros (F1 & F2 & S1 & _) (F3 & F4 & S2 & _). rewrite !Bleb_correct by auto. rewrite S1, S2. pose proof (bpow_gt_0 radix2 ky).
    destruct (Rle_bool_spec (B2R a) (B2R c)) as [H'|H']; symmetry; [apply Rle_bool_true; apply Rmult_le_compat_l; lra|apply Rle_bool_false; apply Rmult_lt_compat_l; auto].
  Qed.

  Definition okst (base : nat) (st st' : mstate (T:=b64)) : Prop :=
    ms_cur st = ms_cur st' /\ ms_idx st = ms_idx st' /\ length (ms_cur st) = n /\ (ms_idx st <= n)%nat /\ rows (okr n (base + ms_idx st)) Ss (ms_ws st) (ms_ws st').

  Lemma rel_push base st st' v ws ws' : okst base st st' -> rows (okr n (S (base + ms_idx st))) Ss ws ws' -> rel (okst base) (push oob st v ws) (push oob st' v ws').
  Proof.
    intros (H1 & H2 & H3 & H4 & _) Hw. unfold push. rewrite <- H1, <- H2, H3. destruct (Nat.ltb_spec (ms_idx st) n) as [H|H]; cbn [rel]; auto.
    red. cbn [ms_cur ms_idx ms_ws]. rewrite upd_length. repeat split; auto. rewrite <- plus_n_Sm. exact Hw.
  Qed.

  Lemma rel_loop base prev cs cs' last1 last2 : rows okc Ss cs cs' -> (Z.of_nat (S (base + n)) <= 2 ^ 40)%Z -> forall fuel s1 s2 st st', okst base st st' ->
    rel (fun r r' => fst r = fst r' /\ okst base (snd r) (snd r')) (merge_loop E oob true fuel y prev cs s1 last1 s2 last2 st) (merge_loop E oob true fuel y' prev cs' s1 last1 s2 last2 st').
  Proof.
    intros Hc Hb. induction fuel as [|fuel IH]; intros s1 s2 st st' Hst; cbn [merge_loop]; destruct ((s1 <=? last1)%nat && (s2 <=? last2)%nat); cbn [rel]; auto.
    apply (rel_bind eq); [apply rel_refl|]. intros p1 ? <-. apply (rel_bind eq); [apply rel_refl|]. intros q2 ? <-.
    eapply rel_bind; [apply (rel_rd oob _ y y' p1 Hy)|]. intros y1 y1' H1. eapply rel_bind; [apply (rel_rd oob _ y y' q2 Hy)|]. intros y2 y2' H2.
    rewrite EN. cbn [nleb B64Num]. rewrite (same_leb y2 y2' y1 y1' H2 H1). pose proof Hst as (_ & _ & _ & H4 & Hw). destruct (Bleb y2' y1').
    - eapply rel_bind; [apply (rel_push base); eauto|]; [eapply rows_impl; [|exact Hw]; intros; eapply okr_le; eauto|]. intros st1 st1' Hs1. apply IH; auto.
    - eapply rel_bind; [apply (rel_add_weights q2 (last1 + 1) s1 Ss HS _ _ cs cs' (base + ms_idx st) Hw Hc); lia|]. intros ws ws' Hws.
      eapply rel_bind; [apply (rel_push base); eauto|]. intros st1 st1' Hs1. apply IH; auto.
  Qed.

  Lemma rel_copy base prev lo k st st' : okst base st st' -> rel (okst base) (copy_slice prev lo k st) (copy_slice prev lo k st').
  Proof.
    intros (H1 & H2 & H3 & H4 & Hw). unfold copy_slice. rewrite <- H1, <- H2, H3.
    destruct (Nat.eqb_spec (length (slice prev lo (lo + k))) k) as [A|A]; cbn [andb]; [|reflexivity].
    destruct (Nat.leb_spec (ms_idx st + k) n) as [B|B]; cbn [rel]; auto.
    red. cbn [ms_cur ms_idx ms_ws]. split; [auto|]. split; [auto|]. split; [rewrite !app_length, firstn_length, skipn_length; lia|]. split; [auto|].
    eapply rows_impl; [|exact Hw]. intros; eapply okr_le; eauto. lia.
  Qed.

  Lemma rel_pairs base prev cs cs' len : rows okc Ss cs cs' -> (Z.of_nat (S (base + n)) <= 2 ^ 40)%Z -> forall ps st st', okst base st st' ->
    rel (okst base) (merge_pairs E oob true n len y prev cs ps st) (merge_pairs E oob true n len y' prev cs' ps st').
  Proof.
    intros Hc Hb. induction ps as [|p ps IH]; intros st st' Hst; cbn [merge_pairs]; [exact Hst|].
    apply (rel_bind (okst base)); [|intros; apply IH; auto]. unfold merge_pair.
    eapply rel_bind; [apply (rel_loop base); eauto|]. intros [[s1 s2] st1] [[s1' s2'] st1'] [H1 H2]. cbn [fst snd] in *. injection H1 as <- <-.
    destruct (s1 <=? _)%nat; [apply rel_copy; auto|]. destruct (s2 <=? _)%nat; [apply rel_copy; auto|]. exact H2.
  Qed.

  Definition okw (s : Z * Z * Z) : list b64 -> list b64 -> Prop := let '(k, q, e) := s in scs k q e.
  Context (ws ws' : list (list b64)) (Hws : rows okw Ss ws ws').

  Lemma rel_cums prev : length prev = n -> rel (rows okc Ss) (mapM (cumsum_var E oob prev) ws) (mapM (cumsum_var E oob prev) ws').
  Proof.
    intros Hp. clear Hy. revert ws ws' Hws. induction HS as [|s Ss0 Hs HS0 IH]; intros [|w u] [|w' u'] Hw; cbn [rows mapM] in *; try tauto; cbn [rel rows]; auto.
    destruct Hw as [Hw Hu]. destruct s as [[k q] e]. destruct Hs as [K He]. apply (rel_bind (okc (k, q, e))).
    - unfold cumsum_var. eapply rel_bind; [apply (rel_take oob _ w w' prev Hw)|]. intros v v' [Hv Lv]. cbn [rel okc]. rewrite EN. constructor; [apply sc_zero|].
      apply scs_cumsum; auto; lia.
    - intros c c' Hc. apply (rel_bind _ _ _ _ _ _ (IH HS0 u u' Hu)). intros r r' Hr. cbn [rel rows]. auto.
  Qed.

  Lemma rel_passes fuel : forall len prev cur a a' base, length prev = n -> length cur = n -> rows (okr n base) Ss a a' -> (Z.of_nat (base + fuel * n) < 2 ^ 40)%Z ->
    rel (rows (okr n (base + fuel * n)) Ss) (merge_passes E oob true fuel n len y ws prev cur a) (merge_passes E oob true fuel n len y' ws' prev cur a').
  Proof.
    induction fuel as [|fuel IH]; intros len prev cur a a' base Hp Hc Ha Hb; cbn [merge_passes]; destruct (len <? n)%nat; cbn [rel]; auto;
      try (eapply rows_impl; [|exact Ha]; intros; eapply okr_le; eauto; lia).
    eapply rel_bind; [apply rel_cums; auto|]. intros cs cs' Hcs.
    eapply rel_bind; [apply (rel_pairs base _ cs cs' len Hcs)|].
    - cbn [Nat.mul] in Hb. lia.
    - red. cbn [ms_cur ms_idx ms_ws]. rewrite Nat.add_0_r. split; [reflexivity|]. split; [reflexivity|]. split; [exact Hc|]. split; [lia|exact Ha].
    - intros st st' (H1 & H2 & H3 & H4 & H5). rewrite <- H1. replace (base + S fuel * n)%nat with (base + n + fuel * n)%nat by (cbn; lia).
      apply IH; auto; [|cbn [Nat.mul] in Hb; lia]. eapply rows_impl; [|exact H5]. intros; eapply okr_le; eauto. lia.
  Qed.

  Definition oks (s : Z * Z * Z) (a b : list b64) : Prop := let '(k, q, e) := s in scs k q (e + 55) a b /\ length a = n.

  Lemma rel_weight_sums : length y = n -> rel (rows oks Ss) (compute_weight_sums E oob true y ws) (compute_weight_sums E oob true y' ws').
  Proof.
    intros Ly. unfold compute_weight_sums. rewrite <- (Forall2_len _ _ _ Hy), Ly. cbv zeta.
    assert (NN : (Z.of_nat (n * n) <= 2 ^ 36)%Z) by (rewrite Nat2Z.inj_mul; change (2 ^ 36)%Z with (2 ^ 18 * 2 ^ 18)%Z; apply Z.mul_le_mono_nonneg; lia).
    eapply rel_weaken; [apply (rel_passes n 1 _ _ _ _ 0); [apply seq_length|apply repeat_length| |cbn [Nat.add]; lia]|].
    - rewrite EN. change (nzero NF) with fz. clear - Hws. revert ws ws' Hws. induction Ss as [|s S0 IH]; intros [|w u] [|w' u'] H; cbn [rows map] in *; try tauto.
      split; [|apply IH; tauto]. destruct s as [[k q] e]. cbn [okr]. split; [|apply repeat_length]. clear. induction n; cbn [repeat]; constructor; auto using run_zero.
    - intros a a' Ha. eapply rows_impl; [|exact Ha]. intros [[k q] e] u v H. cbn [okr oks] in *. cbn [Nat.add] in H. destruct H as [H L]. split; [clear L|exact L].
      refine (F2_impl _ _ _ _ _ H). intros c d Hcd. unfold sc. replace (e + 55)%Z with (e + 19 + 36)%Z by lia.
      eapply scaled_weaken; [exact Hcd|lia|apply count_le; lia].
  Qed.
End Sim.

Section Terms.
  Context (lib : flib) (GL : good_lib lib) (E : Env b64) (EN : e_num E = B64Num lib).
  Notation NF := (B64Num lib).
  Context (Hemp : forall m, length (e_empty E m) = m) (Hperm : forall l, is_perm (length l) (e_argsort E l)).
  Context (kx ky : Z) (Kx : (-40 <= kx <= 40)%Z) (Ky : (-40 <= ky <= 40)%Z).
  Context (Hsort : forall k l l', (-40 <= k <= 40)%Z -> scs k 92 40 l l' -> e_argsort E l = e_argsort E l').
  Context (oob : exn) (n : nat) (Hn : (1 <= n)%nat) (Hn' : (Z.of_nat n <= 2 ^ 18)%Z).

  Lemma sc_dot k l q q' e e' a a' b b' : calm (k + l) (q + q') -> (-1000 <= e + e' <= 600)%Z -> length a = n -> length b = n -> scs k q e a a' -> scs l q' e' b b' ->
    rel (sc (k + l) (q + q') (e + e' + 18)) (np_dot NF a b) (np_dot NF a' b').
  Proof.
    intros K He La Lb Ha Hb. unfold np_dot. rewrite <- (Forall2_len _ _ _ Ha), <- (Forall2_len _ _ _ Hb), La, Lb, Nat.eqb_refl. cbn [rel].
    apply (scaled_dot lib k l q q' e e' 18); auto; try lia.
  Qed.

  Lemma row_sums_sim k l l' : (-40 <= k <= 40)%Z -> scs k 92 40 l l' -> length l = n ->
    rel (fun a b => scs k 92 61 a b /\ length a = n) (compute_row_sums E oob l) (compute_row_sums E oob l').
  Proof.
    intros K H Ll. assert (Kc : calm k 92) by (unfold calm; lia).
    unfold compute_row_sums. cbv zeta. rewrite <- (Forall2_len _ _ _ H), Ll, EN.
    pose proof (scs_cumsum lib k 92 40 l l' Kc ltac:(lia) H ltac:(lia)) as C. rewrite <- (Forall2_len _ _ _ C).
    eapply rel_bind; [apply (rel_rd oob _ _ _ (length (np_cumsum NF l) - 1) C)|]. intros a b Hab. cbn [rel nsub nmul nadd nofZ B64Num]. split.
    - apply (scs_map2 k 92 60 k 92 60); [intros u v w z Hu Hw; apply (sc_add k 92 60); auto; lia| |].
      + apply (scs_weaken k 92 58); [|lia]. apply (scs_map2_l k 92 40); auto. intros i u v Hi Hu. apply in_seq in Hi. apply (sc_cmul _ 18 k 92 40); auto; lia.
      + eapply scs_map'; [|exact C]. intros u v Hu. apply (sc_sub k 92 59); auto; [lia|apply (sc_weaken k 92 58); auto; lia|]. apply (sc_cmul 2 1 k 92 58); auto; lia.
    - unfold map2. rewrite map_length, combine_length, !map_length, combine_length, seq_length. unfold np_cumsum. rewrite cumsum_length. lia.
  Qed.

  Lemma aijbij_sim x x' y y' : scs kx 92 40 x x' -> scs ky 92 40 y y' -> length x = n -> length y = n ->
    rel (sc (kx + ky) 184 159) (compute_aijbij_term E oob true x y) (compute_aijbij_term E oob true x' y').
  Proof.
    intros Hx Hy Lx Ly. assert (C : calm (kx + ky) 184) by (unfold calm; lia). assert (Cx : calm kx 92) by (unfold calm; lia). assert (Cy : calm ky 92) by (unfold calm; lia).
    unfold compute_aijbij_term. cbv zeta. rewrite <- (Forall2_len _ _ _ Hx), Lx, EN. cbn [nmul nunit nofZ nadd nsub B64Num].
    set (xy := map2 b64_mul x y). set (xy' := map2 b64_mul x' y').
    assert (Hxy : scs (kx + ky) 184 80 xy xy') by (apply (scs_map2 kx 92 40 ky 92 40); auto; intros a b c d Ha Hc; apply (sc_mul kx ky 92 92 40 40); auto; lia).
    assert (Lxy : length xy = n) by (unfold xy, map2; rewrite map_length, combine_length; lia).
    set (Ss := [(0, 0, 0); (ky, 92, 40); (kx, 92, 40); (kx + ky, 184, 80)]%Z).
    assert (F : Forall fine Ss) by (repeat constructor; auto; try lia; unfold calm; lia).
    eapply rel_bind.
    { apply (rel_weight_sums lib E EN oob n Hn Hn' ky y y' Hy Ss F); auto. cbn [rows okw]. split; [|split; [exact Hy|split; [exact Hx|split; [exact Hxy|exact I]]]].
      apply scs_const; [apply (Forall2_len _ _ _ Hy)|]. apply (sc_const 1 0); lia. }
    intros [|w0 [|w1 [|w2 [|w3 [|w4 w]]]]] [|z0 [|z1 [|z2 [|z3 [|z4 z]]]]] H; cbn [rows oks Ss] in H; try tauto. destruct H as (W0 & W1 & W2 & W3 & _). cbn [nth].
    destruct W0 as [W0 L0], W1 as [W1 L1], W2 as [W2 L2], W3 as [W3 L3].
    eapply rel_bind; [apply (sc_dot (kx + ky) 0 184 0 80 (0 + 55)); auto; [rewrite !Z.add_0_r; exact C|lia]|]. intros t1 t1' T1.
    eapply rel_bind; [apply (sc_dot kx ky 92 92 40 (40 + 55)); auto; lia|]. intros t2 t2' T2.
    eapply rel_bind; [apply (sc_dot ky kx 92 92 40 (40 + 55)); auto; [rewrite (Z.add_comm ky kx); exact C|lia]|]. intros t3 t3' T3.
    pose proof (scs_sum lib GL (kx + ky) 184 (80 + 55) 18 w3 z3 C ltac:(lia) ltac:(lia) ltac:(rewrite L3; exact Hn') W3) as T4.
    pose proof (scs_sum lib GL kx 92 40 18 x x' Cx ltac:(lia) ltac:(lia) ltac:(rewrite Lx; exact Hn') Hx) as SX.
    pose proof (scs_sum lib GL ky 92 40 18 y y' Cy ltac:(lia) ltac:(lia) ltac:(rewrite Ly; exact Hn') Hy) as SY.
    rewrite !Z.add_0_r in T1. rewrite (Z.add_comm ky kx) in T3.
    eapply rel_bind.
    { apply (sc_dot kx ky 92 92 58 40); auto; [lia|rewrite map_length; auto|]. eapply scs_map; [|exact Hx]. intros a b Ha. apply (sc_cmul _ 18 kx 92 40); auto; lia. }
    intros t5 t5' T5. cbn [rel].
    apply (sc_sub _ _ 158); auto; [lia| |].
    - apply (sc_cmul 4 2 (kx + ky) 184 156); auto; try lia. apply (sc_add _ _ 155); auto; [lia| |apply (sc_weaken _ _ (80 + 55 + 18)); auto; lia].
      apply (sc_sub _ _ 154); auto; [lia| |apply (sc_weaken _ _ (40 + (40 + 55) + 18)); auto; lia].
      apply (sc_sub _ _ 153); auto. lia.
    - apply (sc_weaken _ _ 120); [|lia]. apply (sc_cmul 2 1 (kx + ky) 184 119); auto; try lia.
      pose proof (sc_mul kx ky 92 92 58 58 _ _ _ _ C ltac:(lia) SX SY) as T7.
      apply (sc_add _ _ 118); auto; [lia| |apply (sc_weaken _ _ (58 + 58)); auto; lia].
      apply (sc_sub _ _ 117); auto; [lia|apply (sc_weaken _ _ (58 + 40 + 18)); auto; lia|].
      apply (scs_sum lib GL (kx + ky) 184 99 18); auto; try lia; [unfold map2; rewrite map_length, combine_length; lia|].
      apply (scs_map2' kx 92 40 ky 92 40); auto. intros a b c d Ha Hc. apply (sc_add _ _ 98); auto; [lia| |].
      + apply (sc_mul kx ky 92 92 58 40); auto. lia.
      + rewrite (Z.add_comm kx ky) in *. apply (sc_mul ky kx 92 92 58 40); auto. lia.
  Qed.

  Lemma scatter_sim k q e idx v v' (d : list b64) : is_perm n idx -> length v = n -> length d = n -> scs k q e v v' -> scs k q e (scatter d idx v) (scatter d idx v').
  Proof.
    intros Hp Hv Hd H. pose proof (Forall2_len _ _ _ H) as Hv'.
    assert (G : forall i, (i < n)%nat -> sc k q e (nth i (scatter d idx v) fz) (nth i (scatter d idx v') fz)).
    { intros i Hin. destruct (perm_on_surj n _ i (is_perm_on n idx Hp) Hin) as (j & Hj & <-).
      assert (forall a, In a idx -> (a < n)%nat) as Hb by (intros; eapply is_perm_In; eauto). pose proof (is_perm_length _ _ Hp) as Hi.
      rewrite !scatter_nth; try lia; try (eapply is_perm_NoDup; eauto; fail); try (intros; rewrite Hd; auto; fail). apply scs_nth; auto. }
    assert (A : length (scatter d idx v) = n) by (rewrite scatter_length; auto). assert (A' : length (scatter d idx v') = n) by (rewrite scatter_length; auto).
    clear - G A A'. revert A A' G. generalize (scatter d idx v) (scatter d idx v'). clear. intros a b Ha Hb G. subst n. revert b Hb G.
    induction a as [|u a IH]; intros [|z b] Hb G; cbn in Hb; try discriminate; constructor.
    - apply (G 0%nat). cbn. lia.
    - apply IH; [lia|]. intros i Hi. apply (G (S i)). cbn. lia.
  Qed.

  Definition mterms_sc (t t' : terms (T:=b64)) : Prop :=
    sc (kx + ky) 184 159 (t_mean_prod t) (t_mean_prod t') /\
    scs kx 92 61 (t_a_axis t) (t_a_axis t') /\ sc kx 92 79 (t_a_total t) (t_a_total t') /\
    scs ky 92 61 (t_b_axis t) (t_b_axis t') /\ sc ky 92 79 (t_b_total t) (t_b_total t') /\
    length (t_a_axis t) = n /\ length (t_b_axis t) = n.

  Theorem merge_scaled x x' y y' k kv : scs kx 92 40 x x' -> scs ky 92 40 y y' -> length x = n -> length y = n ->
    rel mterms_sc (terms_mergesort_impl E oob true k kv x y false) (terms_mergesort_impl E oob true k kv x' y' false).
  Proof.
    intros Hx Hy Lx Ly. unfold terms_mergesort_impl. cbv zeta. rewrite <- (Hsort kx x x' Kx Hx).
    pose proof (Hperm x) as Px. rewrite Lx in Px. set (o := e_argsort E x) in *. pose proof (is_perm_length _ _ Px) as Lo.
    eapply rel_bind; [apply (rel_take oob _ x x' o Hx)|]. intros xs xs' [Hxs Lxs]. eapply rel_bind; [apply (rel_take oob _ y y' o Hy)|]. intros ys ys' [Hys Lys].
    rewrite Lo in Lxs, Lys. fold (scs kx 92 40 xs xs') in Hxs. fold (scs ky 92 40 ys ys') in Hys.
    eapply rel_bind; [apply aijbij_sim; auto|]. intros mp mp' Hmp. eapply rel_bind; [apply (row_sums_sim kx); auto|]. intros a a' [Ha La].
    rewrite <- (Hsort ky ys ys' Ky Hys). pose proof (Hperm ys) as Py. rewrite Lys in Py. set (o' := e_argsort E ys) in *. pose proof (is_perm_length _ _ Py) as Lo'.
    eapply rel_bind; [apply (rel_take oob _ ys ys' o' Hys)|]. intros zs zs' [Hzs Lzs]. rewrite Lo' in Lzs.
    eapply rel_bind; [apply (row_sums_sim ky); auto|]. intros b b' [Hb Lb]. cbn [rel]. rewrite <- (Forall2_len _ _ _ Hb), Lb, EN.
    pose proof (scatter_sim ky 92 61 o' b b' (e_empty E n) Py Lb (Hemp n) Hb) as Hsb.
    assert (Lsb : length (scatter (e_empty E n) o' b) = n) by (rewrite scatter_length; apply Hemp).
    red. cbn [t_mean_prod t_a_axis t_a_total t_b_axis t_b_total]. split; [exact Hmp|]. split; [exact Ha|].
    split; [apply (scs_sum lib GL kx 92 61 18); auto; try lia; unfold calm; lia|]. split; [exact Hsb|].
    split; [apply (scs_sum lib GL ky 92 61 18); auto; try lia; unfold calm; lia|]. auto.
  Qed.
End Terms.
