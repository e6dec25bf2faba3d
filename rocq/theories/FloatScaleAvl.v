(** The AVL algorithm on two samples and on the same samples multiplied by powers of two: every number of the second run is a
    power of two times the one of the first run. *)
From Coq Require Import Reals Lra Lia List Arith Bool ZArith Psatz.
From Flocq Require Import Core IEEE754.BinarySingleNaN.
From Verif Require Import Num Numpy MUtils MInternals MMergesort MAvl MFloat RefFloat Tab AvlGeneric FloatError FloatSum FloatScale.
Import ListNotations.
Local Open Scope R_scope.
Local Notation p2 := (bpow radix2).
Local Notation fz := (B754_zero false : b64).

(** Bounds that are powers of two. *)
Definition sc (k q e : Z) : b64 -> b64 -> Prop := scaled k q (p2 e).
Definition scs (k q e : Z) : list b64 -> list b64 -> Prop := Forall2 (sc k q e).
Lemma fmt e : (-1000 <= e <= 700)%Z -> generic_format radix2 (SpecFloat.fexp 53 1024) (p2 e) /\ p2 e <= p2 800.
Proof. intros He. split; [apply format_p2; lia|apply p2_le; lia]. Qed.
Lemma dbl e : p2 e + p2 e = p2 (e + 1).
Proof. rewrite bpow_plus. change (p2 1) with 2. ring. Qed.
Lemma sc_weaken k q e e' a b : sc k q e a b -> (e <= e')%Z -> sc k q e' a b.
Proof. intros H He. eapply scaled_weaken; [exact H|lia|apply p2_le; auto]. Qed.
Lemma sc_zero k q e : sc k q e fz fz.
Proof. apply scaled_zero, bpow_ge_0. Qed.
Lemma sc_add k q e a b c d : calm k q -> (-1000 <= e <= 600)%Z -> sc k q e a b -> sc k q e c d -> sc k q (e + 1) (b64_add a c) (b64_add b d).
Proof. intros K He H H'. unfold sc. rewrite <- dbl. apply scaled_add; auto; rewrite dbl; apply fmt; lia. Qed.
Lemma sc_sub k q e a b c d : calm k q -> (-1000 <= e <= 600)%Z -> sc k q e a b -> sc k q e c d -> sc k q (e + 1) (b64_sub a c) (b64_sub b d).
Proof. intros K He H H'. unfold sc. rewrite <- dbl. apply scaled_sub; auto; rewrite dbl; apply fmt; lia. Qed.
Lemma sc_mul k l q q' e e' a b c d : calm (k + l) (q + q') -> (-1000 <= e + e' <= 600)%Z -> sc k q e a b -> sc l q' e' c d ->
  sc (k + l) (q + q') (e + e') (b64_mul a c) (b64_mul b d).
Proof. intros K He H H'. unfold sc. rewrite bpow_plus. apply scaled_mul; auto; rewrite <- bpow_plus; apply fmt; lia. Qed.
Lemma sc_const z c : (Z.abs z <= 2 ^ c)%Z -> (0 <= c <= 50)%Z -> sc 0 0 c (b64_ofZ z) (b64_ofZ z).
Proof.
  intros H Hc. assert (2 ^ c <= 2 ^ 50)%Z by (apply Z.pow_le_mono_r; lia). destruct (rep_ofZ z) as (F & R & _); [lia|].
  split; [exact F|]. split; [exact F|]. split; [cbn; ring|]. rewrite R. split; [exists z; cbn; ring|].
  rewrite <- abs_IZR, <- IZR_Zpower by lia. apply IZR_le. exact H.
Qed.
(** An integer times a number. *)
Lemma sc_cmul z c k q e a b : (Z.abs z <= 2 ^ c)%Z -> (0 <= c <= 50)%Z -> calm k q -> (-1000 <= c + e <= 600)%Z -> sc k q e a b ->
  sc k q (c + e) (b64_mul (b64_ofZ z) a) (b64_mul (b64_ofZ z) b).
Proof. intros Hz Hc K He H. apply (sc_mul 0 k 0 q); auto. apply sc_const; auto. Qed.

Lemma scs_weaken k q e e' l l' : scs k q e l l' -> (e <= e')%Z -> scs k q e' l l'.
Proof. intros H He. induction H; constructor; eauto using sc_weaken. Qed.
Lemma scs_nth k q e l l' i : scs k q e l l' -> sc k q e (nth i l fz) (nth i l' fz).
Proof. intros H. revert i. induction H; intros [|i]; cbn [nth]; auto using sc_zero. Qed.
Lemma scs_take k q e l l' idx : scs k q e l l' -> scs k q e (take fz l idx) (take fz l' idx).
Proof. intros H. unfold take. induction idx; cbn [map]; constructor; auto. apply scs_nth; auto. Qed.
Lemma scs_map k q e k' q' e' f l l' : (forall a b, sc k q e a b -> sc k' q' e' (f a) (f b)) -> scs k q e l l' -> scs k' q' e' (map f l) (map f l').
Proof. intros Hf H. induction H; cbn [map]; constructor; auto. Qed.
Lemma scs_map' k q e k' q' e' f g l l' : (forall a b, sc k q e a b -> sc k' q' e' (f a) (g b)) -> scs k q e l l' -> scs k' q' e' (map f l) (map g l').
Proof. intros Hf H. induction H; cbn [map]; constructor; auto. Qed.
Lemma scs_map2 k q e k' q' e' k2 q2 e2 f l l' m m' : (forall a b c d, sc k q e a b -> sc k' q' e' c d -> sc k2 q2 e2 (f a c) (f b d)) ->
  scs k q e l l' -> scs k' q' e' m m' -> scs k2 q2 e2 (map2 f l m) (map2 f l' m').
Proof.
  intros Hf H. revert m m'. unfold map2. induction H as [|a b u v Hab Huv IH]; intros p r H'; cbn [combine map]; [constructor|].
  destruct H'; cbn [combine map fst snd]; constructor; auto. apply IH. auto.
Qed.
Lemma scs_map2_l {A} k q e k' q' e' (f g : A -> b64 -> b64) (ks : list A) l l' : (forall i a b, In i ks -> sc k q e a b -> sc k' q' e' (f i a) (g i b)) ->
  scs k q e l l' -> scs k' q' e' (map2 f ks l) (map2 g ks l').
Proof.
  intros Hf H. revert ks Hf. unfold map2. induction H as [|a b u v Hab Huv IH]; intros [|i ks] Hf; cbn [combine map fst snd]; constructor.
  - apply Hf; auto. left; auto.
  - apply IH. intros. apply Hf; auto. right; auto.
Qed.
Lemma scs_const {A A'} k q e b (l : list A) (l' : list A') : length l = length l' -> sc k q e b b -> scs k q e (map (fun _ => b) l) (map (fun _ => b) l').
Proof. revert l'. induction l; intros [|]; cbn; intros H Hr; try discriminate; constructor; auto. apply IHl; auto. Qed.

(** Results of the two runs: the same exception, or related values. *)
Definition rel {A A'} (P : A -> A' -> Prop) (r : res A) (r' : res A') : Prop :=
  match r, r' with Ok a, Ok a' => P a a' | Err e, Err e' => e = e' | _, _ => False end.
Lemma rel_bind {A A' C C'} (P : A -> A' -> Prop) (Q : C -> C' -> Prop) r r' k k' :
  rel P r r' -> (forall a a', P a a' -> rel Q (k a) (k' a')) -> rel Q (rbind r k) (rbind r' k').
Proof. destruct r, r'; cbn; try contradiction; auto. Qed.
Lemma rel_weaken {A A'} (P Q : A -> A' -> Prop) r r' : rel P r r' -> (forall a a', P a a' -> Q a a') -> rel Q r r'.
Proof. destruct r, r'; cbn; auto. Qed.

Section Memory.
  Context (P : b64 -> b64 -> Prop).
  Notation Ps := (Forall2 P).
  Lemma rel_zget oob s zs p : Ps s zs -> rel P (zget oob s p) (zget oob zs p).
  Proof.
    intros H. unfold zget. rewrite (Forall2_len _ _ _ H). destruct (pyidx (length zs) p) as [i|]; cbn; auto.
    clear p. revert i. induction H; intros [|i]; cbn; auto.
  Qed.
  Lemma rel_upd s zs i v z : Ps s zs -> P v z -> Ps (upd s i v) (upd zs i z).
  Proof. intros H Hv. revert i. induction H; intros [|i]; cbn; constructor; auto. Qed.
  Lemma rel_zset oob s zs p v z : Ps s zs -> P v z -> rel Ps (zset oob s p v) (zset oob zs p z).
  Proof.
    intros H Hv. unfold zset. rewrite (Forall2_len _ _ _ H). destruct (pyidx (length zs) p) as [i|]; cbn; auto.
    apply rel_upd; auto.
  Qed.
  Lemma rel_zgets oob s zs ps : Ps s zs -> rel (fun l l' => Ps l l' /\ length l = length ps) (zgets oob s ps) (zgets oob zs ps).
  Proof.
    intros H. induction ps as [|p ps IH]; cbn [zgets]; [split; [constructor|auto]|].
    apply (rel_bind P); [apply rel_zget; auto|]. intros v z Hv.
    apply (rel_bind _ _ _ _ _ _ IH). intros l l' [Hl Hn]. cbn. split; [constructor; auto|auto].
  Qed.
  Lemma rel_zsets oob ps : forall s zs vs zvs, Ps s zs -> Ps vs zvs -> rel Ps (zsets oob s ps vs) (zsets oob zs ps zvs).
  Proof.
    induction ps as [|p ps IH]; intros s zs vs zvs Hs Hv; cbn [zsets]; auto.
    destruct Hv as [|v z vs zvs Hv Hvs]; [exact Hs|].
    apply (rel_bind Ps); [apply rel_zset; auto|]. intros s' zs' Hs'. apply IH; auto.
  Qed.
End Memory.

Lemma filter_len {A} (f : A -> bool) l : (length (filter f l) <= length l)%nat.
Proof. induction l as [|a l IH]; cbn; auto. destruct (f a); cbn; lia. Qed.

Section Sim.
  Context (lib : flib) (GL : good_lib lib).
  Notation NF := (B64Num lib).

  Lemma scs_sum k q e c l l' : calm k q -> (-1000 <= e <= 600)%Z -> (0 <= c <= 52)%Z -> (Z.of_nat (length l) <= 2 ^ c)%Z -> scs k q e l l' ->
    sc k q (e + c) (np_sum NF l) (np_sum NF l').
  Proof. intros K He Hc Hl H. apply scaled_sum; auto. lia. Qed.

  (** A running sum: after [j] additions at most [j] times the bound. *)
  Definition run (k q e : Z) (j : nat) : b64 -> b64 -> Prop := scaled k q (INR j * p2 e).
  Lemma run_le k q e i j a b : run k q e i a b -> (i <= j)%nat -> run k q e j a b.
  Proof. intros H Hij. eapply scaled_weaken; [exact H|lia|]. apply Rmult_le_compat_r; [apply bpow_ge_0|apply le_INR; auto]. Qed.
  Lemma runs_le k q e i j l l' : Forall2 (run k q e i) l l' -> (i <= j)%nat -> Forall2 (run k q e j) l l'.
  Proof. intros H Hij. induction H; constructor; eauto using run_le. Qed.
  Lemma run_sc k q e j a b : run k q e j a b -> (Z.of_nat j <= 2 ^ 18)%Z -> sc k q (e + 18) a b.
  Proof. intros H Hj. eapply scaled_weaken; [exact H|lia|apply count_le; lia]. Qed.
  Lemma runs_sc k q e j l l' : Forall2 (run k q e j) l l' -> (Z.of_nat j <= 2 ^ 18)%Z -> scs k q (e + 18) l l'.
  Proof. intros H Hj. induction H; constructor; eauto using run_sc. Qed.
  Lemma run_add k q e j a b c d : calm k q -> (-1000 <= e <= 600)%Z -> (Z.of_nat (S j) <= 2 ^ 18)%Z -> run k q e j a b -> sc k q e c d ->
    run k q e (S j) (b64_add a c) (b64_add b d).
  Proof.
    intros K He Hj H H'. unfold run. replace (INR (S j) * p2 e) with (INR j * p2 e + p2 e) by (rewrite S_INR; ring).
    apply scaled_add; auto; replace (INR j * p2 e + p2 e) with (INR (S j) * p2 e) by (rewrite S_INR; ring).
    - apply format_count; lia.
    - eapply Rle_trans; [apply (count_le _ 18); lia|apply p2_le; lia].
  Qed.
  Lemma run_zero k q e : run k q e 0 fz fz.
  Proof. apply scaled_zero. cbn. lra. Qed.

  Lemma runs_cumsum k q e l l' : calm k q -> (-1000 <= e <= 600)%Z -> scs k q e l l' -> forall j a b, run k q e j a b -> (Z.of_nat (j + length l) <= 2 ^ 18)%Z ->
    Forall2 (run k q e (j + length l)) (cumsum_from NF a l) (cumsum_from NF b l').
  Proof.
    intros K He. induction 1 as [|c d l l' Hc Hl IH]; intros j a b Ha Hj; cbn [cumsum_from length] in *; constructor.
    - apply (run_le _ _ _ (S j)); [|lia]. apply run_add; auto. lia.
    - replace (j + S (length l))%nat with (S j + length l)%nat by lia. apply IH; [|lia]. apply run_add; auto. lia.
  Qed.
  Lemma scs_cumsum k q e l l' : calm k q -> (-1000 <= e <= 600)%Z -> scs k q e l l' -> (Z.of_nat (length l) <= 2 ^ 18)%Z ->
    scs k q (e + 18) (np_cumsum NF l) (np_cumsum NF l').
  Proof. intros K He H Hl. apply (runs_sc _ _ _ (0 + length l)); [|exact Hl]. apply runs_cumsum; auto. apply run_zero. Qed.
  Lemma scs_excl k q e l l' : calm k q -> (-1000 <= e <= 500)%Z -> scs k q e l l' -> (Z.of_nat (length l) <= 2 ^ 18)%Z ->
    scs k q (e + 19) (map2 (nsub NF) (np_cumsum NF l) l) (map2 (nsub NF) (np_cumsum NF l') l').
  Proof.
    intros K He H Hl. replace (e + 19)%Z with (e + 18 + 1)%Z by lia. eapply (scs_map2 k q (e + 18) k q (e + 18)).
    - intros a b c d Ha Hb. apply sc_sub; auto. lia.
    - apply scs_cumsum; auto. lia.
    - eapply scs_weaken; [exact H|lia].
  Qed.

  Lemma rel_dyad_loop k q e oob L ps y : calm k q -> (-1000 <= e <= 500)%Z -> (L <= 32)%nat -> forall c c', scs k q e c c' -> forall j s s', Forall2 (run k q e j) s s' ->
    (Z.of_nat (j + length c) <= 2 ^ 18)%Z ->
    rel (fun p r => scs k q (e + 18 + 5) (fst p) (fst r) /\ length (snd p) = length (snd r))
      (dyad_loop NF oob L ps y c s) (dyad_loop NF oob L ps y c' s').
  Proof.
    intros K He HL. induction y as [|yi y IH]; intros c c' Hc j s s' Hs Hj; cbn [dyad_loop].
    - destruct Hc; (split; [constructor|apply (Forall2_len _ _ _ Hs)]).
    - destruct Hc as [|ci ci' c c' Hci Hc]; [split; [constructor|apply (Forall2_len _ _ _ Hs)]|]. cbn [length] in Hj.
      apply (rel_bind _ _ _ _ _ _ (rel_zgets _ oob s s' _ Hs)). intros sb sb' [Hsb Nsb].
      apply (rel_bind _ _ _ _ _ _ (rel_zgets _ oob s s' _ Hs)). intros sa sa' [Hsa _].
      apply (rel_bind (Forall2 (run k q e (S j)))).
      { apply rel_zsets; [eapply runs_le; eauto|]. clear - K He Hj Hsa Hci. induction Hsa; cbn [map]; constructor; auto. apply run_add; auto; lia. }
      intros s1 s1' Hs1. apply (rel_bind _ _ _ _ _ _ (IH c c' Hc (S j) s1 s1' Hs1 ltac:(lia))).
      intros [g s2] [g' s2'] [Hg Hs2]. cbn [fst snd rel] in *. split; [|exact Hs2]. constructor; [|exact Hg].
      apply scs_sum; auto; [lia|lia| |apply (runs_sc _ _ _ j); auto; lia].
      rewrite Nsb, map_length. pose proof (filter_len (valid_3b yi) (seq 0 L)) as H. rewrite seq_length in H. lia.
  Qed.

  (** _partial_sum_2d *)
  Lemma rel_partial_sum k q e oob L ps y c c' ix iy sx sx' sy sy' cs cs' (s s' : list b64) g g' :
    calm k q -> (-500 <= e <= 400)%Z -> (L <= 32)%nat -> scs k q e c c' -> (Z.of_nat (length c) <= 2 ^ 18)%Z ->
    scs k q (e + 19) sx sx' -> scs k q (e + 19) sy sy' -> sc k q (e + 18) cs cs' -> length s = length s' ->
    rel (fun p r => scs k q (e + 26) (fst p) (fst r) /\ length (snd p) = length (snd r))
      (partial_sum_2d NF oob false y c ix iy sx sy cs L s ps g) (partial_sum_2d NF oob false y c' ix iy sx' sy' cs' L s' ps g').
  Proof.
    intros K He HL Hc Hn Hsx Hsy Hcs Hs. unfold partial_sum_2d, dyad_update.
    assert (H0 : Forall2 (run k q e 0) (map (fun _ => nzero NF) s) (map (fun _ => nzero NF) s')).
    { clear - Hs. revert s' Hs. induction s as [|a s IH]; intros [|b s'] H; cbn in H |- *; try discriminate; constructor; auto. apply run_zero. }
    eapply rel_bind; [apply (rel_dyad_loop k q e oob L ps y K ltac:(lia) HL c c' Hc 0 _ _ H0); cbn; exact Hn|].
    intros [gam s1] [gam' s1'] [Hg Hs1]. cbn [fst snd] in *. split; [|exact Hs1]. cbn [fst]. apply scs_take.
    cbn [nsub nmul nadd nofZ nzero B64Num].
    replace (e + 26)%Z with (e + 25 + 1)%Z by lia.
    eapply (scs_map2 k q (e + 25) k q (e + 18 + 5)).
    { intros a b u v Ha Hu. apply sc_add; auto; [lia|]. replace (e + 25)%Z with (2 + (e + 18 + 5))%Z by lia. apply sc_cmul; auto; lia. }
    2: { exact Hg. }
    apply (scs_weaken k q (e + 22)); [|lia]. replace (e + 22)%Z with (e + 21 + 1)%Z by lia.
    eapply (scs_map2 k q (e + 21) k q (e + 19)).
    { intros a b u v Ha Hu. apply sc_sub; auto; [lia|]. apply (sc_weaken k q (1 + (e + 19))); [|lia]. apply sc_cmul; auto; lia. }
    2: { exact Hsx. }
    replace (e + 21)%Z with (e + 20 + 1)%Z by lia.
    eapply (scs_map2 k q (e + 20) k q (e + 19)).
    { intros a b u v Ha Hu. apply sc_sub; auto; [lia|]. apply (sc_weaken k q (1 + (e + 19))); [|lia]. apply sc_cmul; auto; lia. }
    2: { apply scs_take. exact Hsy. }
    apply (scs_weaken k q (e + 18 + 1)); [|lia]. apply (scs_map' k q e); auto. intros a b Ha. apply sc_sub; auto; [lia|]. apply (sc_weaken k q e); auto. lia.
  Qed.

  (** ** The two samples *)
  Context (E : Env b64) (EN : e_num E = NF).
  Context (Hemp : forall n, length (e_empty E n) = n) (Harg : forall l, length (e_argsort E l) = length l).
  Context (kx ky : Z) (Kx : (-40 <= kx <= 40)%Z) (Ky : (-40 <= ky <= 40)%Z).
  (** Argsort compares: it gives the same order after a multiplication by a power of two. *)
  Context (Hsort : forall k l l', (-40 <= k <= 40)%Z -> scs k 92 40 l l' -> e_argsort E l = e_argsort E l').
  Context (n : nat) (Hn : (4 <= n)%nat) (Hn' : (Z.of_nat n <= 2 ^ 18)%Z).

  Definition pos_ok (l : list nat) : Prop := Forall (fun a => (a < n)%nat) l /\ length l = n.
  Lemma scatter_ok idx : pos_ok (scatter (repeat 0%nat n) idx (seq 0 n)).
  Proof.
    split.
    - apply Forall_scatter; [apply Forall_forall; intros a Ha; apply repeat_spec in Ha; lia|].
      apply Forall_forall. intros a Ha. apply in_seq in Ha. lia.
    - rewrite Tab.scatter_length. apply repeat_length.
  Qed.

  Section OneVar.
    Context (k : Z) (K : (-40 <= k <= 40)%Z) (l l' : list b64) (Hl : scs k 92 40 l l') (Ll : length l = n).
    Let C : calm k 92. Proof. unfold calm. lia. Qed.
    Let Ll' : length l' = n. Proof. rewrite <- (Forall2_len _ _ _ Hl). exact Ll. Qed.
    Lemma scs_beta idx : scs k 92 59 (avl_beta E l idx) (avl_beta E l' idx).
    Proof.
      unfold avl_beta. rewrite EN. apply (scs_map2 k 92 58 k 92 58).
      - intros a b u v Ha Hb. apply (sc_sub k 92 58); auto. lia.
      - apply scs_take. apply (scs_cumsum k 92 40); auto; lia.
      - apply scs_take. eapply scs_weaken; [exact Hl|lia].
    Qed.
    Lemma scs_row alpha beta beta' : pos_ok alpha -> scs k 92 59 beta beta' -> scs k 92 61 (avl_row_sums E l alpha beta) (avl_row_sums E l' alpha beta').
    Proof.
      intros [Ha La] Hb. unfold avl_row_sums. rewrite EN, Ll, Ll'. cbn [nsub nmul nadd nofZ B64Num].
      apply (scs_map2 k 92 59 k 92 59); [| |exact Hb].
      - intros a b u v Hu Hv. apply (sc_sub k 92 60); auto; [lia|apply (sc_weaken k 92 59); auto; lia|]. apply (sc_cmul 2 1 k 92 59); auto; lia.
      - apply (scs_map2_l k 92 40); auto. intros i a b Hi Hu. apply (sc_add k 92 58); auto; [lia| |].
        + apply (scs_sum k 92 40 18); auto; try lia.
        + rewrite Forall_forall in Ha. pose proof (Ha i Hi). apply (sc_cmul _ 18 k 92 40); auto; lia.
    Qed.
    Lemma sc_total alpha beta beta' : pos_ok alpha -> scs k 92 59 beta beta' -> length beta = n ->
      sc k 92 79 (avl_total E l alpha beta) (avl_total E l' alpha beta').
    Proof.
      intros [Ha La] Hb Lb. unfold avl_total. rewrite EN. cbn [nsub nmul nofZ B64Num]. apply (sc_sub k 92 78); auto; [lia| |].
      - apply (sc_weaken k 92 77); [|lia]. apply (sc_cmul 2 1 k 92 76); auto; try lia. apply (scs_sum k 92 58 18); auto; try lia.
        + unfold map2. rewrite map_length, combine_length. lia.
        + apply (scs_map2_l k 92 40); auto. intros i a b Hi Hu. rewrite Forall_forall in Ha. pose proof (Ha i Hi). apply (sc_cmul _ 18 k 92 40); auto; lia.
      - apply (sc_cmul 2 1 k 92 77); auto; try lia. apply (scs_sum k 92 59 18); auto; lia.
    Qed.
  End OneVar.

  Context (x x' y y' : list b64) (Hx : scs kx 92 40 x x') (Hy : scs ky 92 40 y y') (Lx : length x = n) (Ly : length y = n).

  (** The exponents of the four weights 1, x, y, xy. *)
  Definition wk (i : nat) : Z := nth i [0; kx; ky; kx + ky]%Z 0%Z.
  Definition wq (i : nat) : Z := nth i [0; 92; 92; 184]%Z 0%Z.
  Definition we (i : nat) : Z := nth i [0; 40; 40; 80]%Z 0%Z.
  Lemma w_calm i : calm (wk i) (wq i) /\ (0 <= we i <= 80)%Z.
  Proof. unfold wk, wq, we, calm. destruct i as [|[|[|[|[|i]]]]]; cbn [nth]; lia. Qed.

  Definition args_sc (g g' : impl_args (T:=b64)) : Prop :=
    scs kx 92 40 (g_vx g) (g_vx g') /\ scs ky 92 40 (g_vy g) (g_vy g') /\ length (g_vx g) = n /\ length (g_vy g) = n /\
    pos_ok (g_ix g) /\ pos_ok (g_iy g) /\ g_ix g = g_ix g' /\ g_iy g = g_iy g' /\ g_iy_reord g = g_iy_reord g' /\
    g_l_max g = Nat.log2_up n /\ g_l_max g' = Nat.log2_up n /\ length (g_s g) = length (g_s g') /\ g_pos_sums g = g_pos_sums g' /\
    forall i, (i < 4)%nat -> scs (wk i) (wq i) (we i) (nth i (g_c g) []) (nth i (g_c g') []) /\ length (nth i (g_c g) []) = n /\
      scs (wk i) (wq i) (we i + 19) (nth i (g_sx_c g) []) (nth i (g_sx_c g') []) /\
      scs (wk i) (wq i) (we i + 19) (nth i (g_sy_c g) []) (nth i (g_sy_c g') []) /\
      sc (wk i) (wq i) (we i + 18) (nth i (g_c_sum g) fz) (nth i (g_c_sum g') fz).

  Lemma args_sim : rel args_sc (get_impl_args E x y) (get_impl_args E x' y').
  Proof.
    assert (Lx' : length x' = n) by (rewrite <- (Forall2_len _ _ _ Hx); exact Lx). assert (Ly' : length y' = n) by (rewrite <- (Forall2_len _ _ _ Hy); exact Ly).
    unfold get_impl_args. cbv zeta. rewrite Lx, Ly, Lx', Ly', EN, Nat.eqb_refl. destruct (3 <? n)%nat; cbn [negb]; [|reflexivity].
    change (nzero NF) with fz.
    rewrite <- (Hsort kx x x' Kx Hx), <- (Hsort ky y y' Ky Hy), <- (Hsort ky _ _ Ky (scs_take ky 92 40 y y' (e_argsort E x) Hy)).
    set (ax := e_argsort E x). set (ay := e_argsort E y). set (ar := e_argsort E (take fz y ax)).
    assert (Lax : length ax = n) by (unfold ax; rewrite Harg; auto). assert (Lay : length ay = n) by (unfold ay; rewrite Harg; auto).
    assert (Ltake : forall (l : list b64) i, length (take fz l i) = length i) by (intros; unfold take; apply map_length).
    assert (Lar : length ar = n) by (unfold ar; rewrite Harg, Ltake; auto).
    cbn [rel map]. red. cbn [g_vx g_vy g_ix g_iy g_iy_reord g_l_max g_s g_pos_sums g_c g_sx_c g_sy_c g_c_sum].
    split; [apply scs_take; auto|]. split; [apply scs_take; auto|]. split; [rewrite Ltake; auto|]. split; [rewrite Ltake; auto|].
    split; [apply scatter_ok|]. split; [apply scatter_ok|]. split; [auto|]. split; [auto|]. split; [auto|].
    split; [auto|]. split; [auto|]. split; [rewrite !Hemp; auto|]. split; [auto|].
    assert (Hcase : forall i c c', scs (wk i) (wq i) (we i) c c' -> length c = n ->
      scs (wk i) (wq i) (we i) c c' /\ length c = n /\
      scs (wk i) (wq i) (we i + 19) (map2 (nsub NF) (np_cumsum NF c) c) (map2 (nsub NF) (np_cumsum NF c') c') /\
      scs (wk i) (wq i) (we i + 19) (map2 (nsub NF) (np_cumsum NF (take fz c ar)) (take fz c ar)) (map2 (nsub NF) (np_cumsum NF (take fz c' ar)) (take fz c' ar)) /\
      sc (wk i) (wq i) (we i + 18) (np_sum NF c) (np_sum NF c')).
    { intros i c c' Hc Lc. destruct (w_calm i) as [K We]. split; [auto|]. split; [auto|]. split; [apply scs_excl; auto; lia|].
      split; [apply scs_excl; [auto|lia|apply scs_take; auto|rewrite Ltake, Lar; auto]|]. apply scs_sum; auto; lia. }
    intros [|[|[|[|i]]]] Hi; cbn [nth]; try lia.
    - apply (Hcase 0%nat); [|rewrite map_length; auto]. apply scs_const; [congruence|]. apply (sc_const 1 0); lia.
    - apply (Hcase 1%nat); [apply scs_take; auto|rewrite Ltake; auto].
    - apply (Hcase 2%nat); [apply scs_take; auto|rewrite Ltake; auto].
    - apply (Hcase 3%nat); [|rewrite Ltake; auto]. apply scs_take. apply (scs_map2 kx 92 40 ky 92 40); auto.
      intros a b c d Ha Hc. apply (sc_mul kx ky 92 92 40 40); auto; [unfold calm; lia|lia].
  Qed.

  Fixpoint gammas_sc (is_ : list nat) (l l' : list (list b64)) : Prop :=
    match is_, l, l' with
    | [], [], [] => True
    | i :: is_, a :: l, a' :: l' => scs (wk i) (wq i) (we i + 26) a a' /\ gammas_sc is_ l l'
    | _, _, _ => False
    end.

  Lemma log_small : (Nat.log2_up n <= 32)%nat.
  Proof.
    apply Nat.log2_up_le_pow2; [lia|]. assert (H : (2 ^ 18 <= 2 ^ 32)%Z) by (apply Z.pow_le_mono_r; lia).
    apply Nat2Z.inj_le. rewrite Nat2Z.inj_pow. change (Z.of_nat 2) with 2%Z. change (Z.of_nat 32) with 32%Z. lia.
  Qed.

  Lemma partial_sums_sim g g' new_y : args_sc g g' -> forall is_ s s', Forall (fun i => (i < 4)%nat) is_ -> length s = length s' ->
    forall oob, rel (gammas_sc is_) (partial_sums E false oob new_y g s is_) (partial_sums E false oob new_y g' s' is_).
  Proof.
    intros (_ & _ & _ & _ & _ & _ & H1 & _ & H2 & H3 & H4 & _ & H5 & Hc).
    induction is_ as [|i is_ IH]; intros s s' Hi Hs oob; cbn [partial_sums]; [cbn; constructor|].
    pose proof (Forall_inv Hi) as Hi4. pose proof (Forall_inv_tail Hi) as His. rewrite EN.
    destruct (Hc i Hi4) as (C1 & C2 & C3 & C4 & C5). destruct (w_calm i) as [K We].
    change (nzero NF) with fz. rewrite <- H1, <- H2, <- H5, H3, H4.
    eapply rel_bind.
    - apply (rel_partial_sum (wk i) (wq i) (we i) oob); eauto; [lia|apply log_small|rewrite C2; exact Hn'].
    - intros [gam s1] [gam' s1'] [P1 P2]. cbn [fst snd] in P1, P2. eapply rel_bind; [apply IH; auto|]. intros r r' Hr. cbn [rel gammas_sc]. auto.
  Qed.

  Definition terms_sc (t t' : terms (T:=b64)) : Prop :=
    sc (kx + ky) 184 127 (t_mean_prod t) (t_mean_prod t') /\
    scs kx 92 61 (t_a_axis t) (t_a_axis t') /\ sc kx 92 79 (t_a_total t) (t_a_total t') /\
    scs ky 92 61 (t_b_axis t) (t_b_axis t') /\ sc ky 92 79 (t_b_total t) (t_b_total t') /\
    length (t_a_axis t) = n /\ length (t_b_axis t) = n.

  Lemma map2_length {A B C} (f : A -> B -> C) a b : length (map2 f a b) = Nat.min (length a) (length b).
  Proof. unfold map2. rewrite map_length, combine_length. auto. Qed.

  Theorem avl_scaled oob k kv :
    rel terms_sc (terms_avl_impl E false oob k kv x y false) (terms_avl_impl E false oob k kv x' y' false).
  Proof.
    unfold terms_avl_impl. eapply rel_bind; [apply args_sim|]. intros g g' HA.
    pose proof HA as (V1 & V2 & L1 & L2 & P1 & P2 & E1 & E2 & E3 & M1 & M2 & Ls & E4 & HC). rewrite <- E1, <- E2, <- E3.
    eapply rel_bind; [apply (partial_sums_sim g g' _ HA [0;1;2;3]%nat (g_s g) (g_s g') ltac:(repeat constructor; lia) Ls oob)|].
    intros r r' PS. cbn [rel].
    destruct r as [|g1 [|g2 [|g3 [|g4 [|g5 r]]]]], r' as [|z1 [|z2 [|z3 [|z4 [|z5 zr]]]]]; cbn [gammas_sc] in PS; try tauto.
    destruct PS as (G1 & G2 & G3 & G4 & _). cbn [nth wk wq we] in G1, G2, G3, G4 |- *. rewrite EN. cbn [nsub nmul nadd B64Num].
    pose proof (scs_beta kx Kx _ _ V1 L1 (g_ix g)) as BX. pose proof (scs_beta ky Ky _ _ V2 L2 (g_iy g)) as BY.
    assert (lb : forall v idx, length idx = n -> length (avl_beta E v idx) = n).
    { intros v idx Hi. unfold avl_beta, take. rewrite map2_length, !map_length, Hi. lia. }
    assert (C : calm (kx + ky) 184) by (unfold calm; lia).
    red. cbn [t_mean_prod t_a_axis t_a_total t_b_axis t_b_total].
    split; [|split; [|split; [|split; [|split; [|split]]]]].
    - apply (scs_sum (kx + ky) 184 109 18); auto; try lia; [rewrite !map2_length; lia|].
      eapply (scs_map2 (kx + ky) 184 108 (kx + ky) 184 106); [intros a b u v Ha Hu; apply (sc_sub _ _ 108); auto; [lia|apply (sc_weaken _ _ 106); auto; lia]| |].
      + eapply (scs_map2 (kx + ky) 184 107 (kx + ky) 184 106); [intros a b u v Ha Hu; apply (sc_sub _ _ 107); auto; [lia|apply (sc_weaken _ _ 106); auto; lia]| |].
        * eapply (scs_map2 (kx + ky) 184 106 (kx + ky) 184 106); [intros a b u v Ha Hu; apply (sc_add _ _ 106); auto; lia| |exact G4].
          eapply (scs_map2 (kx + ky) 184 80 0 0 26); [| |exact G1].
          -- intros a b u v Ha Hu. replace (kx + ky)%Z with (kx + ky + 0)%Z by lia. apply (sc_mul (kx + ky) 0 184 0 80 26); auto; [rewrite Z.add_0_r; exact C|lia].
          -- apply (scs_map2 kx 92 40 ky 92 40); auto. intros a b u v Ha Hu. apply (sc_mul kx ky 92 92 40 40); auto. lia.
        * apply (scs_map2 kx 92 40 ky 92 66) with (2 := Hx) (3 := G3). intros a b u v Ha Hu. apply (sc_mul kx ky 92 92 40 66); auto. lia.
      + apply (scs_map2 ky 92 40 kx 92 66) with (2 := Hy) (3 := G2). intros a b u v Ha Hu. rewrite (Z.add_comm kx ky) in *. apply (sc_mul ky kx 92 92 40 66); auto. lia.
    - apply scs_row; auto.
    - apply sc_total; auto. apply lb, P1.
    - apply scs_row; auto.
    - apply sc_total; auto. apply lb, P2.
    - unfold avl_row_sums. rewrite !map2_length, lb by apply P1. destruct P1 as [_ ->]. lia.
    - unfold avl_row_sums. rewrite !map2_length, lb by apply P2. destruct P2 as [_ ->]. lia.
  Qed.
End Sim.
