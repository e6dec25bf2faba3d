(** The counting functions return what the model returns, and bounds on the number of steps. *)
From Coq Require Import ZArith List Bool Arith Lia.
From Verif Require Import Num Numpy Tab MUtils MDistances MInternals MMergesort MAvl MCost.
Import ListNotations.

(** ** The counting functions return what the model returns *)
Lemma result_bind {A B} (m : K A) (f : A -> K B) : result (kbind m f) = rbind (result m) (fun a => result (f a)).
Proof. destruct m as [c [a|e]]; cbn; auto. destruct (f a); reflexivity. Qed.
Lemma result_do {A} c (a : A) : result (kdo c a) = Ok a. Proof. reflexivity. Qed.
Lemma result_res {A} c (a : res A) : result (kres c a) = a. Proof. reflexivity. Qed.
Lemma result_ret {A} (a : A) : result (kret a) = Ok a. Proof. reflexivity. Qed.
Lemma rbind_ext {A B} (m : res A) (f g : A -> res B) : (forall a, f a = g a) -> rbind m f = rbind m g.
Proof. intros H. destruct m; cbn; auto. Qed.
Ltac k1 := repeat (progress (rewrite ?result_bind, ?result_do, ?result_res, ?result_ret; cbn [rbind])).
Ltac kprims := unfold kmap, kmap2, ktake, ktake_chk, kscatter, kconst, kseq, ksum, kcumsum, kdot, kvar, ksort.

Lemma result_mapM {A B} (f : A -> K B) g l : (forall a, result (f a) = g a) -> result (k_mapM f l) = mapM g l.
Proof.
  intros H. induction l as [|a l IH]; cbn [k_mapM mapM]; auto. k1. rewrite H. apply rbind_ext. intros b. k1. rewrite IH. reflexivity.
Qed.

Section Same.
  Context {T : Type} (E : Env T) (sort : nat -> nat) (oob : exn).

  Lemma merge_loop_same cast fuel : forall y prev cums s1 l1 s2 l2 st,
    result (k_merge_loop E oob cast fuel y prev cums s1 l1 s2 l2 st) = merge_loop E oob cast fuel y prev cums s1 l1 s2 l2 st.
  Proof.
    induction fuel as [|fuel IH]; intros; cbn [k_merge_loop merge_loop]; destruct (_ && _); auto.
    k1. apply rbind_ext. intros p1. k1. apply rbind_ext. intros p2. k1. apply rbind_ext. intros y1. k1. apply rbind_ext. intros y2.
    destruct (nleb _ _ _).
    - k1. apply rbind_ext. intros st'. apply IH.
    - destruct cast; auto. k1. apply rbind_ext. intros ws. k1. apply rbind_ext. intros st'. apply IH.
  Qed.
  Lemma merge_pair_same cast n len y prev cums st p :
    result (k_merge_pair E oob cast n len y prev cums st p) = merge_pair E oob cast n len y prev cums st p.
  Proof.
    unfold k_merge_pair, merge_pair. k1. rewrite merge_loop_same. apply rbind_ext. intros [[s1 s2] st'].
    destruct (_ <=? _); auto. destruct (_ <=? _); auto.
  Qed.
  Lemma merge_pairs_same cast n len y prev cums ps : forall st,
    result (k_merge_pairs E oob cast n len y prev cums ps st) = merge_pairs E oob cast n len y prev cums ps st.
  Proof.
    induction ps as [|p ps IH]; intros st; cbn [k_merge_pairs merge_pairs]; auto. k1. rewrite merge_pair_same. apply rbind_ext. intros. apply IH.
  Qed.
  Lemma merge_passes_same cast fuel : forall n len y weights prev cur ws,
    result (k_merge_passes E oob cast fuel n len y weights prev cur ws) = merge_passes E oob cast fuel n len y weights prev cur ws.
  Proof.
    induction fuel as [|fuel IH]; intros; cbn [k_merge_passes merge_passes]; destruct (_ <? _); auto.
    k1. rewrite (result_mapM _ (cumsum_var E oob prev)).
    - apply rbind_ext. intros cums. k1. rewrite merge_pairs_same. apply rbind_ext. intros st. apply IH.
    - intros w. unfold k_cumsum_var, cumsum_var. kprims. k1. apply rbind_ext. intros. k1. reflexivity.
  Qed.
  Lemma aijbij_same cast x y : result (k_compute_aijbij_term E oob cast x y) = compute_aijbij_term E oob cast x y.
  Proof.
    unfold k_compute_aijbij_term, compute_aijbij_term, k_compute_weight_sums, compute_weight_sums. kprims. cbv zeta. k1. rewrite merge_passes_same.
    apply rbind_ext. intros ws. k1. apply rbind_ext. intros t1. k1. apply rbind_ext. intros t2. k1. apply rbind_ext. intros t3. k1.
    apply rbind_ext. intros nxy. k1. reflexivity.
  Qed.
  Lemma row_sums_same x : result (k_compute_row_sums E oob x) = compute_row_sums E oob x.
  Proof. unfold k_compute_row_sums, compute_row_sums. kprims. cbv zeta. k1. apply rbind_ext. intros. k1. reflexivity. Qed.

  Lemma terms_mergesort_same cast k kv x y rv :
    result (k_terms_mergesort_impl E sort oob cast k kv x y rv) = terms_mergesort_impl E oob cast k kv x y rv.
  Proof.
    unfold k_terms_mergesort_impl, terms_mergesort_impl. kprims. cbv zeta. k1.
    apply rbind_ext. intros xs. k1. apply rbind_ext. intros ys. k1. rewrite aijbij_same. apply rbind_ext. intros mp. k1. rewrite row_sums_same.
    apply rbind_ext. intros ai. k1. apply rbind_ext. intros yo. k1. rewrite row_sums_same. apply rbind_ext. intros bi. k1.
    destruct rv; k1; reflexivity.
  Qed.

  Lemma dyad_loop_same L ps y : forall c s, result (k_dyad_loop E oob L ps y c s) = dyad_loop (e_num E) oob L ps y c s.
  Proof.
    induction y as [|yi y IH]; intros [|ci c] s; cbn [k_dyad_loop dyad_loop]; auto. kprims. k1.
    apply rbind_ext. intros sb. k1. apply rbind_ext. intros sa. k1. apply rbind_ext. intros s'. k1. rewrite IH. apply rbind_ext. intros [g s'']. reflexivity.
  Qed.
  Lemma update_levels_same ps y ci ls : forall s, result (k_update_levels E oob ps y ci ls s) = update_levels (e_num E) oob ps y ci ls s.
  Proof. induction ls as [|l ls IH]; intros s; cbn [k_update_levels update_levels]; auto. k1. apply rbind_ext. intros v. k1. apply rbind_ext. intros. apply IH. Qed.
  Lemma gamma_levels_same ps y ls : forall s g, result (k_gamma_levels E oob ps y ls s g) = gamma_levels (e_num E) oob ps y ls s g.
  Proof.
    induction ls as [|l ls IH]; intros s g; cbn [k_gamma_levels gamma_levels]; auto. k1. destruct (valid_3b _ _); auto. k1. apply rbind_ext. intros. apply IH.
  Qed.
  Lemma dyad_compiled_same L ps y : forall yp cp c gamma s,
    result (k_dyad_compiled_loop E oob L ps yp cp y c gamma s) = dyad_compiled_loop (e_num E) oob L ps yp cp y c gamma s.
  Proof.
    induction y as [|yi y IH]; intros yp cp [|ci c] [|gi gamma] s; cbn [k_dyad_compiled_loop dyad_compiled_loop]; auto. k1.
    rewrite update_levels_same. apply rbind_ext. intros s'. k1. rewrite gamma_levels_same. apply rbind_ext. intros g'. k1. rewrite IH.
    apply rbind_ext. intros [g s'']. reflexivity.
  Qed.
  Lemma partial_sum_same cp y c ix iy sx sy cs L s ps g :
    result (k_partial_sum_2d E oob cp y c ix iy sx sy cs L s ps g) = partial_sum_2d (e_num E) oob cp y c ix iy sx sy cs L s ps g.
  Proof.
    unfold k_partial_sum_2d, partial_sum_2d. kprims. k1. destruct cp.
    - unfold k_dyad_update_compiled, dyad_update_compiled. kprims. k1. destruct y as [|y0 y], c as [|c0 c], g as [|g0 g]; try (k1; reflexivity).
      k1. rewrite dyad_compiled_same. destruct (dyad_compiled_loop _ _ _ _ _ _ _ _ _ _) as [[gg ss]|]; cbn [rbind]; k1; reflexivity.
    - unfold k_dyad_update, dyad_update. kprims. k1. rewrite dyad_loop_same. apply rbind_ext. intros [gg ss]. k1. reflexivity.
  Qed.
  Lemma partial_sums_same cp ny g is_ : forall s, result (k_partial_sums E oob cp ny g s is_) = partial_sums E cp oob ny g s is_.
  Proof.
    induction is_ as [|i is_ IH]; intros s; cbn [k_partial_sums partial_sums]; auto. k1. rewrite partial_sum_same. apply rbind_ext. intros [gam s'].
    k1. rewrite IH. reflexivity.
  Qed.
  Lemma impl_args_same x y : result (k_get_impl_args E sort x y) = get_impl_args E x y.
  Proof.
    unfold k_get_impl_args, get_impl_args. cbv zeta. destruct (negb _); auto. destruct (negb _); auto.
  Qed.
  Lemma terms_avl_same cp k kv x y rv :
    result (k_terms_avl_impl E sort oob cp k kv x y rv) = terms_avl_impl E cp oob k kv x y rv.
  Proof.
    unfold k_terms_avl_impl, terms_avl_impl. rewrite result_bind, impl_args_same. apply rbind_ext. intros g.
    unfold k_avl_beta, k_avl_row_sums, k_avl_total. kprims. cbv zeta. k1. rewrite partial_sums_same. apply rbind_ext. intros gs. k1.
    destruct rv; k1; reflexivity.
  Qed.
End Same.

(** ** Bounds *)
(** [m] takes at most [c] steps, and what it returns satisfies [P]. *)
Definition within {A} (m : K A) (c : nat) (P : A -> Prop) : Prop := steps m <= c /\ forall a, result m = Ok a -> P a.
Lemma w_bind {A B} (m : K A) (f : A -> K B) c d P Q :
  within m c P -> (forall a, P a -> within (f a) d Q) -> within (kbind m f) (c + d) Q.
Proof.
  intros [S R] H. destruct m as [k [a|e]]; cbn in *.
  - destruct (H a (R a eq_refl)) as [S' R']. unfold within, steps, result in *. cbn. destruct (f a) as [k' r]; cbn in *. split; auto; lia.
  - unfold within, steps, result in *. cbn in *. split; [lia|discriminate].
Qed.
Lemma w_weaken {A} (m : K A) c d (P Q : A -> Prop) : within m c P -> c <= d -> (forall a, P a -> Q a) -> within m d Q.
Proof. intros [S R] L I. split; [lia|auto]. Qed.
Lemma w_do {A} c (a : A) (P : A -> Prop) : P a -> within (kdo c a) c P.
Proof. intros H. split; auto. intros b [= <-]. exact H. Qed.
Lemma w_ret {A} (a : A) (P : A -> Prop) : P a -> within (kret a) 0 P.
Proof. intros H. split; auto. intros b [= <-]. exact H. Qed.
Lemma w_raise {A} e (P : A -> Prop) c : within (kraise e) c P.
Proof. split; [cbn; lia|discriminate]. Qed.
Lemma w_res {A} c (r : res A) (P : A -> Prop) : (forall a, r = Ok a -> P a) -> within (kres c r) c P.
Proof. intros H. split; auto. Qed.
Lemma w_tick {A} c (a : A) : within (kdo c a) c (fun _ => True).
Proof. apply w_do. exact I. Qed.
Lemma w_any {A} c (r : res A) : within (kres c r) c (fun _ => True).
Proof. apply w_res. auto. Qed.
Lemma w_le {A} (m : K A) c d P : within m c P -> c <= d -> within m d P.
Proof. intros H L. exact (w_weaken _ _ _ _ _ H L (fun _ h => h)). Qed.

Lemma w_map {A B} (f : A -> B) l n : length l <= n -> within (kmap f l) n (fun r => length r = length l).
Proof. intros H. apply (w_le _ (length l)); auto. apply w_do. apply map_length. Qed.
Lemma w_map2 {A B C} (f : A -> B -> C) l k n : length l <= n -> within (kmap2 f l k) n (fun r => length r <= n).
Proof.
  intros H. apply (w_le _ (length (combine l k))); [|rewrite combine_length; lia]. apply w_do. rewrite map2_length. lia.
Qed.
Lemma w_map2_eq {A B C} (f : A -> B -> C) l k n : length l = n -> length k = n -> within (kmap2 f l k) n (fun r => length r = n).
Proof.
  intros H H'. apply (w_le _ (length (combine l k))); [|rewrite combine_length; lia]. apply w_do. rewrite map2_length. lia.
Qed.
Lemma w_take {A} (d : A) l idx n : length idx = n -> within (ktake d l idx) n (fun r => length r = n).
Proof. intros <-. apply w_do. apply map_length. Qed.
Lemma take_chk_length {A} e (l : list A) idx : forall r, take_chk e l idx = Ok r -> length r = length idx.
Proof.
  induction idx as [|i idx IH]; cbn [take_chk]; intros r.
  - intros [= <-]. reflexivity.
  - destruct (nth_error l i); [|discriminate]. destruct (take_chk e l idx); [|discriminate].
    intros [= <-]. cbn. f_equal. apply IH. reflexivity.
Qed.
Lemma w_take_chk {A} e (l : list A) idx n : length idx = n -> within (ktake_chk e l idx) n (fun r => length r = n).
Proof. intros <-. apply w_res. intros r. apply take_chk_length. Qed.
Lemma w_scatter {A} (l : list A) idx v n : length idx = n -> within (kscatter l idx v) n (fun r => length r = length l).
Proof. intros <-. apply w_do. apply scatter_length. Qed.
Lemma w_const {A} n (a : A) : within (kconst n a) n (fun r => length r = n).
Proof. apply w_do. apply repeat_length. Qed.
Lemma w_seq n : within (kseq n) n (fun r => length r = n).
Proof. apply w_do. apply seq_length. Qed.
Lemma w_sum {T} (N : Num T) l n : length l <= n -> within (ksum N l) n (fun _ => True).
Proof. intros H. apply (w_le _ (length l)); auto. apply w_do. exact I. Qed.
Lemma cumsum_length {T} (N : Num T) l : forall a, length (cumsum_from N a l) = length l.
Proof. induction l as [|x l IH]; intros a; cbn; auto. Qed.
Lemma w_cumsum {T} (N : Num T) l n : length l <= n -> within (kcumsum N l) n (fun r => length r = length l).
Proof. intros H. apply (w_le _ (length l)); auto. apply w_do. apply cumsum_length. Qed.
Lemma w_dot {T} (N : Num T) a b n : length a <= n -> within (kdot N a b) n (fun _ => True).
Proof. intros H. apply (w_le _ (length a)); auto. apply w_res. auto. Qed.
Lemma w_var {T} (N : Num T) l n : length l <= n -> within (kvar N l) (4 * n) (fun _ => True).
Proof. intros H. apply (w_le _ (4 * length l)); [|lia]. apply w_do. exact I. Qed.
Lemma w_mapM {A B} (f : A -> K B) l c P : (forall a, In a l -> within (f a) c P) ->
  within (k_mapM f l) (length l * (1 + c)) (fun r => length r = length l /\ Forall P r).
Proof.
  induction l as [|a l IH]; intros H; cbn [k_mapM length].
  - apply w_ret. auto.
  - eapply w_le.
    + eapply w_bind; [apply w_tick|]. intros _ _. eapply w_bind; [apply H; now left|]. intros b Pb.
      eapply w_bind; [apply IH; intros; apply H; now right|]. intros bs [L F]. apply w_ret. cbn. auto.
    + lia.
Qed.

Lemma w_mapM4 {A B} (f : A -> K B) l c P : length l = 4 -> (forall a, In a l -> within (f a) c P) ->
  within (k_mapM f l) (4 * (1 + c)) (fun r => length r = 4 /\ Forall P r).
Proof. intros H. rewrite <- H. apply w_mapM. Qed.
Ltac wb := eapply w_bind.
Ltac ll := cbn beta in *; lia.

(** the vectors of terms have at most [n] elements *)
Definition ok_terms {T} (n : nat) (t : terms (T:=T)) : Prop := length (t_a_axis t) <= n /\ length (t_b_axis t) <= n.

Section MergeBound.
  Context {T : Type} (E : Env T) (sort : nat -> nat) (oob : exn) (cast : bool).

  Definition rows_le (n : nat) (ws : list (list T)) : Prop := Forall (fun r => length r <= n) ws.
  Definition ok_state (n : nat) (st : mstate (T:=T)) : Prop := length (ms_cur st) = n /\ rows_le n (ms_ws st).

  Lemma rd_any {A} (l : list A) i (P : A -> Prop) : (forall a, P a) -> forall a, rd oob l i = Ok a -> P a.
  Proof. auto. Qed.
  Lemma add_weights_rows n p hi lo cums : forall ws r, rows_le n ws -> add_weights E oob p hi lo ws cums = Ok r -> rows_le n r.
  Proof.
    induction cums as [|c cums IH]; intros [|w ws] r; cbn [add_weights]; intros H; try (intros [= <-]; constructor).
    inversion H; subst. unfold add_weight. destruct (rd oob w p); cbn [rbind]; [|discriminate]. destruct (rd oob c hi); cbn [rbind]; [|discriminate].
    destruct (rd oob c lo); cbn [rbind]; [|discriminate]. destruct (add_weights E oob p hi lo ws cums) eqn:A; cbn [rbind]; [|discriminate].
    intros [= <-]. constructor; [rewrite upd_length; auto|]. exact (IH _ _ H3 A).
  Qed.
  Lemma push_ok n st v ws r : length (ms_cur st) = n -> rows_le n ws -> push oob st v ws = Ok r -> ok_state n r.
  Proof. unfold push. destruct (_ <? _); [|discriminate]. intros H R [= <-]. split; cbn; auto. rewrite upd_length. auto. Qed.

  (** every iteration moves one of the two indices forward *)
  Lemma loop_within n y prev cums l1 l2 fuel : forall s1 s2 st, ok_state n st ->
    within (k_merge_loop E oob cast fuel y prev cums s1 l1 s2 l2 st) ((1 + length cums) * ((S l1 - s1) + (S l2 - s2)))
      (fun r => s1 <= fst (fst r) /\ s2 <= snd (fst r) /\ ok_state n (snd r)).
  Proof.
    induction fuel as [|fuel IH]; intros s1 s2 st [Hc Hw]; cbn [k_merge_loop]; destruct ((s1 <=? l1) && (s2 <=? l2)) eqn:B.
    - apply w_raise.
    - eapply w_le; [apply w_ret; cbn; repeat split; auto|apply Nat.le_0_l].
    - apply andb_true_iff in B as [B1 B2]. apply Nat.leb_le in B1, B2.
      assert (D : exists d, (S l1 - s1) + (S l2 - s2) = S d /\ (S l1 - S s1) + (S l2 - s2) = d /\ (S l1 - s1) + (S l2 - S s2) = d)
        by (exists ((S l1 - s1) + (S l2 - S s2)); lia).
      destruct D as (d & D0 & D1 & D2). rewrite D0. eapply w_le.
      + wb; [apply w_any|]. intros p1 _. wb; [apply w_any|]. intros p2 _.
        wb; [apply w_any|]. intros y1 _. wb; [apply w_any|]. intros y2 _.
        instantiate (1 := length cums + (1 + length cums) * d).
        destruct (nleb _ _ _).
        * eapply w_le; [|]. wb; [apply w_res; intros a Ha; exact (push_ok n _ _ _ _ Hc Hw Ha)|]. intros st' Hst'.
          eapply w_weaken; [apply IH; exact Hst'|apply Nat.le_refl|]. intros [[a1 a2] s'] (H1 & H2 & H3). cbn in *. repeat split; try lia; apply H3.
          rewrite D1. lia.
        * destruct cast; [|apply w_raise].
          eapply w_le; [|]. wb; [apply w_res; intros a Ha; exact (add_weights_rows n _ _ _ _ _ _ Hw Ha)|]. intros ws Hws.
          wb; [apply w_res; intros a Ha; exact (push_ok n _ _ _ _ Hc Hws Ha)|]. intros st' Hst'.
          eapply w_weaken; [apply IH; exact Hst'|apply Nat.le_refl|]. intros [[a1 a2] s'] (H1 & H2 & H3). cbn in *. repeat split; try lia; apply H3.
          rewrite D2. lia.
      + lia.
    - eapply w_le; [apply w_ret; cbn; repeat split; auto|apply Nat.le_0_l].
  Qed.
  Lemma copy_ok n prev lo k st r : ok_state n st -> copy_slice prev lo k st = Ok r -> ok_state n r.
  Proof.
    intros [Hc Hw]. unfold copy_slice. destruct (_ && _) eqn:B; [|discriminate]. apply andb_true_iff in B as [B1 B2].
    apply Nat.eqb_eq in B1. apply Nat.leb_le in B2. intros [= <-]. split; cbn; auto.
    rewrite !app_length, firstn_length, skipn_length, B1. lia.
  Qed.
  Lemma pair_within n len y prev cums st p : 0 < len -> ok_state n st ->
    within (k_merge_pair E oob cast n len y prev cums st p) ((2 + length cums) * (2 * len)) (ok_state n).
  Proof.
    intros Hl Hst. unfold k_merge_pair. cbv zeta. set (l1 := Nat.min (p + len - 1) (n - 1)). set (l2 := Nat.min (p + len + len - 1) (n - 1)).
    assert (B1 : S l1 - p <= len) by (unfold l1; lia). assert (B2 : S l2 - (p + len) <= len) by (unfold l2; lia). clearbody l1 l2.
    eapply w_le.
    - wb; [apply (loop_within n); exact Hst|]. intros [[s1 s2] st'] (H1 & H2 & H3). cbn [fst snd] in *.
      instantiate (1 := len). destruct (s1 <=? l1) eqn:E1; [|destruct (s2 <=? l2) eqn:E2].
      + apply Nat.leb_le in E1. eapply w_le; [apply w_res; intros r; apply copy_ok; exact H3|lia].
      + apply Nat.leb_le in E2. eapply w_le; [apply w_res; intros r; apply copy_ok; exact H3|lia].
      + eapply w_le; [apply w_ret; exact H3|apply Nat.le_0_l].
    - nia.
  Qed.
  Lemma pairs_within n len y prev cums ps : 0 < len -> forall st, ok_state n st ->
    within (k_merge_pairs E oob cast n len y prev cums ps st) (length ps * (1 + (2 + length cums) * (2 * len))) (ok_state n).
  Proof.
    intros Hl. induction ps as [|p ps IH]; intros st Hst; cbn [k_merge_pairs length].
    - apply w_ret. exact Hst.
    - eapply w_le; [wb; [apply w_tick|]; intros _ _; wb; [apply pair_within; eauto|]; exact IH|lia].
  Qed.
  Lemma range_length n gap : 0 < gap -> length (range_step n gap) * gap <= n + gap - 1.
  Proof. intros H. unfold range_step. rewrite map_length, seq_length. rewrite Nat.mul_comm. apply Nat.mul_div_le. lia. Qed.

  (** one pass costs O(n) and the length of the blocks doubles *)
  Lemma passes_within n y weights fuel : forall j prev cur ws, length weights = 4 ->
    length prev = n -> length cur = n -> rows_le n ws ->
    within (k_merge_passes E oob cast fuel n (2 ^ j) y weights prev cur ws) ((Nat.log2_up n - j) * (34 * n)) (rows_le n).
  Proof.
    induction fuel as [|fuel IH]; intros j prev cur ws W Hp Hc Hw; cbn [k_merge_passes]; destruct (2 ^ j <? n) eqn:B.
    - apply w_raise.
    - eapply w_le; [apply w_ret; exact Hw|apply Nat.le_0_l].
    - apply Nat.ltb_lt in B. assert (J : j < Nat.log2_up n) by (apply Nat.log2_up_lt_pow2; lia).
      assert (P : 0 < 2 ^ j) by (apply Nat.neq_0_lt_0, Nat.pow_nonzero; lia).
      replace ((Nat.log2_up n - j) * (34 * n)) with (34 * n + (Nat.log2_up n - S j) * (34 * n)) by nia.
      eapply w_le.
      + wb; [apply w_tick|]. intros _ _. wb.
        * apply (w_mapM _ _ (2 * n) (fun _ => True)). intros w _. unfold k_cumsum_var. eapply w_le.
          { wb; [apply w_take_chk; exact Hp|]. intros v Hv. wb; [apply w_cumsum with (n := n); ll|]. intros. apply w_ret. exact I. }
          lia.
        * intros cums [Hcu _]. wb.
          { eapply w_le with (d := (n + 2 * 2 ^ j) * 7); [apply (pairs_within n); [exact P|split; auto]|].
            pose proof (range_length n (2 * 2 ^ j) ltac:(lia)). rewrite Hcu, W. set (c := length _) in *. clearbody c. nia. }
          intros st [Hst1 Hst2]. change (2 * 2 ^ j) with (2 ^ S j). apply IH; auto.
      + rewrite W. lia.
    - eapply w_le; [apply w_ret; exact Hw|apply Nat.le_0_l].
  Qed.
  Lemma nth_rows n ws i : rows_le n ws -> length (nth i ws []) <= n.
  Proof. intros H. destruct (nth_in_or_default i ws []) as [I| ->]; [|cbn; lia]. unfold rows_le in H. rewrite Forall_forall in H. auto. Qed.

  Lemma weight_sums_within n y weights : length weights = 4 -> length y = n ->
    within (k_compute_weight_sums E oob cast y weights) (6 * n + Nat.log2_up n * (34 * n)) (rows_le n).
  Proof.
    intros W Hy. unfold k_compute_weight_sums. cbv zeta. rewrite W, Hy. eapply w_le.
    - wb; [apply w_seq|]. intros prev Hp. wb; [apply w_const|]. intros cur Hcur.
      wb; [apply w_do with (P := rows_le n); apply Forall_forall; intros r Hr; apply in_map_iff in Hr as (u & <- & _); rewrite repeat_length; lia|].
      intros ws Hws. change 1 with (2 ^ 0). apply passes_within; auto.
    - rewrite Nat.sub_0_r. lia.
  Qed.
  Lemma aijbij_within n x y : length x = n -> length y = n ->
    within (k_compute_aijbij_term E oob cast x y) (22 * n + Nat.log2_up n * (34 * n)) (fun _ => True).
  Proof.
    intros Hx Hy. unfold k_compute_aijbij_term, k_compute_weight_sums. cbv zeta. eapply w_le.
    - wb; [apply w_map2 with (n := n); ll|]. intros xy Lxy. wb; [apply w_map with (n := n); ll|]. intros ones _.
      wb; [apply w_do with (P := fun w => w = [ones; y; x; xy]); reflexivity|]. intros weights ->.
      wb; [apply weight_sums_within; [reflexivity|exact Hy]|].
      intros ws Hws. wb; [apply w_dot with (n := n); ll|]. intros t1 _. wb; [apply w_dot with (n := n); ll|]. intros t2 _.
      wb; [apply w_dot with (n := n); ll|]. intros t3 _. wb; [apply w_sum, nth_rows; exact Hws|]. intros t4 _.
      wb; [apply w_sum with (n := n); ll|]. intros sx _. wb; [apply w_sum with (n := n); ll|]. intros sy _.
      wb; [apply w_map with (n := n); ll|]. intros nx Hnx. wb; [apply w_dot with (n := n); ll|]. intros nxy _.
      wb; [apply w_map2 with (n := n); ll|]. intros mx Hmx. wb; [apply w_sum with (n := n); ll|]. intros sm _. apply w_ret. exact I.
    - cbn [length]. rewrite Hy. generalize (Nat.log2_up n). intros L. nia.
  Qed.
  Lemma row_sums_within n x : length x = n -> within (k_compute_row_sums E oob x) (5 * n + 1) (fun r => length r = n).
  Proof.
    intros Hx. unfold k_compute_row_sums. cbv zeta. eapply w_le.
    - wb; [apply w_do with (P := fun r => length r = n); rewrite seq_length; exact Hx|]. intros idx Hi.
      wb; [apply w_map2_eq with (n := n); ll|]. intros t1 H1.
      wb; [apply w_cumsum with (n := n); ll|]. intros sums Hs. wb; [apply w_any|]. intros la _.
      wb; [apply w_map with (n := n); ll|]. intros t2 H2. apply w_map2_eq; ll.
    - lia.
  Qed.

  Lemma mergesort_within n k kv x y rv : (forall l, length (e_argsort E l) = length l) -> (forall m, length (e_empty E m) = m) ->
    length x = n -> length y = n ->
    within (k_terms_mergesort_impl E sort oob cast k kv x y rv)
      (2 * sort n + (46 * n + 2 + Nat.log2_up n * (34 * n))) (ok_terms n).
  Proof.
    intros Ha He Hx Hy. unfold k_terms_mergesort_impl. cbv zeta. eapply w_le.
    - wb; [apply w_do with (P := fun r => length r = n); rewrite Ha; exact Hx|]. intros ox Hox.
      wb; [apply w_take_chk; exact Hox|]. intros xs Hxs. wb; [apply w_take_chk; exact Hox|]. intros ys Hys.
      wb; [apply aijbij_within; [exact Hxs|exact Hys]|]. intros mp _. wb; [apply row_sums_within; exact Hxs|]. intros ai Hai.
      wb; [unfold ksort; rewrite Hys; apply w_do with (P := fun r => length r = n); rewrite Ha; exact Hys|]. intros oy Hoy.
      wb; [apply w_take_chk; exact Hoy|]. intros yo Hyo. wb; [apply row_sums_within; exact Hyo|]. intros bp Hbp.
      wb; [apply w_scatter; exact Hoy|]. intros bi Hbi. cbn beta in Hbi. rewrite He in Hbi.
      wb; [apply w_sum with (n := n); ll|]. intros sa _. wb; [apply w_sum with (n := n); ll|]. intros sb _.
      assert (V : forall v, length v = n -> within (if rv then kbind (kvar (e_num E) v)
          (fun s => kret (Some (nmul (e_num E) (nofZ (e_num E) (2 * Z.of_nat (length x) ^ 2)) s))) else kret None) (4 * n) (fun _ => True)).
      { intros v Hv. destruct rv; [|eapply w_le; [apply w_ret; exact I|apply Nat.le_0_l]].
        eapply w_le; [wb; [apply w_var with (n := n); lia|]; intros; apply w_ret; exact I|lia]. }
      wb; [apply V; exact Hxs|]. intros va _. wb; [apply V; exact Hys|]. intros vb _. apply w_ret. split; cbn; ll.
    - rewrite Hx. generalize (Nat.log2_up n * (34 * n)). intros. lia.
  Qed.
End MergeBound.

Section AvlBound.
  Context {T : Type} (E : Env T) (sort : nat -> nat) (oob : exn).

  Lemma zgets_length s ps : forall r, zgets (T:=T) oob s ps = Ok r -> length r = length ps.
  Proof.
    induction ps as [|p ps IH]; cbn [zgets]; intros r.
    - intros [= <-]. reflexivity.
    - destruct (zget oob s p); cbn [rbind]; [|discriminate]. destruct (zgets oob s ps); cbn [rbind]; [|discriminate].
      intros [= <-]. cbn. f_equal. apply IH. reflexivity.
  Qed.
  Lemma zset_length s p v r : zset (T:=T) oob s p v = Ok r -> length r = length s.
  Proof. unfold zset. destruct (of_option _ _); cbn [rbind]; [|discriminate]. intros [= <-]. apply upd_length. Qed.
  Lemma zsets_length ps : forall s vs r, zsets (T:=T) oob s ps vs = Ok r -> length r = length s.
  Proof.
    induction ps as [|p ps IH]; intros s [|v vs] r; cbn [zsets]; try (intros [= <-]; reflexivity).
    destruct (zset oob s p v) eqn:Z; cbn [rbind]; [|discriminate]. intros H. rewrite (IH _ _ _ H). exact (zset_length _ _ _ _ Z).
  Qed.
  Lemma filter_le {A} (f : A -> bool) l : length (filter f l) <= length l.
  Proof. induction l as [|a l IH]; cbn; [lia|]. destruct (f a); cbn; lia. Qed.

  Lemma dyad_within L ps m y : forall c s, length s = m ->
    within (k_dyad_loop E oob L ps y c s) (length y * (9 * L)) (fun r => length (fst r) <= length y /\ length (snd r) = m).
  Proof.
    induction y as [|yi y IH]; intros [|ci c] s Hs; cbn [k_dyad_loop]; try (eapply w_le; [apply w_ret; cbn; split; [lia|exact Hs]|lia]).
    eapply w_le.
    - wb; [apply w_seq|]. intros lev Hlev. wb; [apply w_map with (n := L); ll|]. intros pa Hpa.
      wb; [apply w_do with (P := fun r => length r <= L); pose proof (filter_le (valid_3b yi) lev); ll|]. intros va Hva.
      wb; [apply w_map with (n := L); ll|]. intros pb Hpb. cbn beta in *.
      wb; [eapply w_le with (d := L); [apply w_res; intros r; apply zgets_length|lia]|]. intros sb Hsb. cbn beta in *.
      wb; [apply w_sum with (n := L); lia|]. intros gi _.
      wb; [eapply w_le with (d := L); [apply w_res; intros r; apply zgets_length|lia]|]. intros sa Hsa. cbn beta in *.
      wb; [apply w_map with (n := L); lia|]. intros sa' Hsa'. cbn beta in *.
      wb; [eapply w_le with (d := L); [apply w_res; intros r; apply zsets_length|lia]|]. intros s' Hs'. cbn beta in *.
      wb; [apply IH; lia|]. intros [g s''] [H1 H2]. apply w_ret. cbn in *. split; [lia|exact H2].
    - cbn [length]. lia.
  Qed.
  Lemma update_within ps y ci ls m : forall s, length s = m ->
    within (k_update_levels E oob ps y ci ls s) (length ls) (fun r => length r = m).
  Proof.
    induction ls as [|l ls IH]; intros s Hs; cbn [k_update_levels length].
    - apply w_ret. exact Hs.
    - eapply w_le; [wb; [apply w_any|]; intros v _; wb; [apply w_res; intros r; apply zset_length|]; intros s' Hs'; apply IH; ll|lia].
  Qed.
  Lemma gamma_within ps y ls s : forall g, within (k_gamma_levels E oob ps y ls s g) (length ls) (fun _ => True).
  Proof.
    induction ls as [|l ls IH]; intros g; cbn [k_gamma_levels length].
    - apply w_ret. exact I.
    - apply w_bind with (c := 1) (d := length ls) (P := fun _ => True); [apply w_tick|]. intros _ _. destruct (valid_3b y l); [|apply IH].
      eapply w_le; [wb; [apply w_any|]; intros v _; apply IH|lia].
  Qed.
  Lemma dyad_compiled_within L ps m y : forall yp cp c gamma s, length s = m ->
    within (k_dyad_compiled_loop E oob L ps yp cp y c gamma s) (length y * (1 + 2 * L)) (fun r => length (fst r) <= length y /\ length (snd r) = m).
  Proof.
    induction y as [|yi y IH]; intros yp cp [|ci c] [|gi gamma] s Hs; cbn [k_dyad_compiled_loop];
      try (eapply w_le; [apply w_ret; cbn; split; [lia|exact Hs]|lia]).
    eapply w_le.
    - wb; [apply w_tick|]. intros _ _. wb; [apply update_within; exact Hs|]. intros s' Hs'. wb; [apply gamma_within|]. intros g' _.
      wb; [apply IH; exact Hs'|]. intros [g s''] [H1 H2]. apply w_ret. cbn in *. split; [lia|exact H2].
    - rewrite seq_length. cbn [length]. lia.
  Qed.
  Lemma partial_within cp n m y c ix iy sx sy cs L s ps g : 1 <= L -> length y = n -> length c <= n -> length ix = n -> length iy = n -> length s = m ->
    within (k_partial_sum_2d E oob cp y c ix iy sx sy cs L s ps g) (n * (9 * L) + m + 6 * n)
      (fun r => length (fst r) = n /\ length (snd r) = m).
  Proof.
    intros HL Hy Hc Hix Hiy Hs. unfold k_partial_sum_2d. eapply w_le.
    - apply w_bind with (c := m + n * (9 * L)) (P := fun r => length (snd r) = m).
      + destruct cp.
        * unfold k_dyad_update_compiled. eapply w_le with (c := m + n * (9 * L)); [|lia].
          wb; [apply w_map with (n := m); lia|]. intros s0 Hs0. cbn beta in *.
          destruct y as [|y0 y], c as [|c0 c], g as [|g0 g]; try (eapply w_le; [apply w_ret; cbn; lia|apply Nat.le_0_l]).
          eapply w_le; [wb; [apply (dyad_compiled_within _ _ m); lia|]; intros [gg ss] [H1 H2]; apply w_ret; exact H2|].
          cbn [length] in Hy. nia.
        * unfold k_dyad_update. wb; [apply w_map with (n := m); lia|]. intros s0 Hs0. cbn beta in *. rewrite <- Hy.
          eapply w_weaken; [apply (dyad_within _ _ m); lia|apply Nat.le_refl|]. intros [gg ss] [_ H]. exact H.
      + intros [gam s'] Hs'. cbn [snd] in Hs'. wb; [apply w_map with (n := n); lia|]. intros t Ht. wb; [apply w_take; exact Hiy|]. intros sy' _.
        wb; [apply w_map2 with (n := n); ll|]. intros t1 Ht1. wb; [apply w_map2 with (n := n); ll|]. intros t2 Ht2.
        wb; [apply w_map2 with (n := n); ll|]. intros t3 Ht3. wb; [apply w_take; exact Hix|]. intros t4 Ht4. apply w_ret. cbn. split; ll.
    - lia.
  Qed.

  (** what [k_get_impl_args] guarantees *)
  Definition ok_args (n : nat) (g : impl_args (T:=T)) : Prop :=
    length (g_ix g) = n /\ length (g_iy g) = n /\ length (g_vx g) = n /\ length (g_vy g) = n /\ length (g_iy_reord g) = n /\
    Forall (fun c => length c <= n) (g_c g) /\ g_l_max g = Nat.log2_up n /\ length (g_s g) = 2 ^ (Nat.log2_up n + 1).
  Lemma partial_sums_within cp n new_y g is_ : 1 <= Nat.log2_up n -> length new_y = n -> ok_args n g -> forall s, length s = 2 ^ (Nat.log2_up n + 1) ->
    within (k_partial_sums E oob cp new_y g s is_)
      (length is_ * (n * (9 * Nat.log2_up n) + 2 ^ (Nat.log2_up n + 1) + 6 * n)) (Forall (fun r => length r = n)).
  Proof.
    intros HL Hy (H1 & H2 & H3 & H4 & H5 & H6 & H7 & H8).
    induction is_ as [|i is_ IH]; intros s Hs; cbn [k_partial_sums length].
    - apply w_ret. constructor.
    - eapply w_le.
      + wb.
        * rewrite H7. apply partial_within with (n := n) (m := 2 ^ (Nat.log2_up n + 1)); auto. apply nth_rows. exact H6.
        * intros [gam s'] [A B]. cbn [fst snd] in *. wb; [apply IH; exact B|]. intros rest Hr. apply w_ret. constructor; auto.
      + lia.
  Qed.
  Lemma excl_within n l : length l <= n -> within (k_excl E l) (2 * n) (fun _ => True).
  Proof.
    intros H. unfold k_excl. eapply w_le; [wb; [apply w_cumsum with (n := n); lia|]; intros cs Hcs; eapply w_weaken; [apply w_map2 with (n := n); ll|apply Nat.le_refl|auto]|lia].
  Qed.
  Hypothesis Ha : forall l, length (e_argsort E l) = length l.
  Hypothesis He : forall m, length (e_empty E m) = m.
  Lemma sort_within n l : length l = n -> within (ksort E sort l) (sort n) (fun r => length r = n).
  Proof. intros <-. apply w_do. apply Ha. Qed.
  Lemma args_within n x y : length x = n ->
    within (k_get_impl_args E sort x y) (3 * sort n + (60 * n + 2 ^ (Nat.log2_up n + 1) + 20 + 2 * Nat.log2_up n)) (ok_args n).
  Proof.
    intros Hx. unfold k_get_impl_args. cbv zeta. destruct (negb _); [apply w_raise|]. destruct (negb _) eqn:EY; [apply w_raise|].
    assert (Hy : length y = n) by (apply negb_false_iff, Nat.eqb_eq in EY; lia). rewrite Hx.
    assert (NR : forall a b c d : list T, length a <= n -> length b <= n -> length c <= n -> length d <= n -> forall r, In r [a; b; c; d] -> length r <= n)
      by (intros a b c d A B C D r [<-|[<-|[<-|[<-|[]]]]]; auto).
    eapply w_le.
    - wb; [apply w_seq|]. intros temp Ht. wb; [apply sort_within; exact Hx|]. intros ax Hax. wb; [apply w_take; exact Hax|]. intros vx Hvx.
      wb; [apply w_const|]. intros z1 Hz1. wb; [apply w_scatter; exact Hax|]. intros ix Hix.
      wb; [apply sort_within; exact Hy|]. intros ay Hay. wb; [apply w_take; exact Hay|]. intros vy Hvy.
      wb; [apply w_const|]. intros z2 Hz2. wb; [apply w_scatter; exact Hay|]. intros iy Hiy.
      wb; [apply w_take; exact Hax|]. intros yr Hyr. wb; [apply w_map2 with (n := n); lia|]. intros xy Hxy.
      wb; [apply w_take; exact Hax|]. intros xyr Hxyr. wb; [apply sort_within; exact Hyr|]. intros ar Har.
      wb; [apply w_const|]. intros z3 Hz3. wb; [apply w_scatter; exact Har|]. intros ir Hir.
      wb; [apply w_map with (n := n); lia|]. intros ones Hones. cbn beta in *.
      wb; [apply (w_mapM4 _ _ n (fun r => length r = n)); [reflexivity|]; intros a _; apply w_take; exact Har|]. intros cr [Hcr Fcr].
      wb; [apply (w_mapM4 _ _ (2 * n) (fun _ => True)); [reflexivity|]; intros a Hin; apply excl_within; revert Hin; apply NR; lia|]. intros sx [Hsx _].
      wb; [apply (w_mapM4 _ _ (2 * n) (fun _ => True)); [exact Hcr|]; intros a Hin; apply excl_within; rewrite Forall_forall in Fcr; rewrite (Fcr a Hin); lia|]. intros sy _.
      wb; [apply (w_mapM4 _ _ n (fun _ => True)); [reflexivity|]; intros a Hin; apply w_sum; revert Hin; apply NR; lia|]. intros cs _.
      wb; [apply w_do with (P := fun r => length r = 2 ^ (Nat.log2_up n + 1)); apply He|]. intros s Hs.
      wb; [apply (w_mapM4 _ _ n (fun _ => True)); [reflexivity|]; intros a Hin; eapply w_weaken; [apply w_map; revert Hin; apply NR; lia|apply Nat.le_refl|auto]|]. intros gam _.
      wb; [apply w_tick|]. intros ps _. apply w_ret. unfold ok_args; cbn [g_ix g_iy g_vx g_vy g_iy_reord g_c g_l_max g_s]. repeat split; try lia; [apply Forall_forall, NR; lia|exact Hs].
    - cbn [length]. generalize (2 ^ (Nat.log2_up n + 1)) (Nat.log2_up n). intros. lia.
  Qed.
  Lemma avl_within n cp k kv x y rv : length x = n -> length y = n ->
    within (k_terms_avl_impl E sort oob cp k kv x y rv)
      (3 * sort n + (121 * n + 20 + 5 * 2 ^ (Nat.log2_up n + 1) + 2 * Nat.log2_up n + n * (36 * Nat.log2_up n))) (ok_terms n).
  Proof.
    intros Hx Hy. unfold k_terms_avl_impl. destruct (3 <? length x) eqn:N3.
    2:{ unfold k_get_impl_args. rewrite N3. cbn [negb]. apply w_le with (c := 0); [|lia]. split; [cbn; lia|discriminate]. }
    apply Nat.ltb_lt in N3. assert (HL : 1 <= Nat.log2_up n) by (change 1 with (Nat.log2_up 2); apply Nat.log2_up_le_mono; lia).
    eapply w_le.
    - wb; [apply args_within; exact Hx|]. intros g G. destruct G as (H1 & H2 & H3 & H4 & H5 & H6 & H7 & H8).
      assert (B : forall v ix, length v = n -> length ix = n -> within (k_avl_beta E v ix) (4 * n) (fun r => length r = n)).
      { intros v ix Hv Hix. unfold k_avl_beta. eapply w_le; [wb; [apply w_cumsum with (n := n); lia|]; intros cs _; wb; [apply w_take; exact Hix|]; intros a Hla; wb; [apply w_take; exact Hix|]; intros b Hlb; apply w_map2_eq; ll|lia]. }
      assert (R : forall v al be, length v = n -> length al = n -> within (k_avl_row_sums E v al be) (3 * n) (fun r => length r <= n)).
      { intros v al be Hv Hal. unfold k_avl_row_sums. cbv zeta. eapply w_le; [wb; [apply w_sum with (n := n); lia|]; intros sv _; wb; [apply w_map2 with (n := n); lia|]; intros t Ht; apply w_map2 with (n := n); ll|lia]. }
      assert (S : forall v al be, length al = n -> length be = n -> within (k_avl_total E v al be) (3 * n) (fun _ => True)).
      { intros v al be Hal Hbe. unfold k_avl_total. cbv zeta. eapply w_le; [wb; [apply w_map2 with (n := n); lia|]; intros t Ht; wb; [apply w_sum with (n := n); ll|]; intros st _; wb; [apply w_sum with (n := n); lia|]; intros sb _; apply w_ret; exact I|lia]. }
      cbv zeta. wb; [apply B; [exact H3|exact H1]|]. intros bx Hbx. wb; [apply B; [exact H4|exact H2]|]. intros by_ Hby.
      wb; [apply R; [exact Hx|exact H1]|]. intros ai Hai. wb; [apply R; [exact Hy|exact H2]|]. intros bi Hbi.
      wb; [apply S; [exact H1|exact Hbx]|]. intros ta _. wb; [apply S; [exact H2|exact Hby]|]. intros tb _.
      wb; [apply w_map with (n := n); lia|]. intros ny Hny. cbn beta in Hny.
      wb; [apply (partial_sums_within cp n); [exact HL|lia|unfold ok_args; auto 10|exact H8]|]. intros gs Hgs.
      assert (GL : forall i, length (nth i gs []) <= n) by (intros i; apply nth_rows; eapply Forall_impl; [|exact Hgs]; intros a Ha'; cbn beta in *; lia).
      wb; [apply w_map2 with (n := n); ll|]. intros u1 L1. wb; [apply w_map2 with (n := n); ll|]. intros u2 L2. wb; [apply w_map2 with (n := n); ll|]. intros u3 L3.
      wb; [apply w_map2 with (n := n); ll|]. intros u4 L4. wb; [apply w_map2 with (n := n); ll|]. intros u5 L5. wb; [apply w_map2 with (n := n); ll|]. intros u6 L6.
      wb; [apply w_map2 with (n := n); ll|]. intros u7 L7. wb; [apply w_sum with (n := n); ll|]. intros mp _.
      assert (V : forall v, length v = n -> within (if rv then kbind (kvar (e_num E) v)
          (fun s => kret (Some (nmul (e_num E) (nofZ (e_num E) (2 * Z.of_nat (length x) ^ 2)) s))) else kret None) (4 * n) (fun _ => True)).
      { intros v Hv. destruct rv; [|eapply w_le; [apply w_ret; exact I|apply Nat.le_0_l]].
        eapply w_le; [wb; [apply w_var with (n := n); lia|]; intros; apply w_ret; exact I|lia]. }
      wb; [apply V; exact Hx|]. intros va _. wb; [apply V; exact Hy|]. intros vb _. apply w_ret. split; cbn; ll.
    - cbn [length]. generalize (2 ^ (Nat.log2_up n + 1)). generalize (Nat.log2_up n). intros L P. lia.
  Qed.
End AvlBound.
