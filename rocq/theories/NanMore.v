(** NaN and infinities in the data of the energy functions, the partial functions and the tests. *)
From Coq Require Import Lia List Arith Bool ZArith.
From Verif Require Import Num Numpy MUtils MDistances MInternals MMergesort MAvl MDcor MPartial MEnergy MHypothesis MHomogeneity
  MIndependence Sums Tab Samples Api RefDist AvlGeneric RefInteger TransferMore Calls NanGeneric.
Import ListNotations.
Local Open Scope monad_scope.

(** [big] means "NaN or plus infinity", [nn] "NaN or at least zero". *)
Record special_pos {T} (N : Num T) (bad big nn : T -> Prop) : Prop := {
  sq_nan : forall v, nisnan N v = true -> big v;
  sq_big_nn : forall v, big v -> nn v;
  sq_nn : forall d, nn (nmul N d d);
  sq_big : forall d, bad d -> big (nmul N d d);
  sum_nn : forall l, Forall nn l -> nn (nsum N l);
  sum_big : forall l, Forall nn l -> Exists big l -> big (nsum N l);
  sqrt_nn : forall v, nn v -> nn (nsqrt N v);
  sqrt_big : forall v, big v -> big (nsqrt N v);
  mean_nn : forall v n, nn v -> nn (ndiv N v (nofZ N (Z.of_nat n)));
  mean_big : forall v n, big v -> big (ndiv N v (nofZ N (Z.of_nat n)));
  two_big : forall v, big v -> big (nmul N (nofZ N 2) v);
  big_minus : forall a b, big a -> nn b -> big (nsub N a b);
  big_big : forall a b, big a -> big b -> nisnan N (nsub N a b) = true;
  empty_mean : nisnan N (ndiv N (nsum N []) (nofZ N 0)) = true }.

Section Energy.
  Context {T : Type} (E : Env T) (bad big nn : T -> Prop).
  Let N := e_num E.
  Hypothesis SP : special N bad.
  Hypothesis SQ : special_pos N bad big nn.
  Notation nan v := (nisnan N v = true).

  (** The power used for the distances keeps the three kinds of values. *)
  Definition dist_pos (d : dtype) (e : T) : Prop :=
    (forall s, nn s -> nn (dist_power E d s e) /\ (neqb N e (nunit N) = false -> nn (npow N s (half E e)))) /\
    (forall s, big s -> big (dist_power E d s e) /\ (neqb N e (nunit N) = false -> big (npow N s (half E e)))).

  Lemma sq_norm_nn u w : nn (sq_norm E u w).
  Proof.
    unfold sq_norm, np_sum. fold N. apply (sum_nn _ _ _ _ SQ). apply Forall_forall. intros v Hv. unfold map2 in Hv.
    apply in_map_iff in Hv. destruct Hv as (p & <- & _). apply (sq_nn _ _ _ _ SQ).
  Qed.
  Lemma sq_norm_big u w : length u = length w -> Exists bad u \/ Exists bad w -> big (sq_norm E u w).
  Proof.
    intros Hl H. unfold sq_norm, np_sum. fold N. apply (sum_big _ _ _ _ SQ).
    - apply Forall_forall. intros v Hv. unfold map2 in Hv. apply in_map_iff in Hv. destruct Hv as (p & <- & _). apply (sq_nn _ _ _ _ SQ).
    - revert w Hl H. induction u as [|a u IH]; intros [|b w] Hl H; try discriminate Hl; [destruct H as [H|H]; inversion H|].
      cbn [map2 combine map fst snd]. injection Hl as Hl.
      assert (D : (bad a \/ bad b) \/ (Exists bad u \/ Exists bad w)) by (destruct H as [H|H]; inversion H; subst; auto).
      destruct D as [D|D]; [left; apply (sq_big _ _ _ _ SQ), (sp_bad_sub _ _ SP); auto|right; apply IH; auto].
  Qed.

  (** One entry of a distance matrix. *)
  Definition entry_nn (d : dtype) (e v : T) : Prop := nn v.

  Lemma mean_is_big l : Forall nn l -> Exists big l -> big (np_mean N l).
  Proof. intros H1 H2. unfold np_mean, np_sum, nofnat. apply (mean_big _ _ _ _ SQ), (sum_big _ _ _ _ SQ); auto. Qed.
  Lemma mean_is_nn l : Forall nn l -> nn (np_mean N l).
  Proof. intros H1. unfold np_mean, np_sum, nofnat. apply (mean_nn _ _ _ _ SQ), (sum_nn _ _ _ _ SQ); auto. Qed.
  Lemma mean_is_nan l : Exists (fun v => nan v) l -> nan (np_mean N l).
  Proof. intros H1. unfold np_mean, np_sum, nofnat. apply (sp_div _ _ SP). left. apply (sp_sum _ _ SP); auto. Qed.
  Lemma mean_nil : nan (np_mean N []).
  Proof. apply (empty_mean _ _ _ _ SQ). Qed.

  (** A matrix of distances between [r] (rows) and [r'] (columns). *)
  Definition dist_matrix (m : list (list T)) (r r' : list (list T)) : Prop :=
    length m = length r /\
    forall i row, nth_error m i = Some row -> length row = length r' /\
    forall j v, nth_error row j = Some v -> nn v /\
      forall u w, nth_error r i = Some u -> nth_error r' j = Some w -> Exists bad u \/ Exists bad w -> big v.

  Lemma map_matrix (g : list T -> list T -> T) r r' :
    (forall u w, In u r -> In w r' -> nn (g u w) /\ (Exists bad u \/ Exists bad w -> big (g u w))) ->
    dist_matrix (map (fun u => map (g u) r') r) r r'.
  Proof.
    intros H. split; [apply map_length|]. intros i row Hr. rewrite nth_error_map in Hr.
    destruct (nth_error r i) as [u|] eqn:U; [|discriminate]. injection Hr as <-. split; [apply map_length|].
    intros j v Hv. rewrite nth_error_map in Hv. destruct (nth_error r' j) as [w|] eqn:W; [|discriminate]. injection Hv as <-.
    destruct (H u w) as [H1 H2]; [eapply nth_error_In; eauto..|]. split; auto. intros u' w' [= <-] [= <-]. auto.
  Qed.

  Lemma dist_entry d e u w : dist_pos d e -> length u = length w ->
    let v := dist_power E d (sq_norm E u w) e in
    let v' := if neqb N e (nunit N) then nsqrt N (sq_norm E u w) else npow N (sq_norm E u w) (half E e) in
    (nn v /\ nn v') /\ (Exists bad u \/ Exists bad w -> big v /\ big v').
  Proof.
    intros [D1 D2] Hl. cbv zeta. pose proof (sq_norm_nn u w) as H1. destruct (D1 _ H1) as [H2 H3]. split.
    - split; auto. destruct (neqb N e (nunit N)); auto. apply (sqrt_nn _ _ _ _ SQ). auto.
    - intros Hb. pose proof (sq_norm_big u w Hl Hb) as H4. destruct (D2 _ H4) as [H5 H6]. split; auto.
      destruct (neqb N e (nunit N)); auto. apply (sqrt_big _ _ _ _ SQ). auto.
  Qed.

  Lemma pdist_matrix s d c r e m : dist_pos d e -> Forall (fun row => length row = c) r ->
    pdist E s d c r e = Ok m -> dist_matrix m r r.
  Proof.
    intros D W. rewrite Forall_forall in W. unfold pdist, cdist_scipy, cdist_naive. rewrite Nat.eqb_refl. cbn [orb]. fold N.
    destruct (can_be_numpy_double E s d); intros [= <-].
    - apply (map_matrix (fun u w => if neqb N e (nunit N) then nsqrt N (sq_norm E u w) else npow N (sq_norm E u w) (half E e))).
      intros u w Hu Hw. destruct (dist_entry d e u w D) as [[_ H1] H2]; [rewrite !W; auto|]. split; auto. intros H. apply H2. auto.
    - replace (if c =? 1 then c else c) with c by (destruct (c =? 1); auto).
      apply (map_matrix (fun u w => dist_power E d (sq_norm E (bcast_row c w) (bcast_row c u)) e)).
      intros u w Hu Hw. rewrite !bcast_same by auto. destruct (dist_entry d e w u D) as [[H1 _] H2]; [rewrite !W; auto|].
      split; auto. intros H. apply H2. tauto.
  Qed.

  Lemma concat_nn m r r' : dist_matrix m r r' -> Forall nn (concat m).
  Proof.
    intros [_ H]. apply Forall_forall. intros v Hv. apply in_concat in Hv. destruct Hv as (row & Hr & Hv).
    apply In_nth_error in Hr. destruct Hr as [i Hr]. apply In_nth_error in Hv. destruct Hv as [j Hv].
    apply (proj2 (H i row Hr) j v Hv).
  Qed.
  Lemma flat_incl (m : list (list T)) k v : In v (get_flat_upper_matrix m k) -> In v (concat m).
  Proof.
    unfold get_flat_upper_matrix. rewrite !in_concat. intros (row & Hr & Hv). unfold map2 in Hr. apply in_map_iff in Hr.
    destruct Hr as ([i r] & <- & Hp). cbn [fst snd] in Hv. exists r. apply in_combine_r in Hp. split; auto.
    rewrite <- (firstn_skipn (i + k) r). apply in_or_app. auto.
  Qed.
  Lemma flat_nn m r r' : dist_matrix m r r' -> Forall nn (get_flat_upper_matrix m 1).
  Proof. intros H. apply concat_nn in H. rewrite Forall_forall in *. intros v Hv. apply H. eapply flat_incl; eauto. Qed.

  Lemma combine_seq_nth {A} (l : list A) : forall s i a, nth_error l i = Some a -> nth_error (combine (seq s (length l)) l) i = Some (s + i, a).
  Proof.
    induction l as [|b l IH]; intros s i a H; destruct i; cbn in *; try discriminate.
    - injection H as ->. rewrite Nat.add_0_r. reflexivity.
    - rewrite (IH (S s) i a H). f_equal. f_equal. lia.
  Qed.
  Lemma flat_In (m : list (list T)) i j row v : nth_error m i = Some row -> nth_error row j = Some v -> i < j -> In v (get_flat_upper_matrix m 1).
  Proof.
    intros Hr Hv Hij. unfold get_flat_upper_matrix. apply in_concat. exists (skipn (i + 1) row). split.
    - unfold map2. apply in_map_iff. exists (i, row). split; auto. apply (nth_error_In _ i). apply (combine_seq_nth m 0 i row Hr).
    - assert (Hj : j < length row) by (apply nth_error_Some; congruence).
      rewrite <- (firstn_skipn (i + 1) row) in Hv.
      rewrite nth_error_app2 in Hv by (rewrite firstn_length; lia). eapply nth_error_In; eauto.
  Qed.

  Lemma matrix_at m r r' i j u w : dist_matrix m r r' -> nth_error r i = Some u -> nth_error r' j = Some w ->
    exists row v, nth_error m i = Some row /\ nth_error row j = Some v.
  Proof.
    intros [Hl H] Hu Hw.
    assert (Hi : i < length m) by (rewrite Hl; apply nth_error_Some; congruence).
    destruct (nth_error m i) as [row|] eqn:R; [|apply nth_error_None in R; lia]. destruct (H i row R) as [Lr _].
    assert (Hj : j < length row) by (rewrite Lr; apply nth_error_Some; congruence).
    destruct (nth_error row j) as [v|] eqn:V; [|apply nth_error_None in V; lia]. eauto.
  Qed.
  Lemma matrix_big m r r' i j u w : dist_matrix m r r' -> nth_error r i = Some u -> nth_error r' j = Some w ->
    Exists bad u \/ Exists bad w -> exists row v, nth_error m i = Some row /\ nth_error row j = Some v /\ big v.
  Proof.
    intros Hm Hu Hw Hb. destruct (matrix_at m r r' i j u w Hm Hu Hw) as (row & v & R & V). exists row, v. repeat split; auto.
    destruct Hm as [_ H]. destruct (proj2 (H i row R) j v V) as [_ K]. eauto.
  Qed.

  Lemma cross_big m r r' : dist_matrix m r r' \/ dist_matrix m r' r -> r <> [] -> r' <> [] ->
    Exists (Exists bad) r \/ Exists (Exists bad) r' -> Forall nn (concat m) /\ Exists big (concat m).
  Proof.
    intros Hm Hr Hr' Hb. split; [destruct Hm as [Hm|Hm]; eapply concat_nn; eauto|].
    assert (G : exists u w i j, nth_error r i = Some u /\ nth_error r' j = Some w /\ (Exists bad u \/ Exists bad w)).
    { destruct r as [|u0 r]; [congruence|]. destruct r' as [|w0 r']; [congruence|].
      destruct Hb as [Hb|Hb]; apply Exists_exists in Hb; destruct Hb as (u & Hu & Hb); apply In_nth_error in Hu; destruct Hu as [i Hi].
      - exists u, w0, i, 0. auto.
      - exists u0, u, 0, i. auto. }
    destruct G as (u & w & i & j & Hi & Hj & Hb').
    assert (K : exists i j row v, nth_error m i = Some row /\ nth_error row j = Some v /\ big v).
    { destruct Hm as [Hm|Hm]; [destruct (matrix_big m r r' i j u w) as (row & v & ?)|destruct (matrix_big m r' r j i w u) as (row & v & ?)]; auto; eauto 8. tauto. }
    destruct K as (i' & j' & row & v & R & V & B). apply Exists_exists. exists v. split; auto. apply in_concat. exists row.
    split; eapply nth_error_In; eauto.
  Qed.

  (** The average of the distances within one sample. *)
  Lemma within_big m r es (flat := match es with UStatistic => get_flat_upper_matrix m 1 | VStatistic => concat m end) :
    dist_matrix m r r -> r <> [] -> Exists (Exists bad) r -> big (np_mean N flat).
  Proof.
    intros Hm Hr Hb. unfold flat. destruct es.
    - apply Exists_exists in Hb. destruct Hb as (u & Hu & Hb). apply In_nth_error in Hu. destruct Hu as [i Hi].
      destruct (le_lt_dec (length r) 1) as [H1|H1].
      + assert (Hf : get_flat_upper_matrix m 1 = []).
        { destruct Hm as [Hl Hm]. destruct r as [|a [|]]; cbn in H1; try lia; [congruence|]. destruct m as [|row [|]]; try discriminate Hl.
          destruct (Hm 0 row eq_refl) as [Lr _]. destruct row as [|? [|]]; try discriminate Lr. reflexivity. }
        rewrite Hf. apply (sq_nan _ _ _ _ SQ), mean_nil.
      + apply mean_is_big; [eapply flat_nn; eauto|].
        assert (exists j w, j <> i /\ nth_error r j = Some w) as (j & w & Hj & Hw).
        { destruct i as [|i]; [exists 1|exists 0]; destruct r as [|a [|b r]]; cbn in H1; try lia; cbn; eauto. }
        apply Exists_exists. destruct (lt_eq_lt_dec i j) as [[H|H]|H]; [|congruence|].
        * destruct (matrix_big m r r i j u w) as (row & v & R & V & B); auto. exists v. split; auto. eapply flat_In; eauto.
        * destruct (matrix_big m r r j i w u) as (row & v & R & V & B); auto. exists v. split; auto. eapply flat_In; eauto.
    - destruct (cross_big m r r) as [H1 H2]; auto. apply mean_is_big; auto.
  Qed.
  Lemma within_nn m r es (flat := match es with UStatistic => get_flat_upper_matrix m 1 | VStatistic => concat m end) :
    dist_matrix m r r -> nn (np_mean N flat).
  Proof. intros Hm. apply mean_is_nn. unfold flat. destruct es; [eapply flat_nn|eapply concat_nn]; eauto. Qed.

  Lemma energy_from_nan dxx dyy dxy rx ry es v :
    dist_matrix dxx rx rx -> dist_matrix dyy ry ry -> dist_matrix dxy rx ry \/ dist_matrix dxy ry rx -> rx <> [] -> ry <> [] ->
    Exists (Exists bad) rx \/ Exists (Exists bad) ry ->
    energy_distance_from_distance_matrices E dxx dyy dxy None es = Ok v -> nan v.
  Proof.
    intros Hx Hy Hxy Nx Ny Hb. unfold energy_distance_from_distance_matrices. destruct (to_estimation es) as [es'|]; cbn [rbind]; [|discriminate].
    intros [= <-]. cbn [apply_average]. fold N.
    destruct (cross_big dxy rx ry Hxy Nx Ny Hb) as [C1 C2].
    pose proof (two_big _ _ _ _ SQ _ (mean_is_big _ C1 C2)) as B1.
    destruct Hb as [Hb|Hb].
    - apply (sp_sub _ _ SP). left. apply (big_big _ _ _ _ SQ); auto. apply (within_big dxx rx es'); auto.
    - apply (big_big _ _ _ _ SQ); [|apply (within_big dyy ry es'); auto]. apply (big_minus _ _ _ _ SQ); auto. apply (within_nn dxx rx es'); auto.
  Qed.

  Lemma tainted_2d x : wf x -> tainted bad x -> Exists (Exists bad) (snd (transform_to_2d (adata x))).
  Proof. intros W H. destruct (tainted_rows bad x W H) as (u & Hu & Hb & _). apply Exists_exists. eauto. Qed.
  Lemma wf_2d (x : array T) : wf x -> Forall (fun row => length row = fst (transform_to_2d (adata x))) (snd (transform_to_2d (adata x))).
  Proof.
    destruct x as [s d [v|c rows]]; unfold wf; cbn; auto. intros _. apply Forall_forall. intros row Hr.
    apply in_map_iff in Hr. destruct Hr as (? & <- & _). reflexivity.
  Qed.

  Lemma energy_nan x y e es v : wf x -> wf y -> 1 <= shape0 x -> 1 <= shape0 y -> fst (transform_to_2d (adata x)) = fst (transform_to_2d (adata y)) ->
    dist_pos (adt x) e -> dist_pos (adt y) e -> dist_pos (promote (adt x) (adt y)) e ->
    tainted bad x \/ tainted bad y -> outcome (energy_distance E x y e None es) = Ok v -> nan v.
  Proof.
    intros Wx Wy Lx Ly Hc Dx Dy Dxy Hb. pose proof (wf_2d x Wx) as W1. pose proof (wf_2d y Wy) as W2.
    pose proof (rows_2d x) as R1. pose proof (rows_2d y) as R2.
    assert (Hb' : Exists (Exists bad) (snd (transform_to_2d (adata x))) \/ Exists (Exists bad) (snd (transform_to_2d (adata y))))
      by (destruct Hb; auto using tainted_2d).
    unfold energy_distance, check_valid_energy_exponent, bind, lift, ret, emit, outcome, pairwise_distances.
    destruct (transform_to_2d (adata x)) as [c rx]. destruct (transform_to_2d (adata y)) as [c' ry]. cbn [fst snd] in *. subst c'.
    assert (G : snd (match pdist E (ans x) (adt x) c rx e with
         | Ok a => match pdist E (ans y) (adt y) c ry e with
           | Ok a0 => match cdist E (ans x) (adt x) c rx (ans y) (adt y) c ry e with
             | Ok a1 => ([] : list warn, energy_distance_from_distance_matrices E a a0 a1 None es) | Err ex => ([], Err ex) end
           | Err ex => ([], Err ex) end | Err ex => ([], Err ex) end) = Ok v -> nan v).
    { destruct (pdist E (ans x) (adt x) c rx e) as [dxx|] eqn:P1; [|discriminate].
      destruct (pdist E (ans y) (adt y) c ry e) as [dyy|] eqn:P2; [|discriminate].
      destruct (cdist E (ans x) (adt x) c rx (ans y) (adt y) c ry e) as [dxy|] eqn:P3; [|discriminate]. cbn [snd].
      apply (energy_from_nan dxx dyy dxy rx ry).
      - exact (pdist_matrix (ans x) (adt x) c rx e dxx Dx W1 P1).
      - exact (pdist_matrix (ans y) (adt y) c ry e dyy Dy W2 P2).
      - revert P3. rewrite Forall_forall in W1, W2. unfold cdist, cdist_scipy, cdist_naive. rewrite Nat.eqb_refl. cbn [orb]. fold N.
        destruct (_ && _); intros [= <-]; [left|right].
        + apply (map_matrix (fun u w => if neqb N e (nunit N) then nsqrt N (sq_norm E u w) else npow N (sq_norm E u w) (half E e))).
          intros u w Hu Hw. destruct (dist_entry (adt x) e u w Dx) as [[_ H1] H2]; [rewrite W1, W2; auto|]. split; auto. intros H. apply H2. auto.
        + replace (if c =? 1 then c else c) with c by (destruct (c =? 1); auto).
          apply (map_matrix (fun u w => dist_power E (promote (adt x) (adt y)) (sq_norm E (bcast_row c w) (bcast_row c u)) e)).
          intros u w Hu Hw. rewrite !bcast_same by auto. destruct (dist_entry _ e w u Dxy) as [[H1 _] H2]; [rewrite W1, W2; auto|].
          split; auto. intros H. apply H2. tauto.
      - destruct rx; [cbn in R1; lia|discriminate].
      - destruct ry; [cbn in R2; lia|discriminate].
      - auto. }
    intros H. apply G. revert H. destruct (exponent_in_range E e);
      (destruct (pdist E (ans x) _ _ _ _); [|discriminate]; destruct (pdist E (ans y) _ _ _ _); [|discriminate];
       destruct (cdist E _ _ _ _ _ _ _ _ _); [|discriminate]; cbn [snd]; auto).
  Qed.
End Energy.

(** ** Centred matrices *)
Section Centred.
  Context {T : Type} (E : Env T) (bad : T -> Prop).
  Let N := e_num E.
  Hypothesis SP : special N bad.
  Notation nan v := (nisnan N v = true).

  Definition shaped (n : nat) (m : list (list T)) : Prop := length m = n /\ forall i row, nth_error m i = Some row -> length row = n.
  (** Every entry outside the diagonal is NaN; every entry. *)
  Definition off_nan (m : list (list T)) : Prop := forall i j row v, nth_error m i = Some row -> nth_error row j = Some v -> i <> j -> nan v.
  Definition all_nan (m : list (list T)) : Prop := forall i j row v, nth_error m i = Some row -> nth_error row j = Some v -> nan v.

  Lemma nth_error_map2 {A B C} (f : A -> B -> C) l : forall k i,
    nth_error (map2 f l k) i = match nth_error l i, nth_error k i with Some a, Some b => Some (f a b) | _, _ => None end.
  Proof.
    induction l as [|a l IH]; intros [|b k] [|i]; cbn; auto.
    - destruct (nth_error l i); auto.
    - apply (IH k i).
  Qed.
  Lemma map2_length {A B C} (f : A -> B -> C) l k : length (map2 f l k) = Nat.min (length l) (length k).
  Proof. unfold map2. rewrite map_length, combine_length. reflexivity. Qed.

  Lemma shaped_map2 {A} n (f : list T -> A -> list T) m (l : list A) : shaped n m -> length l = n -> (forall r a, length r = n -> length (f r a) = n) ->
    shaped n (map2 f m l).
  Proof.
    intros [H1 H2] Hl Hf. split; [rewrite map2_length; lia|]. intros i row. rewrite nth_error_map2.
    destruct (nth_error m i) as [r|] eqn:R; [|discriminate]. destruct (nth_error l i) as [a|]; [|discriminate]. intros [= <-]. eauto.
  Qed.
  Lemma shaped_map n f m : shaped n m -> (forall r : list T, length r = n -> length (f r) = n) -> shaped n (map f m).
  Proof.
    intros [H1 H2] Hf. split; [rewrite map_length; auto|]. intros i row. rewrite nth_error_map.
    destruct (nth_error m i) as [r|] eqn:R; [|discriminate]. intros [= <-]. eauto.
  Qed.

  Lemma centred_shape n a v w t : shaped n a -> length v = n -> length w = n -> shaped n (add_all E t (sub_rows E v (sub_cols E w a))).
  Proof.
    intros Ha Hv Hw. unfold add_all. apply shaped_map; [|intros r <-; apply map_length].
    unfold sub_rows. apply shaped_map2; auto; [|intros r s <-; apply map_length].
    unfold sub_cols. apply shaped_map; auto. intros r Hr. rewrite map2_length. lia.
  Qed.
  Lemma add_all_nan t m : nan t -> all_nan (add_all E t m).
  Proof.
    intros Ht i j row v. unfold add_all. fold N. rewrite nth_error_map. destruct (nth_error m i) as [r|]; [|discriminate]. intros [= <-].
    rewrite nth_error_map. destruct (nth_error r j); [|discriminate]. intros [= <-]. apply (sp_add _ _ SP). auto.
  Qed.
  Lemma nth_error_upd {A} (l : list A) : forall i v j, j <> i -> nth_error (upd l i v) j = nth_error l j.
  Proof. induction l as [|a l IH]; intros [|i] v [|j] H; cbn; auto; try congruence. Qed.
  Lemma zero_diag_nan n m : shaped n m -> all_nan m -> shaped n (zero_diag E m) /\ off_nan (zero_diag E m).
  Proof.
    intros [H1 H2] Hm. unfold zero_diag. fold N. split.
    - split; [rewrite map2_length, seq_length; lia|]. intros i row. rewrite nth_error_map2.
      destruct (nth_error (seq 0 (length m)) i); [|discriminate]. destruct (nth_error m i) as [r|] eqn:R; [|discriminate]. intros [= <-].
      rewrite upd_length. eauto.
    - intros i j row v. rewrite nth_error_map2. destruct (nth_error (seq 0 (length m)) i) as [k|] eqn:K; [|discriminate].
      assert (Hi : i < length (seq 0 (length m))) by (apply nth_error_Some; congruence). rewrite seq_length in Hi.
      assert (k = i) as ->. { apply (nth_error_nth _ _ 0) in K. rewrite seq_nth in K by auto. auto. }
      destruct (nth_error m i) as [r|] eqn:R; [|discriminate]. intros [= <-] Hv Hij. rewrite nth_error_upd in Hv by auto. eauto.
  Qed.

  Lemma square_shaped m : square m = true -> shaped (length m) m.
  Proof.
    intros H. split; auto. intros i row Hr. unfold square in H. rewrite forallb_forall in H. apply Nat.eqb_eq, H. eapply nth_error_In; eauto.
  Qed.
  Lemma axis_length m : length (fst (symmetric_matrix_sums E m)) = length m.
  Proof. unfold symmetric_matrix_sums, row_sums. cbn [fst]. apply map_length. Qed.

  Lemma dc_self a : deref (double_centered E [(true, a)] 0 (Some 0)) =
    if square a then
      let dim := Z.of_nat (length a) in
      let (axis_sum, total_sum) := symmetric_matrix_sums E a in
      Ok (add_all E (ndiv N total_sum (nofZ N (dim ^ 2)))
           (sub_rows E (map (fun s => ndiv N s (nofZ N dim)) axis_sum)
           (sub_cols E (map (fun s => ndiv N s (nofZ N dim)) axis_sum) a)))
    else Err ValueError.
  Proof.
    unfold double_centered, float_copy_to_out, deref. cbn [nth_error of_option rbind Nat.eqb].
    destruct (square a); [|reflexivity]. destruct (symmetric_matrix_sums E a). reflexivity.
  Qed.

  Lemma u_centred_shape a m : deref (u_centered E [(true, a)] 0 (Some 0)) = Ok m -> shaped (length a) m.
  Proof.
    rewrite u_centered_self. destruct (square a) eqn:Q; [|discriminate]. pose proof (axis_length a) as L.
    destruct (symmetric_matrix_sums E a) as [ax t]. cbv zeta. cbn [fst] in L. intros [= <-].
    pose proof (centred_shape (length a) a (map (fun s => ndiv (e_num E) s (nofZ (e_num E) (Z.of_nat (length a) - 2))) ax)
      (map (fun s => ndiv (e_num E) s (nofZ (e_num E) (Z.of_nat (length a) - 2))) ax)
      (ndiv (e_num E) t (nofZ (e_num E) ((Z.of_nat (length a) - 1) * (Z.of_nat (length a) - 2)))) (square_shaped a Q)) as [H1 H2]; try (rewrite map_length; auto).
    unfold zero_diag. split; [rewrite map2_length, seq_length; lia|]. intros i row. rewrite nth_error_map2.
    destruct (nth_error (seq 0 _) i); [|discriminate]. destruct (nth_error _ i) as [r|] eqn:R; [|discriminate]. intros [= <-].
    rewrite upd_length. eauto.
  Qed.
  Lemma u_centred_nan a m : nan (snd (symmetric_matrix_sums E a)) -> deref (u_centered E [(true, a)] 0 (Some 0)) = Ok m -> off_nan m.
  Proof.
    intros Hn. rewrite u_centered_self. destruct (square a) eqn:Q; [|discriminate]. pose proof (axis_length a) as L.
    destruct (symmetric_matrix_sums E a) as [ax t]. cbv zeta. cbn [fst snd] in *. intros [= <-].
    apply (zero_diag_nan (length a)).
    - apply centred_shape; [apply square_shaped; auto|rewrite map_length; auto..].
    - apply add_all_nan. apply (sp_div _ _ SP). auto.
  Qed.
  Lemma d_centred_shape a m : deref (double_centered E [(true, a)] 0 (Some 0)) = Ok m -> shaped (length a) m.
  Proof.
    rewrite dc_self. destruct (square a) eqn:Q; [|discriminate]. pose proof (axis_length a) as L.
    destruct (symmetric_matrix_sums E a) as [ax t]. cbv zeta. cbn [fst] in L. intros [= <-].
    apply centred_shape; [apply square_shaped; auto|rewrite map_length; auto..].
  Qed.
  Lemma d_centred_nan a m : nan (snd (symmetric_matrix_sums E a)) -> deref (double_centered E [(true, a)] 0 (Some 0)) = Ok m -> all_nan m.
  Proof.
    intros Hn. rewrite dc_self. destruct (square a) eqn:Q; [|discriminate].
    destruct (symmetric_matrix_sums E a) as [ax t]. cbv zeta. cbn [fst snd] in *. intros [= <-].
    apply add_all_nan. apply (sp_div _ _ SP). auto.
  Qed.

  (** The matrices of a sample. *)
  Lemma matrix_generic cen x e m : outcome (distance_matrix_generic E cen x e) = Ok m ->
    exists a, pairwise_distances E x None e = Ok a /\ length a = shape0 x /\ deref (cen [(true, a)] 0 (Some 0)) = Ok m.
  Proof.
    unfold distance_matrix_generic, check_valid_dcov_exponent, bind, lift, ret, emit, outcome.
    assert (L : forall a, pairwise_distances E x None e = Ok a -> length a = shape0 x).
    { intros a. unfold pairwise_distances. pose proof (rows_2d x) as R. destruct (transform_to_2d (adata x)) as [c r]. cbn [snd] in R.
      destruct (pdist_ok E (ans x) (adt x) c r e) as (m' & -> & Lm & _). intros [= <-]. congruence. }
    destruct (exponent_in_range E e); (destruct (pairwise_distances E x None e) as [a|]; cbn [snd fst app]; [|discriminate]); eauto.
  Qed.

  Lemma u_matrix_shape x e m : outcome (u_distance_matrix E x e) = Ok m -> shaped (shape0 x) m.
  Proof. intros H. destruct (matrix_generic _ _ _ _ H) as (a & _ & <- & Hm). apply u_centred_shape; auto. Qed.
  Lemma u_matrix_nan x e m : wf x -> dist_nan E (adt x) e -> tainted bad x -> outcome (u_distance_matrix E x e) = Ok m -> off_nan m.
  Proof.
    intros W D Hb H. destruct (matrix_generic _ _ _ _ H) as (a & Ha & _ & Hm). apply (u_centred_nan a); auto.
    destruct (pairwise_nan E bad SP x e a W Hb D Ha) as (i & row & v & H1 & H2 & H3). apply (sums_nan E bad SP a i row v); auto.
  Qed.
  Lemma d_matrix_shape x e m : outcome (distance_matrix_generic E (double_centered E) x e) = Ok m -> shaped (shape0 x) m.
  Proof. intros H. destruct (matrix_generic _ _ _ _ H) as (a & _ & <- & Hm). apply d_centred_shape; auto. Qed.
  Lemma d_matrix_nan x e m : wf x -> dist_nan E (adt x) e -> tainted bad x -> outcome (distance_matrix_generic E (double_centered E) x e) = Ok m -> all_nan m.
  Proof.
    intros W D Hb H. destruct (matrix_generic _ _ _ _ H) as (a & Ha & _ & Hm). apply (d_centred_nan a); auto.
    destruct (pairwise_nan E bad SP x e a W Hb D Ha) as (i & row & v & H1 & H2 & H3). apply (sums_nan E bad SP a i row v); auto.
  Qed.

  (** ** Products and projections *)
  Lemma elt_shaped (f : T -> T -> T) n a b : shaped n a -> shaped n b -> elt_op f a b = Ok (map2 (map2 f) a b) /\ shaped n (map2 (map2 f) a b).
  Proof.
    intros [A1 A2] [B1 B2]. split.
    - unfold elt_op, same_shape. rewrite A1, B1, Nat.eqb_refl. cbn [andb].
      assert (forallb (fun p => length (fst p) =? length (snd p)) (combine a b) = true) as ->; auto.
      apply forallb_forall. intros [r s] H. cbn [fst snd]. apply Nat.eqb_eq.
      apply in_combine_l in H as H1. apply in_combine_r in H as H2. apply In_nth_error in H1, H2. destruct H1, H2. erewrite A2, B2; eauto.
    - split; [rewrite map2_length; lia|]. intros i row. rewrite nth_error_map2.
      destruct (nth_error a i) eqn:A; [|discriminate]. destruct (nth_error b i) eqn:B; [|discriminate]. intros [= <-].
      rewrite map2_length, (A2 _ _ A), (B2 _ _ B). lia.
  Qed.
  Lemma elt_at (f : T -> T -> T) n a b i j : shaped n a -> shaped n b -> i < n -> j < n ->
    exists ra rb va vb, nth_error a i = Some ra /\ nth_error ra j = Some va /\ nth_error b i = Some rb /\ nth_error rb j = Some vb /\
      In (f va vb) (concat (map2 (map2 f) a b)).
  Proof.
    intros [A1 A2] [B1 B2] Hi Hj.
    destruct (nth_error a i) as [ra|] eqn:RA; [|apply nth_error_None in RA; lia].
    destruct (nth_error b i) as [rb|] eqn:RB; [|apply nth_error_None in RB; lia].
    destruct (nth_error ra j) as [va|] eqn:VA; [|apply nth_error_None in VA; rewrite (A2 _ _ RA) in VA; lia].
    destruct (nth_error rb j) as [vb|] eqn:VB; [|apply nth_error_None in VB; rewrite (B2 _ _ RB) in VB; lia].
    exists ra, rb, va, vb. repeat split; auto. apply in_concat. exists (map2 f ra rb). split.
    - apply (nth_error_In _ i). rewrite nth_error_map2, RA, RB. reflexivity.
    - apply (nth_error_In _ j). rewrite nth_error_map2, VA, VB. reflexivity.
  Qed.

  Lemma product_sum_nan n a b : shaped n a -> shaped n b -> 2 <= n -> off_nan a \/ off_nan b ->
    Exists (fun v => nan v) (concat (map2 (map2 (nmul N)) a b)).
  Proof.
    intros Ha Hb Hn H. destruct (elt_at (nmul N) n a b 0 1 Ha Hb) as (ra & rb & va & vb & RA & VA & RB & VB & Hin); [lia..|].
    apply Exists_exists. eexists. split; [exact Hin|]. apply (sp_mul _ _ SP).
    destruct H as [H|H]; [left; apply (H 0 1 ra); auto|right; apply (H 0 1 rb); auto].
  Qed.

  Lemma u_product_nan n a b v : shaped n a -> shaped n b -> 2 <= n -> off_nan a \/ off_nan b -> u_product E a b = Ok v -> nan v.
  Proof.
    intros Ha Hb Hn H. unfold u_product, elt_product. fold N. rewrite (proj1 (elt_shaped (nmul N) n a b Ha Hb)). cbn [rbind]. intros [= <-].
    apply (sp_div _ _ SP). left. apply (sp_sum _ _ SP). eapply product_sum_nan; eauto.
  Qed.

  Lemma projected n c proj a p : shaped n c -> shaped n a -> 2 <= n -> u_complementary_projection E c = Ok proj -> proj a = Ok p ->
    shaped n p /\ (off_nan c \/ off_nan a -> off_nan p).
  Proof.
    intros Hc Ha Hn. unfold u_complementary_projection, u_projection. fold N.
    destruct (u_product E c c) as [den|] eqn:D; cbn [rbind]; [|discriminate]. intros [= <-].
    assert (S1 : shaped n (map (map (fun _ => nzero N)) c)) by (apply shaped_map; auto; intros r <-; apply map_length).
    assert (K : forall q, shaped n q -> elt_op (nsub N) a q = Ok p -> shaped n p /\ (off_nan a \/ off_nan q -> off_nan p)).
    { intros q Hq. destruct (elt_shaped (nsub N) n a q Ha Hq) as [-> Sq]. intros [= <-]. split; auto.
      intros Ho i j row v. rewrite nth_error_map2. destruct (nth_error a i) as [ra|] eqn:RA; [|discriminate].
      destruct (nth_error q i) as [rq|] eqn:RQ; [|discriminate]. intros [= <-]. rewrite nth_error_map2.
      destruct (nth_error ra j) as [va|] eqn:VA; [|discriminate]. destruct (nth_error rq j) as [vq|] eqn:VQ; [|discriminate]. intros [= <-] Hij.
      apply (sp_sub _ _ SP). destruct Ho as [Ho|Ho]; eauto. }
    destruct (neqb N den (nzero N)) eqn:Hz; cbn [rbind].
    - intros Hp. destruct (K _ S1 Hp) as [K1 K2]. split; auto. intros [H|H]; auto.
      pose proof (u_product_nan n c c den Hc Hc Hn (or_introl H) D) as Hd. rewrite (sp_eqb _ _ SP) in Hz by auto. discriminate.
    - destruct (u_product E a c) as [ac|]; cbn [rbind]; [|discriminate]. intros Hp.
      destruct (K _ (shaped_map n _ c Hc (fun r Hr => eq_trans (map_length _ _) Hr)) Hp) as [K1 K2]. split; auto. intros [H|H]; auto. apply K2. right.
      intros i j row v. rewrite nth_error_map. destruct (nth_error c i) as [r|]; [|discriminate]. intros [= <-]. rewrite nth_error_map.
      destruct (nth_error r j); [|discriminate]. intros [= <-] _. apply (sp_mul _ _ SP). left. apply (sp_div _ _ SP). right.
      apply (u_product_nan n c c den); auto.
  Qed.

  Section Partial.
    Context (x y z : array T) (n : nat) (Wx : wf x) (Wy : wf y) (Wz : wf z)
      (Lx : shape0 x = n) (Ly : shape0 y = n) (Lz : shape0 z = n) (Hn : 2 <= n).
    Hypothesis Hb : tainted bad x \/ tainted bad y \/ tainted bad z.

    Lemma partial_covariance_nan v : (forall w, In w [x; y; z] -> dist_nan E (adt w) (nunit N)) ->
      outcome (partial_distance_covariance E x y z) = Ok v -> nan v.
    Proof.
      intros D. unfold partial_distance_covariance. fold N. rewrite !outcome_bind.
      destruct (outcome (u_distance_matrix E x (nunit N))) as [a|] eqn:A; cbn [rbind]; [|discriminate]. rewrite outcome_bind.
      destruct (outcome (u_distance_matrix E y (nunit N))) as [b|] eqn:B; cbn [rbind]; [|discriminate]. rewrite outcome_bind.
      destruct (outcome (u_distance_matrix E z (nunit N))) as [c|] eqn:C; cbn [rbind]; [|discriminate]. rewrite outcome_bind, outcome_lift.
      destruct (u_complementary_projection E c) as [proj|] eqn:P; cbn [rbind]; [|discriminate]. rewrite outcome_bind, outcome_lift.
      destruct (proj a) as [pa|] eqn:PA; cbn [rbind]; [|discriminate]. rewrite outcome_bind, outcome_lift.
      destruct (proj b) as [pb|] eqn:PB; cbn [rbind]; [|discriminate]. rewrite outcome_lift.
      pose proof (u_matrix_shape _ _ _ A) as SA. pose proof (u_matrix_shape _ _ _ B) as SB. pose proof (u_matrix_shape _ _ _ C) as SC.
      rewrite Lx in SA. rewrite Ly in SB. rewrite Lz in SC.
      destruct (projected n c proj a pa SC SA Hn P PA) as [S1 N1]. destruct (projected n c proj b pb SC SB Hn P PB) as [S2 N2].
      apply (u_product_nan n); auto. destruct Hb as [H|[H|H]].
      - left. apply N1. right. apply (u_matrix_nan x (nunit N) a); auto; apply D; cbn; auto.
      - right. apply N2. right. apply (u_matrix_nan y (nunit N) b); auto; apply D; cbn; auto.
      - left. apply N1. left. apply (u_matrix_nan z (nunit N) c); auto; apply D; cbn; auto.
    Qed.

    Lemma clip1_nan v : nan v -> nan (clip1 E v).
    Proof. intros H. unfold clip1. fold N. rewrite !(sp_ltb _ _ SP) by auto. auto. Qed.
    Lemma clipped_nan ab aa bb : nan aa \/ nan bb -> nan (clipped_correlation E ab aa bb).
    Proof.
      intros H. unfold clipped_correlation. fold N. apply clip1_nan.
      assert (K : nan (nmul N aa bb)) by (apply (sp_mul _ _ SP); auto).
      rewrite (sp_eqb _ _ SP) by auto. apply (sp_div _ _ SP). right. apply (sqrt_clamp_nan E bad SP). auto.
    Qed.

    Lemma partial_correlation_nan v : (forall w, In w [x; y; z] -> dist_nan E (adt w) (nunit N)) ->
      outcome (partial_distance_correlation E x y z) = Ok v -> nan v.
    Proof.
      intros D. unfold partial_distance_correlation. fold N. rewrite !outcome_bind.
      destruct (outcome (u_distance_matrix E x (nunit N))) as [a|] eqn:A; cbn [rbind]; [|discriminate]. rewrite outcome_bind.
      destruct (outcome (u_distance_matrix E y (nunit N))) as [b|] eqn:B; cbn [rbind]; [|discriminate]. rewrite outcome_bind.
      destruct (outcome (u_distance_matrix E z (nunit N))) as [c|] eqn:C; cbn [rbind]; [|discriminate]. rewrite outcome_bind, outcome_lift.
      pose proof (u_matrix_shape _ _ _ A) as SA. pose proof (u_matrix_shape _ _ _ B) as SB. pose proof (u_matrix_shape _ _ _ C) as SC.
      rewrite Lx in SA. rewrite Ly in SB. rewrite Lz in SC.
      destruct (u_product E a a) as [aa|] eqn:AA; cbn [rbind]; [|discriminate]. rewrite outcome_bind, outcome_lift.
      destruct (u_product E b b) as [bb|] eqn:BB; cbn [rbind]; [|discriminate]. rewrite outcome_bind, outcome_lift.
      destruct (u_product E c c) as [cc|] eqn:CC; cbn [rbind]; [|discriminate]. rewrite outcome_bind, outcome_lift.
      destruct (u_product E a b) as [ab|] eqn:AB; cbn [rbind]; [|discriminate]. rewrite outcome_bind, outcome_lift.
      destruct (u_product E a c) as [ac|] eqn:AC; cbn [rbind]; [|discriminate]. rewrite outcome_bind, outcome_lift.
      destruct (u_product E b c) as [bc|] eqn:BC; cbn [rbind]; [|discriminate]. rewrite outcome_ret. cbv zeta. intros [= <-].
      assert (S : forall v, nan v -> nan (sqrt_clamp N (nsub N (nunit N) (nmul N v v)))).
      { intros u Hu. apply (sqrt_clamp_nan E bad SP), (sp_sub _ _ SP). right. apply (sp_mul _ _ SP). auto. }
      assert (K : nan (nmul N (sqrt_clamp N (nsub N (nunit N) (nmul N (clipped_correlation E ac aa cc) (clipped_correlation E ac aa cc))))
         (sqrt_clamp N (nsub N (nunit N) (nmul N (clipped_correlation E bc bb cc) (clipped_correlation E bc bb cc)))))).
      { apply (sp_mul _ _ SP). destruct Hb as [H|[H|H]]; [left|right|left]; apply S, clipped_nan.
        - left. apply (u_product_nan n a a aa); auto. left. apply (u_matrix_nan x (nunit N) a); auto; apply D; cbn; auto.
        - left. apply (u_product_nan n b b bb); auto. left. apply (u_matrix_nan y (nunit N) b); auto; apply D; cbn; auto.
        - right. apply (u_product_nan n c c cc); auto. left. apply (u_matrix_nan z (nunit N) c); auto; apply D; cbn; auto. }
      rewrite (sp_eqb _ _ SP) by auto. apply (sp_div _ _ SP). auto.
    Qed.
  End Partial.

  (** ** Tests *)
  Context {S : Type} (G : Rng S).
  (** The p-value when no permuted statistic exceeds the observed one. *)
  Definition smallest (B : Z) : T := ndiv N (nadd N (nofZ N 0) (nunit N)) (nofZ N (B + 1)).

  Lemma permutation_nan matrix stat B rs r s' : (forall v, stat matrix = Ok v -> nan v) ->
    permutation_test_with_sym_matrix N G matrix stat B rs = Ok (r, s') -> nan (statistic r) /\ pvalue r = smallest B.
  Proof.
    intros H. unfold permutation_test_with_sym_matrix. destruct (stat matrix) as [st|] eqn:St; cbn [rbind]; [|discriminate].
    destruct (draw_permutations G _ _ _) as [perms s]. destruct (mapM _ perms) as [boot|]; cbn [rbind]; [|discriminate].
    unfold permutation_pvalue. destruct (B + 1 =? 0)%Z; cbn [rbind]; [discriminate|]. intros [= <- <-]. cbn [statistic pvalue].
    split; [auto|]. assert (filter (fun b => nltb N st b) boot = []) as ->; [|reflexivity].
    assert (Hs : nan st) by auto. induction boot as [|b boot IH]; cbn; auto. rewrite (sp_ltb _ _ SP) by auto. auto.
  Qed.

  Lemma dcov_test_nan x y n B e rs r s' : wf x -> wf y -> shape0 x = n -> shape0 y = n -> 1 <= n ->
    dist_nan E (adt x) e -> dist_nan E (adt y) e -> tainted bad x \/ tainted bad y ->
    outcome (distance_covariance_test E G x y B e rs) = Ok (r, s') -> nan (statistic r) /\ pvalue r = smallest B.
  Proof.
    intros Wx Wy Lx Ly Hn Dx Dy Hb. unfold distance_covariance_test. fold N. rewrite outcome_bind, outcome_lift.
    destruct (check_same_n_elements _ _) as [[]|]; cbn [rbind]; [|discriminate]. rewrite outcome_bind.
    destruct (outcome (distance_matrix_generic E (double_centered E) x e)) as [a|] eqn:A; cbn [rbind]; [|discriminate]. rewrite outcome_bind.
    destruct (outcome (distance_matrix_generic E (double_centered E) y e)) as [b|] eqn:B'; cbn [rbind]; [|discriminate]. rewrite outcome_lift.
    pose proof (d_matrix_shape _ _ _ A) as SA. pose proof (d_matrix_shape _ _ _ B') as SB. rewrite Lx in SA. rewrite Ly in SB.
    apply permutation_nan. intros v. unfold mean_product, elt_product. fold N. rewrite (proj1 (elt_shaped (nmul N) n a b SA SB)). cbn [rbind].
    intros [= <-]. apply (sp_mul _ _ SP). right. unfold np_mean, np_sum. apply (sp_div _ _ SP). left. apply (sp_sum _ _ SP).
    destruct (elt_at (nmul N) n a b 0 0 SA SB) as (ra & rb & va & vb & RA & VA & RB & VB & Hin); [lia..|].
    apply Exists_exists. eexists. split; [exact Hin|]. apply (sp_mul _ _ SP).
    destruct Hb as [H|H]; [left; apply (d_matrix_nan x e a Wx Dx H A 0 0 ra); auto|right; apply (d_matrix_nan y e b Wy Dy H B' 0 0 rb); auto].
  Qed.

  Lemma partial_test_nan x y z n B e rs r s' : wf x -> wf y -> wf z -> shape0 x = n -> shape0 y = n -> shape0 z = n -> 2 <= n ->
    (forall w, In w [x; y; z] -> dist_nan E (adt w) e) -> tainted bad x \/ tainted bad y \/ tainted bad z ->
    outcome (partial_distance_covariance_test E G x y z B e rs) = Ok (r, s') -> nan (statistic r) /\ pvalue r = smallest B.
  Proof.
    intros Wx Wy Wz Lx Ly Lz Hn D Hb. unfold partial_distance_covariance_test. fold N. rewrite outcome_bind.
    destruct (outcome (u_distance_matrix E x e)) as [a|] eqn:A; cbn [rbind]; [|discriminate]. rewrite outcome_bind.
    destruct (outcome (u_distance_matrix E y e)) as [b|] eqn:B'; cbn [rbind]; [|discriminate]. rewrite outcome_bind.
    destruct (outcome (u_distance_matrix E z e)) as [c|] eqn:C; cbn [rbind]; [|discriminate]. rewrite outcome_bind, outcome_lift.
    destruct (u_complementary_projection E c) as [proj|] eqn:P; cbn [rbind]; [|discriminate]. rewrite outcome_bind, outcome_lift.
    destruct (proj a) as [pa|] eqn:PA; cbn [rbind]; [|discriminate]. rewrite outcome_bind, outcome_lift.
    destruct (proj b) as [pb|] eqn:PB; cbn [rbind]; [|discriminate]. rewrite outcome_lift.
    pose proof (u_matrix_shape _ _ _ A) as SA. pose proof (u_matrix_shape _ _ _ B') as SB. pose proof (u_matrix_shape _ _ _ C) as SC.
    rewrite Lx in SA. rewrite Ly in SB. rewrite Lz in SC.
    destruct (projected n c proj a pa SC SA Hn P PA) as [S1 N1]. destruct (projected n c proj b pb SC SB Hn P PB) as [S2 N2].
    apply permutation_nan. intros v. destruct (u_product E pa pb) as [u|] eqn:U; cbn [rbind]; [|discriminate]. intros [= <-].
    apply (sp_mul _ _ SP). right. apply (u_product_nan n pa pb); auto. destruct Hb as [H|[H|H]].
    - left. apply N1. right. apply (u_matrix_nan x e a); auto; apply D; cbn; auto.
    - right. apply N2. right. apply (u_matrix_nan y e b); auto; apply D; cbn; auto.
    - left. apply N1. left. apply (u_matrix_nan z e c); auto; apply D; cbn; auto.
  Qed.
End Centred.
