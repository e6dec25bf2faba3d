(** NaN and infinities in the data: facts valid for every number type that treats them as IEEE-754 does. [bad] means
    "NaN or infinite". *)
From Coq Require Import Lia List Arith Bool ZArith.
From Verif Require Import Num Numpy MUtils MDistances MInternals MMergesort MAvl MDcor Sums Tab Samples Api RefDist AvlGeneric
  RefInteger Calls.
Import ListNotations.
Local Open Scope monad_scope.

Record special {T} (N : Num T) (bad : T -> Prop) : Prop := {
  sp_add : forall a b, nisnan N a = true \/ nisnan N b = true -> nisnan N (nadd N a b) = true;
  sp_sub : forall a b, nisnan N a = true \/ nisnan N b = true -> nisnan N (nsub N a b) = true;
  sp_mul : forall a b, nisnan N a = true \/ nisnan N b = true -> nisnan N (nmul N a b) = true;
  sp_div : forall a b, nisnan N a = true \/ nisnan N b = true -> nisnan N (ndiv N a b) = true;
  sp_sqrt : forall a, nisnan N a = true -> nisnan N (nsqrt N a) = true;
  sp_abs : forall a, nisnan N a = true -> nisnan N (nabs N a) = true;
  sp_eqb : forall a b, nisnan N a = true \/ nisnan N b = true -> neqb N a b = false;
  sp_ltb : forall a b, nisnan N a = true \/ nisnan N b = true -> nltb N a b = false;
  sp_sum : forall l, Exists (fun v => nisnan N v = true) l -> nisnan N (nsum N l) = true;
  sp_bad_add : forall a b, bad a \/ bad b -> bad (nadd N a b);
  sp_bad_sub : forall a b, bad a \/ bad b -> bad (nsub N a b);
  sp_bad_div : forall a k, bad a -> bad (ndiv N a (nofZ N k));
  sp_bad_dot : forall a b, length a = length b -> Exists bad a -> bad (ndot N a b);
  sp_self : forall v, bad v -> nisnan N (nsub N v v) = true;
  sp_prefix : forall a v, bad v -> nisnan N (nsub N (nadd N a v) v) = true;
  sp_twice : forall v, bad v -> nisnan N (nsub N v (nmul N (nofZ N 2) v)) = true }.

Lemma special_seq {T} (N : Num T) bad : special N bad -> special (seq_num N) bad.
Proof.
  intros H. split; cbn [seq_num nisnan nadd nsub nmul ndiv nsqrt nabs neqb nltb nofZ ndot];
    try (apply H). intros l Hl. cbn [nsum seq_num]. unfold seq_sum.
  assert (G : forall l acc, nisnan N acc = true \/ Exists (fun v => nisnan N v = true) l ->
    nisnan N (fold_left (nadd N) l acc) = true).
  { clear l Hl. induction l as [|v l IH]; intros acc Ha; cbn [fold_left].
    - destruct Ha as [?|Ha]; [auto|inversion Ha].
    - apply IH. destruct Ha as [Ha|Ha]; [left; apply (sp_add _ _ H); auto|]. inversion Ha; subst; [left; apply (sp_add _ _ H); auto|auto]. }
  apply G. auto.
Qed.

(** [x] holds a NaN or an infinity. *)
Definition tainted {T} (bad : T -> Prop) (x : array T) : Prop := Exists bad (entries x).

Section Nan.
  Context {T : Type} (E : Env T) (bad : T -> Prop).
  Let N := e_num E.
  Hypothesis SP : special N bad.
  Notation nan v := (nisnan N v = true).

  Lemma nan_in l v : In v l -> nan v -> Exists (fun v => nan v) l.
  Proof. intros. apply Exists_exists. eauto. Qed.

  (** ** The formula *)
  Lemma from_terms_nan k mp aa at_ ba bt n bc v : nan at_ \/ nan bt ->
    dcov_from_terms E k mp aa at_ ba bt n bc = Ok v -> nan v.
  Proof.
    intros H. unfold dcov_from_terms. fold N. destruct (np_dot _ _ _); cbn [rbind]; [|discriminate].
    destruct (match k with AllNumpy => _ | MeanProdPy => _ | AllPy => _ end); [discriminate|].
    intros [= <-]. apply (sp_add _ _ SP). right. apply (sp_div _ _ SP). left. apply (sp_mul _ _ SP).
    destruct H as [H|H]; [left; apply (sp_div _ _ SP); auto|right; auto].
  Qed.

  Lemma sqrt_clamp_nan v : nan v -> nan (sqrt_clamp N v).
  Proof. intros H. unfold sqrt_clamp. rewrite (sp_ltb _ _ SP) by auto. apply (sp_sqrt _ _ SP). auto. Qed.

  Lemma correlation_nan c vx vy : nan c -> nan (correlation_of E c vx vy) \/ ~ (nan vx \/ nan vy).
  Proof.
    intros Hc. destruct (nisnan N vx) eqn:Hx; [|destruct (nisnan N vy) eqn:Hy; [|right; intros [?|?]; congruence]].
    all: left; unfold correlation_of; fold N;
      assert (D : nan (sqrt_clamp N (nabs N (nmul N vx vy)))) by (apply sqrt_clamp_nan, (sp_abs _ _ SP), (sp_mul _ _ SP); auto);
      rewrite (sp_eqb _ _ SP) by auto; apply (sp_div _ _ SP); auto.
  Qed.

  Lemma finish_nan f n t v : nan (t_a_total t) \/ nan (t_b_total t) -> finish E f n t = Ok v -> nan v.
  Proof.
    intros H. unfold finish. fold N.
    destruct (dcov_from_terms E (t_kind t) _ _ _ _ _ _ _) as [c|] eqn:C; [|destruct (wants_var f); discriminate].
    apply from_terms_nan in C; auto. destruct (wants_var f); cbn [rbind].
    - destruct (dcov_from_terms E (t_vkind t) _ (t_a_axis t) _ _ _ _ _) as [vx|] eqn:X; [|discriminate].
      destruct (dcov_from_terms E (t_vkind t) _ (t_b_axis t) _ _ _ _ _) as [vy|] eqn:Y; [|discriminate].
      cbn [rbind]. intros [= <-].
      assert (V : nan vx \/ nan vy).
      { destruct H as [H|H]; [left; eapply from_terms_nan in X; eauto|right; eapply from_terms_nan in Y; eauto]. }
      destruct (correlation_nan c vx vy C) as [K|K]; [|tauto]. destruct f; auto using sqrt_clamp_nan.
    - intros [= <-]. destruct f; auto using sqrt_clamp_nan.
  Qed.

  (** ** NAIVE *)
  (** The power used for the distances turns NaN into NaN. *)
  Definition dist_nan (d : dtype) (e : T) : Prop :=
    forall s, nan s -> nan (dist_power E d s e) /\ (neqb N e (nunit N) = false -> nan (npow N s (half E e))).

  Lemma sq_norm_self u : Exists bad u -> nan (sq_norm E u u).
  Proof.
    intros H. unfold sq_norm, np_sum. fold N. apply (sp_sum _ _ SP). induction H as [a l H|a l H IH].
    - left. apply (sp_mul _ _ SP). left. apply (sp_self _ _ SP). auto.
    - right. exact IH.
  Qed.

  Lemma bcast_same c (u : list T) : length u = c -> bcast_row c u = u.
  Proof. destruct u as [|a [|b u]]; cbn; intros <-; reflexivity. Qed.

  Lemma map_row {A B} (g : A -> A -> B) r u : In u r -> In (map (g u) r) (map (fun u => map (g u) r) r) /\ In (g u u) (map (g u) r).
  Proof. intros H. split; [apply (in_map (fun u => map (g u) r)); auto|apply in_map; auto]. Qed.

  Lemma pdist_nan s d c r e m u : dist_nan d e -> Forall (fun row => length row = c) r -> In u r -> Exists bad u ->
    pdist E s d c r e = Ok m -> exists i row, nth_error m i = Some row /\ nth_error r i = Some u /\
      exists v, nth_error row i = Some v /\ nan v.
  Proof.
    intros D W Hu Hb. pose proof (sq_norm_self u Hb) as K.
    assert (G : forall g : list T -> list T -> T, nan (g u u) -> exists i row, nth_error (map (fun u => map (g u) r) r) i = Some row /\
      nth_error r i = Some u /\ exists v, nth_error row i = Some v /\ nan v).
    { intros g Hg. destruct (In_nth_error _ _ Hu) as [i Hi]. exists i, (map (g u) r). rewrite nth_error_map, Hi. split; auto. split; auto.
      exists (g u u). rewrite nth_error_map, Hi. auto. }
    unfold pdist, cdist_scipy, cdist_naive. rewrite Nat.eqb_refl. cbn [orb]. fold N.
    destruct (can_be_numpy_double E s d); intros [= <-].
    - apply (G (fun xi yj => if neqb N e (nunit N) then nsqrt N (sq_norm E xi yj) else npow N (sq_norm E xi yj) (half E e))).
      destruct (neqb N e (nunit N)) eqn:He; [apply (sp_sqrt _ _ SP); auto|apply (proj2 (D _ K)); auto].
    - apply (G (fun yi xj => dist_power E d (sq_norm E (bcast_row (if c =? 1 then c else c) xj) (bcast_row (if c =? 1 then c else c) yi)) e)).
      replace (if c =? 1 then c else c) with c by (destruct (c =? 1); auto).
      rewrite bcast_same by (rewrite Forall_forall in W; auto). apply (D _ K).
  Qed.

  Lemma tainted_rows x : wf x -> tainted bad x -> exists u, In u (snd (transform_to_2d (adata x))) /\ Exists bad u /\
    Forall (fun row => length row = fst (transform_to_2d (adata x))) (snd (transform_to_2d (adata x))).
  Proof.
    intros W H. destruct x as [s d [v|c rows]]; unfold tainted, entries, wf in *; cbn in *.
    - apply Exists_exists in H. destruct H as (a & Ha & Hb). exists [a]. split; [apply (in_map (fun a => [a])); auto|]. split; [auto|].
      apply Forall_forall. intros row Hr. apply in_map_iff in Hr. destruct Hr as (? & <- & _). reflexivity.
    - apply Exists_exists in H. destruct H as (a & Ha & Hb). apply in_concat in Ha. destruct Ha as (u & Hu & Ha).
      exists u. split; auto. split; [apply Exists_exists; eauto|auto].
  Qed.

  (** The distance matrix of a tainted sample has a NaN on the diagonal. *)
  Lemma pairwise_nan x e m : wf x -> tainted bad x -> dist_nan (adt x) e -> pairwise_distances E x None e = Ok m ->
    exists i row v, nth_error m i = Some row /\ nth_error row i = Some v /\ nan v.
  Proof.
    intros W H D. unfold pairwise_distances. destruct (tainted_rows x W H) as (u & Hu & Hb & Hl).
    destruct (transform_to_2d (adata x)) as [c r]. cbn [fst snd] in *. intros Hm.
    destruct (pdist_nan _ _ _ _ _ _ u D Hl Hu Hb Hm) as (i & row & H1 & _ & v & H2 & H3). eauto 8.
  Qed.

  Lemma sums_nan m i row v : nth_error m i = Some row -> nth_error row i = Some v -> nan v ->
    nan (snd (symmetric_matrix_sums E m)).
  Proof.
    intros H1 H2 H3. unfold symmetric_matrix_sums, row_sums, np_sum. cbn [snd]. fold N. apply (sp_sum _ _ SP).
    apply Exists_exists. exists (nsum N row). split; [apply in_map; eapply nth_error_In; eauto|].
    apply (sp_sum _ _ SP). apply Exists_exists. exists v. split; [eapply nth_error_In; eauto|auto].
  Qed.

  Lemma naive_nan x y e cm rv t : wf x -> wf y -> dist_nan (adt x) e -> dist_nan (adt y) e -> tainted bad x \/ tainted bad y ->
    outcome (dcov_terms_naive E x y e cm rv) = Ok t -> nan (t_a_total t) \/ nan (t_b_total t).
  Proof.
    intros Wx Wy Dx Dy H Ht.
    assert (G : exists a b, pairwise_distances E x None e = Ok a /\ pairwise_distances E y None e = Ok b /\
      t_a_total t = snd (symmetric_matrix_sums E a) /\ t_b_total t = snd (symmetric_matrix_sums E b)).
    { revert Ht. unfold dcov_terms_naive, compute_distances, check_valid_dcov_exponent, bind, lift, ret, emit, raise, outcome.
      destruct cm; try discriminate.
      all: destruct (exponent_in_range E e); destruct (pairwise_distances E x None e) as [a|]; cbn [snd fst app]; try discriminate;
        destruct (pairwise_distances E y None e) as [b|]; cbn [snd fst app]; try discriminate;
        destruct (np_dot _ _ _); cbn [snd fst app]; try discriminate; intros [= <-]; exists a, b; auto. }
    destruct G as (a & b & A & B & -> & ->).
    destruct H as [H|H]; [left; destruct (pairwise_nan _ _ _ Wx H Dx A) as (i & row & v & ? & ? & ?)
      |right; destruct (pairwise_nan _ _ _ Wy H Dy B) as (i & row & v & ? & ? & ?)]; eapply sums_nan; eauto.
  Qed.

  (** ** AVL *)
  Hypothesis HE : shape_env E.

  Lemma take_exists d l p : is_perm (length l) p -> Exists bad l -> exists k, k < length l /\ bad (nth k (take d l p) d).
  Proof.
    intros Hp H. apply Exists_exists in H. destruct H as (v & Hv & Hb). apply (In_nth _ _ d) in Hv. destruct Hv as (i & Hi & <-).
    destruct (perm_on_surj (length l) _ i (is_perm_on _ _ Hp) Hi) as (k & Hk & Hki). exists k. split; auto.
    unfold take. rewrite (nth_indep _ d (nth 0 l d)) by (rewrite map_length, (is_perm_length _ _ Hp); auto).
    rewrite (map_nth (fun i => nth i l d)), Hki. auto.
  Qed.

  Lemma cumsum_nth l : forall acc k, k < length l -> exists a, nth k (cumsum_from N acc l) (nzero N) = nadd N a (nth k l (nzero N)).
  Proof.
    induction l as [|v l IH]; intros acc k Hk; cbn [length] in Hk; [lia|]. destruct k as [|k]; cbn [cumsum_from nth]; [eauto|].
    apply IH. lia.
  Qed.

  Lemma beta_nan v idx : is_perm (length v) idx -> Exists bad v ->
    nan (np_sum N (avl_beta E (take (nzero N) v idx) (scatter (repeat 0 (length v)) idx (seq 0 (length v))))).
  Proof.
    intros Hp H. set (n := length v) in *. set (ix := scatter _ _ _). set (vx := take (nzero N) v idx).
    destruct (take_exists (nzero N) v idx Hp H) as (k & Hk & Hb). fold vx n in Hb, Hk.
    assert (Lx : length vx = n) by (unfold vx, take; rewrite map_length; apply (is_perm_length _ _ Hp)).
    assert (Li : length ix = n) by (unfold ix; rewrite scatter_length, repeat_length; auto).
    assert (Hi : nth (nth k idx 0) ix 0 = k) by (apply scatter_inv; auto using repeat_length).
    pose proof (is_perm_lt n idx k Hp Hk) as Hj. set (j := nth k idx 0) in *.
    unfold avl_beta, np_sum. fold N. apply (sp_sum _ _ SP). apply Exists_exists.
    exists (nsub N (nth k (np_cumsum N vx) (nzero N)) (nth k vx (nzero N))). split.
    - unfold map2. apply in_map_iff. exists (nth k (np_cumsum N vx) (nzero N), nth k vx (nzero N)). split; auto.
      assert (Hc : nth j (combine (take (nzero N) (np_cumsum N vx) ix) (take (nzero N) vx ix)) (nth 0 (np_cumsum N vx) (nzero N), nth 0 vx (nzero N))
        = (nth k (np_cumsum N vx) (nzero N), nth k vx (nzero N))).
      { rewrite combine_nth by (unfold take; rewrite !map_length; auto). unfold take.
        rewrite (map_nth (fun i => nth i (np_cumsum N vx) (nzero N)) ix 0 j), (map_nth (fun i => nth i vx (nzero N)) ix 0 j), Hi. auto. }
      rewrite <- Hc. apply nth_In. rewrite combine_length. unfold take. rewrite !map_length. lia.
    - destruct (cumsum_nth vx (nzero N) k) as [a Ha]; [lia|]. unfold np_cumsum. rewrite Ha. apply (sp_prefix _ _ SP). auto.
  Qed.

  Lemma avl_total_nan x alpha beta : nan (np_sum N beta) -> nan (avl_total E x alpha beta).
  Proof. intros H. unfold avl_total. fold N. apply (sp_sub _ _ SP). right. apply (sp_mul _ _ SP). auto. Qed.

  Lemma avl_impl_nan c oob k kv x y rv t : Exists bad x \/ Exists bad y ->
    terms_avl_impl E c oob k kv x y rv = Ok t -> nan (t_a_total t) \/ nan (t_b_total t).
  Proof.
    intros H. unfold terms_avl_impl, get_impl_args. fold N.
    destruct (negb (3 <? length x)); [discriminate|]. destruct (Nat.eqb_spec (length x) (length y)) as [Hl|]; cbn [negb]; [|discriminate].
    cbn [rbind g_x g_y g_ix g_iy g_vx g_vy g_iy_reord g_s]. destruct (partial_sums _ _ _ _ _ _ _); cbn [rbind]; [|discriminate].
    intros [= <-]. cbn [t_a_total t_b_total]. destruct H as [H|H]; [left|right]; apply avl_total_nan.
    - apply beta_nan; auto. apply (se_argsort E HE).
    - rewrite Hl. apply beta_nan; auto. apply (se_argsort E HE).
  Qed.

  (** ** MERGESORT *)
  Lemma cumsum_last l : l <> [] -> Exists bad l -> forall acc last, nth_error (cumsum_from N acc l) (length (cumsum_from N acc l) - 1) = Some last -> bad last.
  Proof.
    intros _ H.
    assert (G : forall l acc last, bad acc \/ Exists bad l -> l <> [] -> nth_error (cumsum_from N acc l) (length (cumsum_from N acc l) - 1) = Some last -> bad last).
    { clear l H. induction l as [|v l IH]; intros acc last H Hne; [congruence|]. cbn [cumsum_from length].
      assert (Ha : bad (nadd N acc v) \/ Exists bad l).
      { destruct H as [H|H]; [left; apply (sp_bad_add _ _ SP); auto|]. inversion H; subst; [left; apply (sp_bad_add _ _ SP); auto|auto]. }
      destruct l as [|w l].
      - cbn. intros [= <-]. destruct Ha as [?|Ha]; [auto|inversion Ha].
      - intros Hn. apply (IH (nadd N acc v) last); [auto|discriminate|]. rewrite <- Hn. cbn [cumsum_from length nth_error Nat.sub].
        rewrite Nat.sub_0_r. reflexivity. }
    intros acc last. apply G; [auto|]. destruct l; [inversion H|discriminate].
  Qed.

  Lemma cumsum_length l : forall acc, length (cumsum_from N acc l) = length l.
  Proof. induction l; intros; cbn; auto. Qed.

  (** The last row sum of a tainted sample is NaN. *)
  Lemma row_sums_nan oob x r : Exists bad x -> compute_row_sums E oob x = Ok r -> length r = length x /\ 1 <= length x /\ nan (nth (length x - 1) r (nzero N)).
  Proof.
    intros H. unfold compute_row_sums. fold N.
    assert (Hne : x <> []) by (destruct x; [inversion H|discriminate]).
    destruct (nth_error (np_cumsum N x) _) as [last|] eqn:L; cbn [of_option rbind]; [|discriminate].
    pose proof (cumsum_last x Hne H _ _ L) as B. unfold np_cumsum in *. rewrite cumsum_length in L. intros [= <-].
    assert (Lx : 1 <= length x) by (destruct x; [congruence|cbn; lia]).
    unfold map2. split; [|split; [auto|]].
    - rewrite map_length, combine_length, !map_length, combine_length, seq_length, cumsum_length. lia.
    - set (G := fun p => nadd N (fst p) (snd p)).
      rewrite (nth_indep _ _ (G (nzero N, nsub N last (nmul N (nofZ N 2) last))))
        by (rewrite map_length, combine_length, !map_length, combine_length, seq_length, cumsum_length; lia).
      rewrite (map_nth G), combine_nth by (rewrite !map_length, combine_length, seq_length, cumsum_length; lia).
      unfold G. cbn [fst snd]. apply (sp_add _ _ SP). right.
      rewrite (map_nth (fun s => nsub N last (nmul N (nofZ N 2) s))), (nth_error_nth _ _ _ L). apply (sp_twice _ _ SP). auto.
  Qed.

  Lemma take_chk_taken {A} oob (l : list A) idx r d : take_chk oob l idx = Ok r -> (forall i, In i idx -> i < length l) -> r = take d l idx.
  Proof. intros H Hi. rewrite (take_chk_ok oob d) in H by auto. congruence. Qed.

  Lemma taken_bad d l p : is_perm (length l) p -> Exists bad l -> Exists bad (take d l p).
  Proof.
    intros Hp H. destruct (take_exists d l p Hp H) as (k & Hk & Hb). apply Exists_exists. eexists. split; [|exact Hb].
    apply nth_In. unfold take. rewrite map_length, (is_perm_length _ _ Hp). auto.
  Qed.

  Lemma merge_impl_nan oob c k kv x y rv t : length x = length y -> Exists bad x \/ Exists bad y ->
    terms_mergesort_impl E oob c k kv x y rv = Ok t -> nan (t_a_total t) \/ nan (t_b_total t).
  Proof.
    intros Hl H. unfold terms_mergesort_impl. fold N.
    pose proof (se_argsort E HE x) as Px.
    rewrite (take_chk_ok oob (nzero N) x) by (intros i Hi; eapply is_perm_In; eauto). cbn [rbind].
    rewrite (take_chk_ok oob (nzero N) y) by (intros i Hi; rewrite <- Hl; eapply is_perm_In; eauto). cbn [rbind].
    set (x' := take (nzero N) x (e_argsort E x)). set (y' := take (nzero N) y (e_argsort E x)).
    destruct (compute_aijbij_term _ _ _ _ _) as [ab|]; cbn [rbind]; [|discriminate].
    destruct (compute_row_sums E oob x') as [ai|] eqn:A; cbn [rbind]; [|discriminate].
    pose proof (se_argsort E HE y') as Py.
    rewrite (take_chk_ok oob (nzero N) y') by (intros i Hi; eapply is_perm_In; eauto). cbn [rbind].
    destruct (compute_row_sums E oob (take (nzero N) y' (e_argsort E y'))) as [bi|] eqn:B; cbn [rbind]; [|discriminate].
    intros [= <-]. cbn [t_a_total t_b_total]. destruct H as [H|H]; [left|right].
    - destruct (row_sums_nan oob x' ai) as (La & L1 & Hn); auto; [apply taken_bad; auto|].
      apply (sp_sum _ _ SP). apply Exists_exists. eexists. split; [|exact Hn]. apply nth_In. lia.
    - assert (Ly : length y' = length y) by (unfold y', take; rewrite map_length, (is_perm_length _ _ Px); auto).
      assert (By : Exists bad y') by (apply taken_bad; [rewrite <- Hl; auto|auto]).
      destruct (row_sums_nan oob _ bi (taken_bad (nzero N) y' _ Py By) B) as (Lb & L1 & Hn).
      assert (Lt : length (take (nzero N) y' (e_argsort E y')) = length y') by (unfold take; rewrite map_length; apply (is_perm_length _ _ Py)).
      rewrite Lt in *. apply (sp_sum _ _ SP). apply Exists_exists. eexists. split; [|exact Hn].
      rewrite <- (scatter_nth (e_empty E (length bi)) (e_argsort E y') bi (length y' - 1) (nzero N)).
      + apply nth_In. rewrite scatter_length, (se_empty E HE), Lb. apply is_perm_lt; auto. lia.
      + apply (is_perm_NoDup _ _ Py).
      + intros i Hi. rewrite (se_empty E HE), Lb. eapply is_perm_In; eauto.
      + rewrite (is_perm_length _ _ Py). auto.
      + rewrite (is_perm_length _ _ Py). lia.
  Qed.
End Nan.

(** ** The public functions *)
Section Api.
  Context {T : Type} (E : Env T) (bad : T -> Prop).
  Let N := e_num E.
  Hypothesis SP : special N bad.
  Hypothesis HE : shape_env E.
  Notation nan v := (nisnan N v = true).

  Lemma tainted_1d x v : transform_to_1d (adata x) = Ok v -> tainted bad x -> Exists bad v.
  Proof. intros H. rewrite (entries_1d x v H). auto. Qed.

  Lemma try_impls_ok w auto (impl : bool -> res (terms (T:=T))) l t : outcome (try_impls w auto impl l) = Ok t -> exists c, impl c = Ok t.
  Proof.
    induction l as [|c l IH]; cbn [try_impls]; [discriminate|]. destruct (impl c) as [t'|ex] eqn:I.
    - cbn. intros [= <-]. eauto.
    - destruct ex; try discriminate. destruct auto; [|discriminate]. rewrite outcome_bind. cbn. auto.
  Qed.

  Lemma avl_nan x y e cm rv t : wf x -> wf y -> tainted bad x \/ tainted bad y ->
    outcome (terms_avl E x y e cm rv) = Ok t -> nan (t_a_total t) \/ nan (t_b_total t).
  Proof.
    intros Wx Wy H. unfold terms_avl. destruct (negb _); [discriminate|].
    destruct (transform_to_1d (adata x)) as [v|] eqn:X; [|discriminate]. destruct (transform_to_1d (adata y)) as [w|] eqn:Y; [|discriminate].
    rewrite !bind_ok. destruct (together x y); [|discriminate]. destruct (impls cm) as [l|]; [|discriminate]. intros Ht.
    apply try_impls_ok in Ht. destruct Ht as [c Hc].
    assert (H' : Exists bad v \/ Exists bad w) by (destruct H; eauto using tainted_1d).
    unfold avl_impl in Hc. destruct c.
    - destruct (_ && _); [|discriminate]. apply (avl_impl_nan (seq_env E) bad (special_seq _ _ SP) (seq_shape E HE) _ _ _ _ _ _ _ _ H' Hc).
    - apply (avl_impl_nan E bad SP HE _ _ _ _ _ _ _ _ H' Hc).
  Qed.

  Lemma mergesort_nan x y e cm rv t : wf x -> wf y -> shape0 x = shape0 y -> tainted bad x \/ tainted bad y ->
    outcome (terms_mergesort E x y e cm rv) = Ok t -> nan (t_a_total t) \/ nan (t_b_total t).
  Proof.
    intros Wx Wy Hl H. unfold terms_mergesort. destruct (negb _); [discriminate|].
    destruct (transform_to_1d (adata x)) as [v|] eqn:X; [|discriminate]. destruct (transform_to_1d (adata y)) as [w|] eqn:Y; [|discriminate].
    rewrite !bind_ok. destruct (together x y); [|discriminate]. destruct (impls cm) as [l|]; [|discriminate]. intros Ht.
    apply try_impls_ok in Ht. destruct Ht as [c Hc].
    assert (H' : Exists bad v \/ Exists bad w) by (destruct H; eauto using tainted_1d).
    assert (Hvw : length v = length w) by (rewrite (to_1d_length x v), (to_1d_length y w); auto).
    unfold mergesort_impl in Hc. destruct c.
    - destruct (_ && _); [|discriminate]. apply (merge_impl_nan (seq_env E) bad (special_seq _ _ SP) (seq_shape E HE) _ _ _ _ _ _ _ _ Hvw H' Hc).
    - destruct (_ || _); [discriminate|]. apply (merge_impl_nan E bad SP HE _ _ _ _ _ _ _ _ Hvw H' Hc).
  Qed.

  Lemma terms_nan x y e m cm rv t : wf x -> wf y -> shape0 x = shape0 y -> dist_nan E (adt x) e -> dist_nan E (adt y) e ->
    tainted bad x \/ tainted bad y ->
    outcome (method_terms E m x y e cm rv) = Ok t -> nan (t_a_total t) \/ nan (t_b_total t).
  Proof.
    intros Wx Wy Hl Dx Dy H. destruct m; cbn [method_terms].
    - unfold terms_auto. destruct (_ && _); [apply avl_nan; auto|eapply naive_nan; eauto].
    - eapply naive_nan; eauto.
    - apply avl_nan; auto.
    - apply mergesort_nan; auto.
  Qed.

  Lemma call_nan f x y e m cm v : wf x -> wf y -> shape0 x = shape0 y -> dist_nan E (adt x) e -> dist_nan E (adt y) e ->
    tainted bad x \/ tainted bad y -> call f E x y e m cm = Ok v -> nan v.
  Proof.
    intros Wx Wy Hl Dx Dy H. rewrite call_terms. destruct (outcome _) as [t|] eqn:Ht; cbn [rbind]; [|discriminate].
    intros Hf. apply (finish_nan E bad SP f (shape0 x) t); auto. apply (terms_nan x y e m cm (wants_var f)); auto.
  Qed.
End Api.
