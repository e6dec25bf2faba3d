(** Parallel evaluation of the permutation tests: C31. *)
From Coq Require Import List Arith Bool ZArith Lia.
From Verif Require Import Num Numpy MUtils MDistances MMergesort MInternals MDcor MEnergy MHypothesis MHomogeneity MIndependence MParallel
  RefDist RefDcor RefApi Api Witness RefTests PTests.
Import List ListNotations.

(** Schedules by themselves: the number of jobs still to be taken and, for each submitted batch, whether it is running. *)
Fixpoint finish (i : nat) (l : list bool) : option (list bool) :=
  match i, l with
  | _, [] => None
  | O, b :: l' => if b then Some (false :: l') else None
  | S i', b :: l' => option_map (cons b) (finish i' l')
  end.
Definition possible (workers : nat) (s : nat * list bool) (e : event) : option (nat * list bool) :=
  let (left, running) := s in
  match e with
  | Take k => if (1 <=? k) && (1 <=? left) && (length (filter id running) <? workers) then Some (left - k, running ++ [true]) else None
  | Complete i => option_map (pair left) (finish i running)
  end.
Fixpoint follow (workers : nat) (es : list event) (s : nat * list bool) : option (nat * list bool) :=
  match es with [] => Some s | e :: es' => match possible workers s e with Some s' => follow workers es' s' | None => None end end.

(** A complete schedule for [b] jobs: all the jobs are taken and all the batches complete. *)
Definition complete_schedule (workers : nat) (es : list event) (b : nat) : Prop :=
  exists done, follow workers es (b, []) = Some (0, done) /\ Forall (fun r => r = false) done.

Section Machine.
  Context {T St : Type} (G : Rng St) (n : nat) (job : list nat -> res T).

  Definition shape_of (s : pstate T St) : nat * list bool := (todo s, map is_running (batches s)).

  Lemma complete_shape i l : option_map (map is_running) (complete job i l) = finish i (map is_running l).
  Proof.
    revert l. induction i as [|i IH]; intros [|[ps|r] l]; cbn; auto; rewrite <- IH; destruct (complete job i l); reflexivity.
  Qed.

  Lemma filter_running l : length (filter is_running l) = length (filter id (map (is_running (T:=T)) l)).
  Proof. induction l as [|[ps|r] l IH]; cbn; auto. Qed.

  Lemma step_shape w s e : option_map shape_of (step G n job w s e) = possible w (shape_of s) e.
  Proof.
    destruct e as [k|i]; unfold step, possible, shape_of; cbn [todo batches gen].
    - rewrite filter_running. destruct (_ && _ && _); [|reflexivity]. destruct (draw_permutations _ _ _ _). cbn. rewrite map_app. reflexivity.
    - rewrite <- complete_shape. destruct (complete job i (batches s)); reflexivity.
  Qed.

  Lemma run_shape w es s : option_map shape_of (run G n job w es s) = follow w es (shape_of s).
  Proof.
    revert s. induction es as [|e es IH]; intros s; cbn [run follow]; [reflexivity|].
    rewrite <- step_shape. destruct (step G n job w s e) as [s'|]; cbn; auto.
  Qed.

  Lemma draw_app a b s : draw_permutations G (a + b) n s
    = let (p, s1) := draw_permutations G a n s in let (q, s2) := draw_permutations G b n s1 in (p ++ q, s2).
  Proof.
    revert s. induction a as [|a IH]; intros s; cbn [plus draw_permutations].
    - destruct (draw_permutations G b n s). reflexivity.
    - destruct (rng_permutation G n s) as [p s1]. rewrite IH. destruct (draw_permutations G a n s1) as [ps s2].
      destruct (draw_permutations G b n s2). reflexivity.
  Qed.

  (** Each batch belongs to its part of the permutations. *)
  Definition of_chunk (b : batch T) (ps : list (list nat)) : Prop :=
    match b with Running q => q = ps | Completed r => r = mapM job ps end.
  Definition reached (B : nat) (g : St) (s : pstate T St) : Prop :=
    todo s <= B /\ exists chunks, Forall2 of_chunk (batches s) chunks /\ draw_permutations G (B - todo s) n g = (concat chunks, gen s).

  Lemma complete_chunks i l l' chunks : complete job i l = Some l' -> Forall2 of_chunk l chunks -> Forall2 of_chunk l' chunks.
  Proof.
    revert l l' chunks. induction i as [|i IH]; intros [|b l] l' chunks Hc Hf; cbn in Hc; try discriminate.
    - destruct b; [|discriminate]. injection Hc as <-. inversion Hf; subst. constructor; auto. cbn in *. congruence.
    - destruct b; destruct (complete job i l) eqn:Hl; try discriminate; injection Hc as <-; inversion Hf; subst; constructor; eauto.
  Qed.

  Lemma step_reached w B g s e s' : reached B g s -> step G n job w s e = Some s' -> reached B g s'.
  Proof.
    intros (Hle & chunks & Hf & Hd) Hs. destruct e as [k|i]; unfold step in Hs.
    - destruct ((1 <=? k) && (1 <=? todo s) && _) eqn:Hc; [|discriminate].
      apply andb_prop in Hc as [Hc _]. apply andb_prop in Hc as [H1 H2]. apply Nat.leb_le in H1, H2.
      destruct (draw_permutations G (Nat.min k (todo s)) n (gen s)) as [ps g'] eqn:Hp. injection Hs as <-.
      split; cbn [todo gen batches]; [lia|]. exists (chunks ++ [ps]). split.
      + apply Forall2_app; auto. repeat constructor.
      + replace (B - (todo s - k)) with (B - todo s + Nat.min k (todo s)) by lia.
        rewrite draw_app, Hd, Hp, concat_app. cbn. rewrite app_nil_r. reflexivity.
    - destruct (complete job i (batches s)) as [l|] eqn:Hc; [|discriminate]. injection Hs as <-.
      split; cbn [todo gen batches]; auto. exists chunks. split; auto. eapply complete_chunks; eauto.
  Qed.

  Lemma run_reached w B g es s s' : reached B g s -> run G n job w es s = Some s' -> reached B g s'.
  Proof.
    revert s. induction es as [|e es IH]; intros s Hr Hs; cbn in Hs; [injection Hs as <-; auto|].
    destruct (step G n job w s e) eqn:He; [|discriminate]. eapply IH; [eapply step_reached; eauto|auto].
  Qed.

  Lemma mapM_app {A B} (f : A -> res B) l l' :
    mapM f (l ++ l') = rbind (mapM f l) (fun r => rbind (mapM f l') (fun r' => Ok (r ++ r'))).
  Proof.
    induction l as [|a l IH]; cbn.
    - destruct (mapM f l'); reflexivity.
    - destruct (f a); cbn; auto. rewrite IH. destruct (mapM f l); cbn; auto. destruct (mapM f l'); reflexivity.
  Qed.

  Lemma gather_value l chunks r : Forall2 of_chunk l chunks -> gather l = Some r -> mapM job (concat chunks) = Ok r.
  Proof.
    intros Hf. revert r. induction Hf as [|b ps l chunks Hb Hf IH]; intros r Hg; cbn in Hg; [injection Hg as <-; reflexivity|].
    destruct b as [|[r1|]]; try discriminate. destruct (gather l) as [r2|]; [|discriminate]. injection Hg as <-.
    cbn [concat]. cbn in Hb. rewrite mapM_app, <- Hb, (IH r2) by auto. reflexivity.
  Qed.

  Lemma failure_value l chunks e : Forall2 of_chunk l chunks -> failure l = Some e -> exists e', mapM job (concat chunks) = Err e'.
  Proof.
    intros Hf. induction Hf as [|b ps l chunks Hb Hf IH]; intros Hg; cbn in Hg; [discriminate|]. cbn [concat]. rewrite mapM_app.
    destruct b as [q|[r|e1]]; cbn in Hb.
    - destruct (mapM job ps); cbn; [|eauto]. destruct (IH Hg) as [e' ->]. cbn. eauto.
    - rewrite <- Hb. cbn. destruct (IH Hg) as [e' ->]. cbn. eauto.
    - rewrite <- Hb. cbn. eauto.
  Qed.

  Lemma gather_total l chunks : Forall2 of_chunk l chunks -> Forall (fun r => r = false) (map is_running l) -> failure l = None ->
    exists r, gather l = Some r.
  Proof.
    intros Hf. induction Hf as [|b ps l chunks Hb Hf IH]; intros Hr Hn; cbn in *; [eauto|]. inversion Hr; subst.
    destruct b as [q|[r|e]]; try discriminate. destruct IH as [r' ->]; eauto.
  Qed.

  Lemma mapM_prefix_err (l l' : list (list nat)) e : mapM job l = Err e -> exists e', mapM job (l ++ l') = Err e'.
  Proof. intros H. rewrite mapM_app, H. cbn. eauto. Qed.

  Lemma parallel_ok w es B g r g' : parallel G n job w es B g = Ok (Some (r, g')) ->
    mapM job (fst (draw_permutations G B n g)) = Ok r /\ snd (draw_permutations G B n g) = g'.
  Proof.
    unfold parallel. destruct (run G n job w es (mkP B g [])) as [s|] eqn:Hr; [|discriminate].
    apply (run_reached w B g) in Hr; [|split; cbn; auto; exists []; split; [constructor|rewrite Nat.sub_diag; reflexivity]].
    destruct Hr as (_ & chunks & Hf & Hd). unfold collect. destruct (failure (batches s)); [discriminate|].
    destruct (todo s); [|discriminate]. destruct (gather (batches s)) eqn:Hg; [|discriminate]. intros H. injection H as -> <-.
    rewrite Nat.sub_0_r in Hd. rewrite Hd. cbn. split; auto. eapply gather_value; eauto.
  Qed.

  Lemma parallel_err w es B g e : parallel G n job w es B g = Err e -> exists e', mapM job (fst (draw_permutations G B n g)) = Err e'.
  Proof.
    unfold parallel. destruct (run G n job w es (mkP B g [])) as [s|] eqn:Hr; [|discriminate].
    apply (run_reached w B g) in Hr; [|split; cbn; auto; exists []; split; [constructor|rewrite Nat.sub_diag; reflexivity]].
    destruct Hr as (Hle & chunks & Hf & Hd). unfold collect. destruct (failure (batches s)) eqn:Hfl; [|destruct (todo s), (gather (batches s)); discriminate].
    intros _. destruct (failure_value _ _ _ Hf Hfl) as [e' He].
    replace B with (B - todo s + todo s) by lia. rewrite draw_app, Hd. destruct (draw_permutations G (todo s) n (gen s)) as [qs g2]. cbn.
    eapply mapM_prefix_err; eauto.
  Qed.

  Lemma parallel_complete w es B g : complete_schedule w es B -> parallel G n job w es B g <> Ok None.
  Proof.
    intros (done & Hfo & Hdone). unfold parallel. pose proof (run_shape w es (mkP B g [])) as Hs. unfold shape_of at 2 in Hs. cbn [todo batches map] in Hs. rewrite Hfo in Hs.
    destruct (run G n job w es (mkP B g [])) as [s|] eqn:Hr; [|discriminate]. cbn in Hs. injection Hs as Ht Hb.
    apply (run_reached w B g) in Hr; [|split; cbn; auto; exists []; split; [constructor|rewrite Nat.sub_diag; reflexivity]].
    destruct Hr as (_ & chunks & Hf & _). unfold collect. destruct (failure (batches s)) eqn:Hfl; [discriminate|]. rewrite Ht.
    destruct (gather_total _ _ Hf) as [r ->]; auto; [rewrite Hb; auto|discriminate].
  Qed.
End Machine.

(** The outcome [par] of a test under a schedule agrees with the sequential outcome [seq]. *)
Definition agrees {A} (complete : Prop) (par : res (option A)) (seq : res A) : Prop :=
  (complete -> par <> Ok None) /\
  (forall r, par = Ok (Some r) -> seq = Ok r) /\
  (forall e, par = Err e -> exists e', seq = Err e').

Lemma routine_agrees {T St} (N : Num T) (G : Rng St) w es m stat B rs :
  agrees (complete_schedule w es (Z.to_nat B)) (permutation_test_par G w es N m stat B rs) (permutation_test_with_sym_matrix N G m stat B rs).
Proof.
  unfold permutation_test_par, permutation_test_with_sym_matrix. cbv zeta.
  destruct (stat m) as [st|e]; cbn [rbind]; [|split; [discriminate|split; [discriminate|eauto]]].
  set (g := random_state_init G rs). set (job := permuted_statistic m stat).
  pose proof (parallel_ok G (length m) job w es (Z.to_nat B) g) as H1. pose proof (parallel_err G (length m) job w es (Z.to_nat B) g) as H2.
  pose proof (parallel_complete G (length m) job w es (Z.to_nat B) g) as H3.
  destruct (draw_permutations G (Z.to_nat B) (length m) g) as [ps g']. cbn in H1, H2.
  destruct (parallel G (length m) job w es (Z.to_nat B) g) as [[[r s]|]|e]; cbn [rbind].
  - destruct (H1 r s eq_refl) as [-> ->]. cbn [rbind]. destruct (permutation_pvalue N r st B); cbn [rbind]; (split; [discriminate|]);
      (split; [|discriminate || eauto]); [intros r' Hr'; congruence|discriminate].
  - split; [|split; discriminate]. intros Hc. exfalso. exact (H3 Hc eq_refl).
  - split; [discriminate|]. split; [discriminate|]. intros _ _. destruct (H2 e eq_refl) as [e' ->]. cbn. eauto.
Qed.

Lemma agrees_bind {A B} c (m : M A) (k : A -> M (option B)) (k' : A -> M B) :
  (forall a, agrees c (outcome (k a)) (outcome (k' a))) -> agrees c (outcome (bind m k)) (outcome (bind m k')).
Proof.
  intros H. rewrite !outcome_bind. destruct (outcome m); auto. split; [discriminate|split; [discriminate|eauto]].
Qed.

(** For every number type and environment, every schedule and every number of workers: a complete schedule gives a result or
    an exception; the result, with the final state of the generator, is that of the sequential test; an exception is raised only
    when the sequential test raises one. *)
Theorem C31_dcov_test {T St} (E : Env T) (G : Rng St) workers schedule x y B e rs :
  agrees (complete_schedule workers schedule (Z.to_nat B))
    (outcome (distance_covariance_test_par G workers schedule E x y B e rs)) (outcome (distance_covariance_test E G x y B e rs)).
Proof.
  unfold distance_covariance_test_par, distance_covariance_test. repeat (apply agrees_bind; intros ?). apply routine_agrees.
Qed.
Theorem C31_partial_test {T St} (E : Env T) (G : Rng St) workers schedule x y z B e rs :
  agrees (complete_schedule workers schedule (Z.to_nat B))
    (outcome (partial_distance_covariance_test_par G workers schedule E x y z B e rs))
    (outcome (partial_distance_covariance_test E G x y z B e rs)).
Proof.
  unfold partial_distance_covariance_test_par, partial_distance_covariance_test. repeat (apply agrees_bind; intros ?). apply routine_agrees.
Qed.
Theorem C31_energy_test {T St} (E : Env T) (G : Rng St) workers schedule samples B e rs av es :
  agrees (complete_schedule workers schedule (Z.to_nat B))
    (outcome (energy_test_par G workers schedule E samples B e rs av es)) (outcome (energy_test E G samples B e rs av es)).
Proof.
  unfold energy_test_par, energy_test. cbv zeta. repeat (apply agrees_bind; intros ?). apply routine_agrees.
Qed.

(** Two complete schedules, with different numbers of workers: the same result. *)
Theorem C31_same_result {T St} (E : Env T) (G : Rng St) w w' schedule schedule' x y B e rs :
  complete_schedule w schedule (Z.to_nat B) -> complete_schedule w' schedule' (Z.to_nat B) ->
  forall r, outcome (distance_covariance_test_par G w schedule E x y B e rs) = Ok r ->
            outcome (distance_covariance_test_par G w' schedule' E x y B e rs) = Ok r.
Proof.
  intros H H' r Hr. destruct (C31_dcov_test E G w schedule x y B e rs) as (A1 & A2 & A3).
  destruct (C31_dcov_test E G w' schedule' x y B e rs) as (B1 & B2 & B3). destruct r as [r|]; [|exfalso; apply A1; auto].
  specialize (A2 r Hr). destruct (outcome (distance_covariance_test_par G w' schedule' E x y B e rs)) as [[r'|]|ex].
  - specialize (B2 r' eq_refl). congruence.
  - exfalso. apply B1; auto.
  - destruct (B3 ex eq_refl). congruence.
Qed.

(** No schedule gets stuck or goes on for ever. *)
Theorem C31_progress workers b es left running : 1 <= workers -> follow workers es (b, []) = Some (left, running) ->
  (left = 0 /\ Forall (fun r => r = false) running) \/ exists e, follow workers (es ++ [e]) (b, []) <> None.
Proof.
  intros Hw Hf.
  assert (forall es s s', follow workers es s = Some s' -> forall e, follow workers (es ++ [e]) s = possible workers s' e) as Happ.
  { clear. induction es as [|a es IH]; intros s s' H e; cbn in *.
    - injection H as <-. destruct (possible workers s e); reflexivity.
    - destruct (possible workers s a); [|discriminate]. apply IH; auto. }
  assert (forall l, Forall (fun r => r = false) l \/ exists i, finish i l <> None) as Hfin.
  { clear. induction l as [|a l IH]; auto. destruct a; [right; exists 0; cbn; discriminate|]. destruct IH as [IH|[i IH]]; auto.
    right. exists (S i). cbn. destruct (finish i l); cbn; congruence. }
  destruct (Hfin running) as [Hr|[i Hi]].
  - destruct left as [|left]; [auto|]. right. exists (Take 1). rewrite (Happ _ _ _ Hf). cbn [possible].
    assert (filter id running = []) as -> by (clear -Hr; induction Hr; cbn; auto; subst; auto).
    cbn [length]. destruct (Nat.ltb_spec 0 workers); [cbn; discriminate|lia].
  - right. exists (Complete i). rewrite (Happ _ _ _ Hf). cbn [possible]. destruct (finish i running); cbn; congruence.
Qed.
Theorem C31_bounded workers b es s : follow workers es (b, []) = Some s -> length es <= 2 * b.
Proof.
  assert (forall l i l', finish i l = Some l' -> length (filter id l) = S (length (filter id l'))) as Hfin.
  { induction l as [|a l IH]; intros [|i] l' H; cbn in H; try discriminate.
    - destruct a; [|discriminate]. injection H as <-. reflexivity.
    - destruct (finish i l) eqn:Hl; [|discriminate]. injection H as <-. specialize (IH _ _ Hl). destruct a; cbn in *; lia. }
  assert (forall es0 s s', follow workers es0 s = Some s' -> length es0 <= 2 * fst s + length (filter id (snd s))) as H.
  { induction es0 as [|e es' IH]; intros [l r] s' H; cbn [follow] in H; [cbn; lia|]. destruct (possible workers (l, r) e) as [[l1 r1]|] eqn:He; [|discriminate].
    specialize (IH _ _ H). destruct e as [k|i]; cbn [possible] in He.
    - destruct ((1 <=? k) && (1 <=? l) && _) eqn:Hc; [|discriminate]. apply andb_prop in Hc as [Hc _]. apply andb_prop in Hc as [H1 H2].
      apply Nat.leb_le in H1, H2. injection He as <- <-. cbn [fst snd length] in *. rewrite filter_app, app_length in IH. cbn in IH. lia.
    - destruct (finish i r) eqn:Hi; [|discriminate]. injection He as <- <-. apply Hfin in Hi. cbn [fst snd length] in *. lia. }
  intros Hf. specialize (H _ _ _ Hf). cbn in H. lia.
Qed.

(** Four jobs in three batches on two workers, completed out of order; and one after the other. *)
Example C31_meets : complete_schedule 2 [Take 2; Take 1; Complete 1; Take 5; Complete 2; Complete 0] 4 /\
  complete_schedule 1 [Take 1; Complete 0; Take 1; Complete 1; Take 1; Complete 2; Take 1; Complete 3] 4 /\
  ~ complete_schedule 1 [Take 2; Take 1; Complete 1; Take 5; Complete 2; Complete 0] 4.
Proof.
  split; [|split].
  - eexists. split; [reflexivity|repeat constructor].
  - eexists. split; [reflexivity|repeat constructor].
  - intros (d & H & _). discriminate.
Qed.
