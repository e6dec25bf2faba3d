(** Lists as tables of functions: [tab n f = [f 0; ...; f (n-1)]], and the meaning of the
    numpy primitives on them. *)
From Coq Require Import Reals Lra Lia List Arith Bool ZArith Permutation.
From Verif Require Import Num Numpy Sums.
Import ListNotations.

Definition tab {A} (n : nat) (f : nat -> A) : list A := map f (seq 0 n).

Section Tab.
  Context {A B C : Type}.

  Lemma tab_length n (f : nat -> A) : length (tab n f) = n.
  Proof. unfold tab. rewrite map_length, seq_length. reflexivity. Qed.

  Lemma tab_nth n (f : nat -> A) i d : i < n -> nth i (tab n f) d = f i.
  Proof.
    intros. unfold tab.
    rewrite nth_indep with (d' := f 0) by (rewrite map_length, seq_length; auto).
    rewrite map_nth, seq_nth by auto. reflexivity.
  Qed.

  Lemma tab_nth_error n (f : nat -> A) i : i < n -> nth_error (tab n f) i = Some (f i).
  Proof.
    intros. rewrite (nth_error_nth' _ (f 0)) by (rewrite tab_length; auto).
    rewrite tab_nth by auto. reflexivity.
  Qed.

  Lemma tab_ext n (f g : nat -> A) : (forall i, i < n -> f i = g i) -> tab n f = tab n g.
  Proof. intros. apply map_ext_in. intros a Ha. apply in_seq in Ha. apply H. lia. Qed.

  Lemma tab_of_list d (l : list A) : l = tab (length l) (fun i => nth i l d).
  Proof.
    apply nth_ext with (d := d) (d' := d).
    - rewrite tab_length. reflexivity.
    - intros. rewrite tab_nth by auto. reflexivity.
  Qed.

  Lemma tab_of_list_n d n (l : list A) : length l = n -> l = tab n (fun i => nth i l d).
  Proof. intros <-. apply tab_of_list. Qed.

  Lemma list_tab_eq d n (l : list A) f : length l = n ->
    (forall i, i < n -> nth i l d = f i) -> l = tab n f.
  Proof. intros H1 H2. rewrite (tab_of_list_n d n l H1). apply tab_ext; auto. Qed.

  Lemma tab_map n (f : nat -> A) (g : A -> B) : map g (tab n f) = tab n (fun i => g (f i)).
  Proof. unfold tab. rewrite map_map. reflexivity. Qed.

  Lemma tab_inj n (f g : nat -> A) : tab n f = tab n g -> forall i, i < n -> f i = g i.
  Proof.
    intros H i Hi. pose proof (tab_nth n f i (f 0) Hi). rewrite <- (tab_nth n g i (f 0)) by auto.
    congruence.
  Qed.
End Tab.

Lemma combine_map_same {A B C} (f : A -> B) (g : A -> C) l :
  combine (map f l) (map g l) = map (fun a => (f a, g a)) l.
Proof. induction l; simpl; congruence. Qed.

Lemma tab_map2 {A B C} n (f : nat -> A) (g : nat -> B) (h : A -> B -> C) :
  map2 h (tab n f) (tab n g) = tab n (fun i => h (f i) (g i)).
Proof. unfold tab, map2. rewrite combine_map_same, map_map. reflexivity. Qed.

Lemma map2_length {A B C} (h : A -> B -> C) l k :
  length (map2 h l k) = Nat.min (length l) (length k).
Proof. unfold map2. rewrite map_length, combine_length. reflexivity. Qed.

Lemma seq_tab n : seq 0 n = tab n (fun i => i).
Proof. unfold tab. rewrite map_id. reflexivity. Qed.

Lemma seq_tab_s s n : seq s n = tab n (fun i => s + i).
Proof.
  unfold tab. revert s. induction n; intros; auto.
  change (seq s (S n)) with (s :: seq (S s) n).
  change (seq 0 (S n)) with (0 :: seq 1 n). rewrite map_cons.
  f_equal; [lia|]. rewrite <- (seq_shift n 0), map_map, IHn. apply map_ext; intros; lia.
Qed.

Lemma tab_S {A} n (f : nat -> A) : tab (S n) f = f 0 :: tab n (fun i => f (S i)).
Proof. unfold tab. simpl. f_equal. rewrite <- seq_shift, map_map. reflexivity. Qed.

Lemma tab_snoc {A} n (f : nat -> A) : tab (S n) f = tab n f ++ [f n].
Proof. unfold tab. rewrite seq_S, map_app. reflexivity. Qed.

Lemma tab_app {A} n m (f : nat -> A) : tab (n + m) f = tab n f ++ tab m (fun i => f (n + i)).
Proof.
  unfold tab. rewrite seq_app, map_app. f_equal. simpl.
  rewrite (seq_tab_s n). unfold tab. rewrite map_map. reflexivity.
Qed.

Lemma repeat_tab {A} (a : A) n : repeat a n = tab n (fun _ => a).
Proof. induction n; simpl; [reflexivity|]. rewrite tab_S. congruence. Qed.

Lemma map_const_tab {A B} (b : B) (l : list A) : map (fun _ => b) l = tab (length l) (fun _ => b).
Proof. rewrite <- repeat_tab. induction l; simpl; congruence. Qed.

Lemma take_tab {A} (d : A) n l idx :
  length idx = n -> take d l idx = tab n (fun i => nth (nth i idx 0) l d).
Proof.
  intros H. unfold take. rewrite (tab_of_list_n 0 n idx H) at 1. rewrite tab_map. reflexivity.
Qed.

(** ** [upd] and [scatter] *)

Lemma upd_length {A} (l : list A) i v : length (upd l i v) = length l.
Proof. revert i; induction l; destruct i; simpl; auto. Qed.

Lemma upd_nth {A} (l : list A) i v j d : i < length l ->
  nth j (upd l i v) d = if j =? i then v else nth j l d.
Proof.
  revert i j; induction l; simpl; intros; [lia|].
  destruct i, j; simpl; auto. apply IHl. lia.
Qed.

Lemma scatter_length {A} (l : list A) idx vals : length (scatter l idx vals) = length l.
Proof.
  revert l vals; induction idx; intros; destruct vals; simpl; auto.
  rewrite IHidx, upd_length. reflexivity.
Qed.

Lemma scatter_nth_out {A} (l : list A) idx vals j d :
  ~ In j idx -> (forall i, In i idx -> i < length l) ->
  nth j (scatter l idx vals) d = nth j l d.
Proof.
  revert l vals; induction idx; intros l vals Hj Hi; destruct vals; simpl; auto.
  rewrite IHidx.
  - rewrite upd_nth by (apply Hi; left; auto).
    destruct (Nat.eqb_spec j a); auto. subst. exfalso; apply Hj; left; auto.
  - intros H; apply Hj; right; auto.
  - intros; rewrite upd_length; apply Hi; right; auto.
Qed.

Lemma scatter_nth {A} (l : list A) idx vals k d :
  NoDup idx -> (forall i, In i idx -> i < length l) -> length vals = length idx ->
  k < length idx ->
  nth (nth k idx 0) (scatter l idx vals) d = nth k vals d.
Proof.
  revert l vals k; induction idx; intros l vals k Hnd Hi Hlen Hk; simpl in *; [lia|].
  destruct vals; simpl in *; [lia|]. inversion Hnd; subst.
  destruct k.
  - rewrite scatter_nth_out; auto.
    + rewrite upd_nth, Nat.eqb_refl by auto. reflexivity.
    + intros; rewrite upd_length; auto.
  - apply IHidx; auto; [|lia]. intros; rewrite upd_length; auto.
Qed.

Lemma take_chk_ok {A} e (d : A) l idx :
  (forall i, In i idx -> i < length l) -> take_chk e l idx = Ok (take d l idx).
Proof.
  induction idx; intros H; simpl; auto.
  rewrite (nth_error_nth' l d) by (apply H; left; auto).
  rewrite IHidx by (intros; apply H; right; auto). reflexivity.
Qed.

Lemma take_chk_oob {A} e (l : list A) idx i :
  In i idx -> length l <= i -> take_chk e l idx = Err e.
Proof.
  induction idx as [|a idx IH]; simpl; [tauto|]. intros [<-|H] Hi.
  - rewrite (proj2 (nth_error_None l a)) by auto. reflexivity.
  - rewrite IH by auto. destruct (nth_error l a); reflexivity.
Qed.

(** ** Permutations given as lists *)

Definition is_perm (n : nat) (p : list nat) : Prop := Permutation p (seq 0 n).

Lemma is_perm_length n p : is_perm n p -> length p = n.
Proof. intros H. rewrite (Permutation_length H), seq_length. reflexivity. Qed.
Lemma is_perm_NoDup n p : is_perm n p -> NoDup p.
Proof. intros H. apply (Permutation_NoDup (Permutation_sym H)), seq_NoDup. Qed.
Lemma is_perm_In n p i : is_perm n p -> In i p -> i < n.
Proof. intros H Hi. apply (Permutation_in _ H) in Hi. apply in_seq in Hi. lia. Qed.
Lemma is_perm_lt n p i : is_perm n p -> i < n -> nth i p 0 < n.
Proof. intros H Hi. apply (is_perm_In n p); auto. apply nth_In. rewrite (is_perm_length n p); auto. Qed.
Lemma is_perm_on n p : is_perm n p -> perm_on n (fun i => nth i p 0).
Proof.
  intros H. split.
  - intros i Hi. apply is_perm_lt; auto.
  - intros i j Hi Hj Hij. pose proof (is_perm_NoDup n p H) as Hnd.
    cbv beta in Hij.
    rewrite (NoDup_nth _ 0) in Hnd. apply Hnd; auto; rewrite (is_perm_length n p); auto.
Qed.

(** The inverse permutation computed by [out[p] = arange(n)]. *)
Lemma scatter_inv n p init i : is_perm n p -> length init = n -> i < n ->
  nth (nth i p 0) (scatter init p (seq 0 n)) 0 = i.
Proof.
  intros H Hl Hi. pose proof (is_perm_length n p H).
  rewrite scatter_nth.
  - rewrite seq_nth; auto.
  - apply (is_perm_NoDup n p H).
  - intros k Hk. rewrite Hl. eapply is_perm_In; eauto.
  - rewrite seq_length; auto.
  - lia.
Qed.

Lemma perm_on_inj n p i j : perm_on n p -> i < n -> j < n -> p i = p j -> i = j.
Proof. intros [_ H]; auto. Qed.

(** Inverse in both directions. *)
Lemma inv_right n (p q : nat -> nat) : perm_on n p -> (forall i, i < n -> q (p i) = i) ->
  forall j, j < n -> q j < n /\ p (q j) = j.
Proof.
  intros Hp Hq j Hj. destruct (perm_on_surj n p j Hp Hj) as (i & Hi & <-).
  rewrite Hq; auto.
Qed.
Lemma inv_perm_on n (p q : nat -> nat) : perm_on n p -> (forall i, i < n -> q (p i) = i) ->
  perm_on n q.
Proof.
  intros Hp Hq. pose proof (inv_right n p q Hp Hq) as H. split.
  - intros i Hi. apply H; auto.
  - intros i j Hi Hj Hij. rewrite <- (proj2 (H i Hi)), <- (proj2 (H j Hj)). congruence.
Qed.

(** ** Reals *)
Local Open Scope R_scope.

(** Numbers whose sums do not depend on the order: the compiled code computes with the same ones. *)
Lemma seq_env_same {T} (E : Env T) : seq_num (e_num E) = e_num E -> seq_env E = E.
Proof. destruct E as [num a b c d e]. unfold seq_env. cbn [e_num e_argsort e_empty e_eigh e_tcdf e_nsp_is_np]. intros ->. reflexivity. Qed.
Lemma seq_env_R (E : Env R) : e_num E = RNum -> seq_env E = E.
Proof. intros H. apply seq_env_same. rewrite H. reflexivity. Qed.
Lemma seq_env_sequential {T} (E : Env T) : sequential (e_num E) -> seq_env E = E.
Proof.
  intros H. apply seq_env_same. unfold sequential in H. destruct (e_num E). unfold seq_num. cbn in *. f_equal.
  apply FunctionalExtensionality.functional_extensionality. intros l. symmetry. apply H.
Qed.

Lemma np_sum_lsum l : np_sum RNum l = lsum l.
Proof.
  unfold np_sum. change (nsum RNum l) with (fold_left Rplus l 0).
  assert (forall acc, fold_left Rplus l acc = acc + lsum l) as H.
  { induction l; simpl; intros; [ring|]. rewrite IHl. simpl. ring. }
  rewrite H. ring.
Qed.

Lemma np_sum_tab n f : np_sum RNum (tab n f) = rsum n f.
Proof. rewrite np_sum_lsum. symmetry. apply rsum_lsum. Qed.

Lemma lsum_concat l : lsum (concat l) = lsum (map lsum l).
Proof. induction l; simpl; auto. rewrite lsum_app, IHl. reflexivity. Qed.

Definition tab2 {A} (n m : nat) (f : nat -> nat -> A) : list (list A) :=
  tab n (fun i => tab m (f i)).

Lemma np_sum_concat_tab2 n m f : np_sum RNum (concat (tab2 n m f)) = rsum2 n m f.
Proof.
  rewrite np_sum_lsum, lsum_concat. unfold tab2. rewrite tab_map. unfold rsum2.
  rewrite <- np_sum_lsum, np_sum_tab. apply rsum_ext; intros.
  rewrite <- np_sum_lsum. apply np_sum_tab.
Qed.

Lemma concat_length_tab2 {A} n m (f : nat -> nat -> A) : length (concat (tab2 n m f)) = (n * m)%nat.
Proof.
  unfold tab2. induction n; [reflexivity|]. rewrite tab_snoc, concat_app, app_length, IHn.
  simpl. rewrite app_nil_r, tab_length. lia.
Qed.

Lemma map2_app {A B C} (h : A -> B -> C) l1 l2 k1 k2 : length l1 = length k1 ->
  map2 h (l1 ++ l2) (k1 ++ k2) = map2 h l1 k1 ++ map2 h l2 k2.
Proof.
  revert k1; induction l1; destruct k1; simpl; intros; try lia; auto.
  unfold map2 in *. simpl. f_equal. apply IHl1. lia.
Qed.

Lemma map2_concat_tab2 {A B C} n m (f : nat -> nat -> A) (g : nat -> nat -> B) (h : A -> B -> C) :
  map2 h (concat (tab2 n m f)) (concat (tab2 n m g))
  = concat (tab2 n m (fun i j => h (f i j) (g i j))).
Proof.
  unfold tab2. induction n; [reflexivity|]. rewrite !tab_snoc, !concat_app.
  rewrite map2_app, IHn.
  - f_equal. simpl. rewrite !app_nil_r. apply tab_map2.
  - pose proof (concat_length_tab2 n m f). pose proof (concat_length_tab2 n m g).
    unfold tab2 in *. lia.
Qed.

Lemma dot_R a b : ndot RNum a b = np_sum RNum (map2 Rmult a b).
Proof. reflexivity. Qed.
Lemma np_dot_tab n f g : np_dot RNum (tab n f) (tab n g) = Ok (rsum n (fun i => f i * g i)).
Proof. unfold np_dot. rewrite !tab_length, Nat.eqb_refl, dot_R, tab_map2, np_sum_tab. reflexivity. Qed.

Lemma nofnat_INR n : nofnat RNum n = INR n.
Proof. unfold nofnat. simpl. rewrite <- INR_IZR_INZ. reflexivity. Qed.

(** [cumsum]: entry [i] is the sum of entries [0..i]. *)
Lemma cumsum_from_tab n f acc :
  cumsum_from RNum acc (tab n f) = tab n (fun i => acc + rsum (S i) f).
Proof.
  revert f acc. induction n; intros; [reflexivity|].
  rewrite !tab_S. cbn [cumsum_from nadd RNum]. f_equal; [simpl; ring|].
  rewrite IHn. apply tab_ext. intros i Hi.
  rewrite (rsum_S_l (S i) f). ring.
Qed.

Lemma np_cumsum_tab n f : np_cumsum RNum (tab n f) = tab n (fun i => rsum (S i) f).
Proof. unfold np_cumsum. rewrite cumsum_from_tab. apply tab_ext; intros. simpl. ring. Qed.

Lemma Rleb_spec x y : reflect (x <= y) (Rleb x y).
Proof. unfold Rleb. destruct (Rle_dec x y); constructor; auto. Qed.
Lemma Rltb_spec x y : reflect (x < y) (Rltb x y).
Proof. unfold Rltb. destruct (Rlt_dec x y); constructor; auto. Qed.
Lemma Reqb_spec x y : reflect (x = y) (Reqb x y).
Proof. unfold Reqb. destruct (Req_EM_T x y); constructor; auto. Qed.
Lemma Reqb_refl x : Reqb x x = true.
Proof. destruct (Reqb_spec x x); auto; lra. Qed.

Lemma np_mean_tab n f : np_mean RNum (tab n f) = rsum n f / INR n.
Proof. unfold np_mean. rewrite np_sum_tab, tab_length, nofnat_INR. reflexivity. Qed.

Lemma same_shape_tab2 {A B} n m (f : nat -> nat -> A) (g : nat -> nat -> B) :
  same_shape (tab2 n m f) (tab2 n m g) = true.
Proof.
  unfold same_shape, tab2. rewrite !tab_length, Nat.eqb_refl. simpl.
  unfold tab at 1 3. rewrite combine_map_same. apply forallb_forall.
  intros p Hp. apply in_map_iff in Hp. destruct Hp as (a & <- & _). simpl.
  rewrite !tab_length. apply Nat.eqb_refl.
Qed.

Lemma tab2_ext {A} n m (f g : nat -> nat -> A) :
  (forall i j, (i < n)%nat -> (j < m)%nat -> f i j = g i j) -> tab2 n m f = tab2 n m g.
Proof. intros. apply tab_ext; intros. apply tab_ext; auto. Qed.

Lemma tab2_map {A B} n m (f : nat -> nat -> A) (h : A -> B) :
  map (map h) (tab2 n m f) = tab2 n m (fun i j => h (f i j)).
Proof. unfold tab2. rewrite tab_map. apply tab_ext; intros. apply tab_map. Qed.

Lemma tab2_map2 {A B C} n m (f : nat -> nat -> A) (g : nat -> nat -> B) (h : A -> B -> C) :
  map2 (map2 h) (tab2 n m f) (tab2 n m g) = tab2 n m (fun i j => h (f i j) (g i j)).
Proof. unfold tab2. rewrite tab_map2. apply tab_ext; intros. apply tab_map2. Qed.

Lemma row_sums_tab2 n m f : row_sums RNum (tab2 n m f) = tab n (fun i => rsum m (f i)).
Proof. unfold row_sums, tab2. rewrite tab_map. apply tab_ext; intros. apply np_sum_tab. Qed.
