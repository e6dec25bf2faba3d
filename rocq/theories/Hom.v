(** The AVL algorithm uses only ring operations on its numbers: a ring homomorphism [h] of number types maps its results. *)
From Coq Require Import Lia List Arith Bool ZArith.
From Verif Require Import Num Numpy MUtils MInternals MMergesort MAvl Transfer.
Import ListNotations.
Local Open Scope monad_scope.

Section Hom.
  Context {A B : Type} (EA : Env A) (EB : Env B) (h : A -> B) (P : A -> Prop).
  Notation NA := (e_num EA).
  Notation NB := (e_num EB).
  Hypothesis H0 : h (nzero NA) = nzero NB.
  Hypothesis H1 : h (nunit NA) = nunit NB.
  Hypothesis Hadd : forall a b, nadd NB (h a) (h b) = h (nadd NA a b).
  Hypothesis Hsub : forall a b, nsub NB (h a) (h b) = h (nsub NA a b).
  Hypothesis Hmul : forall a b, nmul NB (h a) (h b) = h (nmul NA a b).
  Hypothesis Hscal : forall z a, nmul NB (nofZ NB z) (h a) = h (nmul NA (nofZ NA z) a).
  Hypothesis HP0 : P (nzero NA).
  Hypothesis Hsort : forall l, Forall P l -> e_argsort EB (map h l) = e_argsort EA l.
  Hypothesis HeA : forall n, length (e_empty EA n) = n.
  Hypothesis HeB : forall n, length (e_empty EB n) = n.

  Hypothesis SA : sequential NA.
  Hypothesis SB : sequential NB.

  Notation H := (map h).

  Lemma hom_sum l : np_sum NB (H l) = h (np_sum NA l).
  Proof.
    unfold np_sum. rewrite SA, SB. unfold seq_sum. rewrite <- H0. generalize (nzero NA). induction l as [|a l IH]; intros z; cbn; auto. rewrite Hadd. apply IH.
  Qed.
  Lemma hom_cumsum l : np_cumsum NB (H l) = H (np_cumsum NA l).
  Proof.
    unfold np_cumsum. rewrite <- H0. generalize (nzero NA). induction l as [|a l IH]; intros z; cbn; auto. rewrite Hadd, IH. reflexivity.
  Qed.
  Lemma hom_map2 f g l k : (forall a b, f (h a) (h b) = h (g a b)) -> map2 f (H l) (H k) = H (map2 g l k).
  Proof. intros. apply map2_maps. auto. Qed.

  Lemma hom_zget oob s p : zget oob (H s) p = rmap h (zget oob s p).
  Proof.
    unfold zget. rewrite map_length. destruct (pyidx (length s) p); cbn; auto.
    rewrite nth_error_map. apply of_option_map.
  Qed.
  Lemma hom_zset oob s p v : zset oob (H s) p (h v) = rmap H (zset oob s p v).
  Proof. unfold zset. rewrite map_length. destruct (pyidx (length s) p); cbn; auto. rewrite upd_map. reflexivity. Qed.
  Lemma hom_zgets oob s ps : zgets oob (H s) ps = rmap H (zgets oob s ps).
  Proof.
    induction ps as [|p ps IH]; cbn [zgets]; auto.
    apply (rbind_map h); [apply hom_zget|]. intros v _. apply (rbind_map H); [apply IH|]. intros vs _. reflexivity.
  Qed.
  Lemma hom_zsets oob ps : forall s vs, zsets oob (H s) ps (H vs) = rmap H (zsets oob s ps vs).
  Proof.
    induction ps as [|p ps IH]; intros s [|v vs]; cbn [zsets map]; auto.
    apply (rbind_map H); [apply hom_zset|]. intros s' _. apply IH.
  Qed.
  Definition hom2 (p : list A * list A) : list B * list B := (H (fst p), H (snd p)).
  Lemma hom_dyad_loop oob L ps y : forall c s,
    dyad_loop NB oob L ps y (H c) (H s) = rmap hom2 (dyad_loop NA oob L ps y c s).
  Proof.
    induction y as [|yi y IH]; intros [|ci c] s; cbn [dyad_loop map]; auto.
    apply (rbind_map H); [apply hom_zgets|]. intros sb _.
    apply (rbind_map H); [apply hom_zgets|]. intros sa _.
    apply (rbind_map H).
    { rewrite (map_maps h h (fun v => nadd NA v ci)) by auto. apply hom_zsets. }
    intros s' _. apply (rbind_map hom2); [apply IH|]. intros [g s''] _. unfold hom2; cbn. rewrite hom_sum. reflexivity.
  Qed.
  Lemma hom_zeros (sb : list B) (sa : list A) : length sb = length sa ->
    map (fun _ => nzero NB) sb = H (map (fun _ => nzero NA) sa).
  Proof. intros E. rewrite map_map, <- H0. apply map_len_const. auto. Qed.
  Lemma hom_dyad_update oob y c L sb sa ps : length sb = length sa ->
    dyad_update NB oob y (H c) L sb ps = rmap hom2 (dyad_update NA oob y c L sa ps).
  Proof. intros E. unfold dyad_update. rewrite (hom_zeros sb sa) by auto. apply hom_dyad_loop. Qed.

  Lemma hom_partial_sum oob y c ix iy sx sy cs L s0 s0' ps g g' : length s0 = length s0' ->
    partial_sum_2d NB oob false y (H c) ix iy (H sx) (H sy) (h cs) L s0 ps g'
    = rmap hom2 (partial_sum_2d NA oob false y c ix iy sx sy cs L s0' ps g).
  Proof.
    intros Hs. unfold partial_sum_2d.
    apply (rbind_map hom2); [apply hom_dyad_update; auto|]. intros [gam s'] _. unfold hom2; cbn [fst snd rmap].
    do 2 f_equal. rewrite (map_maps h h (fun v => nsub NA cs v)) by auto.
    rewrite <- !H0, (take_map h).
    rewrite (hom_map2 _ (fun a b => nsub NA a (nmul NA (nofZ NA 2) b))) by (intros; rewrite Hscal; auto).
    rewrite (hom_map2 _ (fun a b => nsub NA a (nmul NA (nofZ NA 2) b))) by (intros; rewrite Hscal; auto).
    rewrite (hom_map2 _ (fun a b => nadd NA a (nmul NA (nofZ NA 4) b))) by (intros; rewrite Hscal; auto).
    apply (take_map h).
  Qed.

  Definition hom_args (g : impl_args (T:=A)) (s : list B) : impl_args (T:=B) :=
    mkArgs (H (g_x g)) (H (g_y g)) (g_ix g) (g_iy g) (H (g_vx g)) (H (g_vy g)) (g_iy_reord g)
      (map H (g_c g)) (map H (g_sx_c g)) (map H (g_sy_c g)) (H (g_c_sum g)) (g_l_max g) s
      (g_pos_sums g) (map H (g_gamma g)).

  Lemma take_P l idx : Forall P l -> Forall P (take (nzero NA) l idx).
  Proof.
    intros HP. unfold take. rewrite Forall_map. apply Forall_forall. intros i _.
    destruct (Nat.lt_ge_cases i (length l)) as [Hi|Hi]; [|rewrite nth_overflow; auto].
    rewrite Forall_forall in HP. apply HP, nth_In. auto.
  Qed.

  Lemma hom_args_ok x y : Forall P x -> Forall P y -> get_impl_args EB (H x) (H y)
    = rmap (fun g => hom_args g (e_empty EB (2 ^ (Nat.log2_up (length x) + 1)))) (get_impl_args EA x y).
  Proof.
    intros Px Py. unfold get_impl_args. rewrite !map_length.
    destruct (negb (3 <? length x)); [reflexivity|]. destruct (negb (length x =? length y)); [reflexivity|].
    cbn [rmap]. f_equal. unfold hom_args. cbn [g_x g_y g_ix g_iy g_vx g_vy
      g_iy_reord g_c g_sx_c g_sy_c g_c_sum g_l_max g_pos_sums g_gamma].
    assert (Hexcl : forall l, map2 (nsub NB) (np_cumsum NB (H l)) (H l) = H (map2 (nsub NA) (np_cumsum NA l) l)).
    { intros l. rewrite hom_cumsum. apply hom_map2. auto. }
    rewrite (hom_map2 (nmul NB) (nmul NA)) by auto. rewrite <- H0, <- H1, !(take_map h).
    rewrite !Hsort by auto using take_P. cbn [map].
    rewrite !(take_map h). rewrite (map_map h (fun _ => h (nunit NA))), <- (map_map (fun _ => nunit NA) h).
    rewrite !(take_map h), !Hexcl, !hom_sum.
    rewrite !map_map. reflexivity.
  Qed.

  Lemma hom_partial_sums oob new_y g s0 (is_ : list nat) : forall s s', length s = length s' ->
    partial_sums EB false oob new_y (hom_args g s0) s is_ = rmap (map H) (partial_sums EA false oob new_y g s' is_).
  Proof.
    induction is_ as [|i is_ IH]; intros s s' Hs; cbn [partial_sums]; auto.
    apply (rbind_map hom2).
    - cbn [hom_args g_c g_ix g_iy_reord g_sx_c g_sy_c g_c_sum g_l_max g_pos_sums g_gamma].
      change (@nil B) with (H []). rewrite !(map_nth H), <- H0, (map_nth h). apply hom_partial_sum. auto.
    - intros [gam s1] _. unfold hom2; cbn [fst snd].
      apply (rbind_map (map H)); [|intros rest _; reflexivity].
      apply IH. apply map_length.
  Qed.

  Lemma hom_beta v ix : avl_beta EB (H v) ix = H (avl_beta EA v ix).
  Proof. unfold avl_beta. rewrite hom_cumsum, <- H0, !(take_map h). apply hom_map2. auto. Qed.
  Lemma hom_row_sums x alpha beta : avl_row_sums EB (H x) alpha (H beta) = H (avl_row_sums EA x alpha beta).
  Proof.
    unfold avl_row_sums. rewrite map_length, hom_sum.
    rewrite (map2_maps_r h h (fun a v => nadd NA (np_sum NA x) (nmul NA (nofZ NA (2 * Z.of_nat a - Z.of_nat (length x))) v)))
      by (intros; rewrite Hscal; auto).
    apply hom_map2. intros. rewrite Hscal. auto.
  Qed.
  Lemma hom_total x alpha beta : avl_total EB (H x) alpha (H beta) = h (avl_total EA x alpha beta).
  Proof.
    unfold avl_total.
    rewrite (map2_maps_r h h (fun a v => nmul NA (nofZ NA (Z.of_nat a)) v)) by auto. rewrite !hom_sum, !Hscal. auto.
  Qed.

  Definition hom_terms (t : terms (T:=A)) : terms (T:=B) :=
    mkTerms (h (t_mean_prod t)) (H (t_a_axis t)) (h (t_a_total t)) (H (t_b_axis t)) (h (t_b_total t))
      (option_map h (t_mp_a t)) (option_map h (t_mp_b t)) (t_kind t) (t_vkind t).

  Theorem hom_avl oob k kv x y : Forall P x -> Forall P y ->
    terms_avl_impl EB false oob k kv (H x) (H y) false = rmap hom_terms (terms_avl_impl EA false oob k kv x y false).
  Proof.
    intros Px Py. unfold terms_avl_impl. rewrite hom_args_ok by auto.
    destruct (get_impl_args EA x y) as [g|ex] eqn:Hg; cbn [rmap rbind]; auto.
    assert (Hs : length (g_s g) = 2 ^ (Nat.log2_up (length x) + 1)).
    { unfold get_impl_args in Hg. destruct (negb (3 <? length x)); [discriminate|].
      destruct (negb (length x =? length y)); [discriminate|]. injection Hg as <-. apply HeA. }
    cbn [hom_args g_ix g_iy g_vx g_vy g_iy_reord g_s]. rewrite !hom_beta, !hom_row_sums, !hom_total, ?map_length.
    apply (rbind_map (map H)).
    { apply hom_partial_sums. rewrite Hs. apply HeB. }
    intros gs _. cbn [rmap]. f_equal. unfold hom_terms. cbn [t_mean_prod t_a_axis t_a_total t_b_axis t_b_total t_mp_a t_mp_b t_kind t_vkind option_map].
    change (@nil B) with (H []). rewrite !(map_nth H).
    rewrite !(hom_map2 (nmul NB) (nmul NA)) by auto. rewrite !(hom_map2 (nadd NB) (nadd NA)) by auto.
    rewrite !(hom_map2 (nsub NB) (nsub NA)) by auto. rewrite hom_sum. reflexivity.
  Qed.
End Hom.
