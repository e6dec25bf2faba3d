(** The XNum model on finite inputs, continued: energy distance, centred matrices, partial distance covariance and
    correlation. *)
From Coq Require Import Reals Lra Lia List Arith Bool ZArith Permutation.
From Verif Require Import Num Numpy MUtils MDistances MInternals MDcor MPartial MEnergy Sums Spec Centering Tab Samples Api
  RefDist RefDcor RefApi RefCenter RefEnergy PEnergy PPartial Transfer.
Import ListNotations.
Local Open Scope monad_scope.
Local Open Scope R_scope.

Section More.
  Context (E : Env xR) (HE : valid_xenv E).
  Let EN : e_num E = XNum := vx_num E HE.
  Let ER := real_env E.
  Let HR : valid_env ER := real_env_valid E HE.
  Notation F2 := (map (map Fin)).

  Lemma fin_flat (d : list (list R)) : forall k, 
    get_flat_upper_matrix (F2 d) k = map Fin (get_flat_upper_matrix d k).
  Proof.
    intros k. unfold get_flat_upper_matrix. rewrite map_length, concat_map. f_equal. generalize 0%nat.
    induction d as [|r d IH]; intros s; cbn [map length seq]; unfold map2; cbn [combine map]; auto.
    f_equal; [cbn [fst snd]; rewrite skipn_map; reflexivity|]. apply IH.
  Qed.

  Lemma tab2_concat_nonempty {A} n m (f : nat -> nat -> A) : (1 <= n)%nat -> (1 <= m)%nat -> concat (tab2 n m f) <> [].
  Proof. intros Hn Hm. destruct n as [|n]; [lia|]. destruct m as [|m]; [lia|]. unfold tab2, tab. cbn. discriminate. Qed.

  Lemma fin_energy x y n m p e es : two_samples n m p x y -> enough es n m -> 0 < e ->
    outcome (energy_distance E (fin x) (fin y) (Fin e) None es) = rmap Fin (outcome (energy_distance ER x y e None es)).
  Proof.
    intros H2 Hen He. pose proof H2 as (Wx & Wy & Sx & Sy & Cx & Cy). pose proof HR as [RN _ _].
    assert (Hen' : (1 <= n)%nat /\ (1 <= m)%nat) by (unfold enough in Hen; destruct (to_estimation es) as [[]|]; lia).
    assert (H : energy_distance E (fin x) (fin y) (Fin e) None es = mmap Fin (energy_distance ER x y e None es)).
    { unfold energy_distance. apply (bind_map (fun u : unit => u)).
      { unfold check_valid_energy_exponent, exponent_in_range. rewrite EN. cbn [nltb nzero nofZ XNum].
        rewrite !fin_ltb. change (nltb (e_num ER)) with Rltb. change (nzero (e_num ER)) with 0. change (nofZ (e_num ER) 2) with 2.
        destruct (_ && _)%bool; reflexivity. }
      intros _ _. apply (bind_map F2); [apply lift_map, (fin_pairwise E HE e He x None)|]. intros dxx Hxx.
      apply (bind_map F2); [apply lift_map, (fin_pairwise E HE e He y None)|]. intros dyy Hyy.
      apply (bind_map F2); [apply lift_map, (fin_pairwise E HE e He x (Some y))|]. intros dxy Hxy.
      cbn [lift snd] in *.
      rewrite (pairwise_distances_one ER RN x e Wx He) in Hxx. injection Hxx as Hxx.
      rewrite (pairwise_distances_one ER RN y e Wy He) in Hyy. injection Hyy as Hyy.
      destruct (cross_ok ER HR x y n m p e H2 He) as (d & Hd & Pd). rewrite Hd in Hxy. injection Hxy as ->.
      assert (Nxy : concat dxy <> []).
      { intros Hnil. rewrite Hnil in Pd. apply Permutation_nil in Pd. revert Pd. apply tab2_concat_nonempty; lia. }
      apply lift_map. unfold energy_distance_from_distance_matrices.
      apply (rbind_map (fun z : estimation_stat => z)); [destruct (to_estimation es); reflexivity|].
      intros st Hst. unfold enough in Hen. rewrite Hst in Hen. cbn [rmap]. f_equal.
      unfold apply_average. rewrite EN, <- concat_map, (fin_mean _ Nxy).
      assert (Nf : forall k (f : nat -> nat -> R), (2 <= k)%nat -> get_flat_upper_matrix (tab2 k k f) 1 <> []).
      { intros k f Hk Hnil. destruct k as [|[|k]]; [lia|lia|].
        unfold get_flat_upper_matrix, tab2, tab, map2 in Hnil. cbn in Hnil. discriminate. }
      destruct st.
      - rewrite !fin_flat, <- Hxx, <- Hyy, !fin_mean by (apply Nf; lia). reflexivity.
      - rewrite <- !concat_map, <- Hxx, <- Hyy, !fin_mean by (apply tab2_concat_nonempty; lia). reflexivity. }
    rewrite H. reflexivity.
  Qed.

  (** *** Centred matrices and products *)

  Lemma fin_sub_cols v d : sub_cols E (map Fin v) (F2 d) = F2 (sub_cols ER v d).
  Proof. unfold sub_cols. rewrite EN, !map_map. apply map_ext. intros r. apply (fin_map2 (nsub XNum) Rminus). reflexivity. Qed.
  Lemma fin_sub_rows v : forall d, sub_rows E (map Fin v) (F2 d) = F2 (sub_rows ER v d).
  Proof.
    unfold sub_rows, map2. rewrite EN. induction v as [|s v IH]; intros [|r d]; cbn [map combine]; auto.
    f_equal; [|apply IH]. cbn [fst snd]. rewrite !map_map. reflexivity.
  Qed.
  Lemma fin_add_all t d : add_all E (Fin t) (F2 d) = F2 (add_all ER t d).
  Proof. unfold add_all. rewrite EN, !map_map. apply map_ext. intros r. rewrite !map_map. reflexivity. Qed.
  Lemma fin_zero_diag d : zero_diag E (F2 d) = F2 (zero_diag ER d).
  Proof.
    unfold zero_diag, map2. rewrite EN, map_length. generalize 0%nat. induction d as [|r d IH]; intros s; cbn [length seq map combine]; auto.
    f_equal; [|apply IH]. cbn [fst snd]. apply (upd_map Fin).
  Qed.

  Lemma u_centered_self {T} (G : Env T) a : deref (u_centered G [(true, a)] 0%nat (Some 0%nat)) =
    if square a then
      let dim := Z.of_nat (length a) in
      let (axis_sum, total_sum) := symmetric_matrix_sums G a in
      let N := e_num G in
      Ok (zero_diag G (add_all G (ndiv N total_sum (nofZ N ((dim - 1) * (dim - 2))))
           (sub_rows G (map (fun s => ndiv N s (nofZ N (dim - 2))) axis_sum)
           (sub_cols G (map (fun s => ndiv N s (nofZ N (dim - 2))) axis_sum) a))))
    else Err ValueError.
  Proof.
    unfold u_centered, float_copy_to_out, deref. cbn [nth_error of_option rbind Nat.eqb].
    destruct (square a); [|reflexivity]. destruct (symmetric_matrix_sums G a). reflexivity.
  Qed.

  Lemma fin_u_matrix x e : wf x -> (3 <= shape0 x)%nat -> 0 < e ->
    u_distance_matrix E (fin x) (Fin e) = mmap F2 (u_distance_matrix ER x e).
  Proof.
    intros Wx Hn He. pose proof HR as [RN _ _]. unfold u_distance_matrix, distance_matrix_generic.
    apply (bind_map (fun u : unit => u)); [rewrite (fin_check E HE); unfold ER; destruct (check_valid_dcov_exponent (real_env E) e) as [w [u|]]; reflexivity|].
    intros _ _. apply (bind_map F2); [apply lift_map, (fin_pairwise E HE e He x None)|].
    intros d Hd. cbn [lift snd] in Hd. rewrite (pairwise_distances_one ER RN x e Wx He) in Hd. injection Hd as Hd.
    assert (Ld : length d = shape0 x) by (rewrite <- Hd; apply tab2_length).
    apply lift_map. rewrite !u_centered_self. 
    assert (Hsq : square (F2 d) = square d).
    { unfold square. rewrite map_length. generalize (length d). intros k. clear. induction d as [|r d IH]; cbn [map forallb]; auto.
      rewrite map_length, IH. reflexivity. }
    rewrite Hsq. destruct (square d); [|reflexivity]. rewrite (fin_sums E HE). fold ER. destruct (symmetric_matrix_sums ER d) as [ax tot].
    cbn [fst snd rmap]. f_equal. rewrite EN, map_length.
    rewrite (map_maps Fin Fin (fun s => s / IZR (Z.of_nat (length d) - 2))) by
      (intros; cbn [ndiv nofZ XNum]; apply fin_div, not_0_IZR; lia).
    cbn [ndiv nofZ XNum]. rewrite fin_div by (apply not_0_IZR; nia).
    rewrite fin_sub_cols, fin_sub_rows, fin_add_all, fin_zero_diag. reflexivity.
  Qed.

  Lemma fin_same_shape (a b : list (list R)) : same_shape (F2 a) (F2 b) = same_shape a b.
  Proof.
    unfold same_shape. rewrite !map_length. f_equal. revert b.
    induction a as [|r a IH]; intros [|q b]; cbn [map combine forallb]; auto. cbn [fst snd]. rewrite !map_length, IH. reflexivity.
  Qed.
  Lemma fin_map2_2 (f : xR -> xR -> xR) g : (forall u v, f (Fin u) (Fin v) = Fin (g u v)) ->
    forall a b, map2 (map2 f) (F2 a) (F2 b) = F2 (map2 (map2 g) a b).
  Proof.
    intros H. unfold map2 at 1 3. induction a as [|r a IH]; intros [|q b]; cbn [map combine]; auto.
    f_equal; [|apply IH]. cbn [fst snd]. apply fin_map2, H.
  Qed.
  Lemma fin_bcast {A B C A' B' C'} (ha : A -> A') (hb : B -> B') (hc : C -> C') (f : A -> B -> res C) (g : A' -> B' -> res C') :
    (forall u v, g (ha u) (hb v) = rmap hc (f u v)) ->
    forall a b, bcast_axis g (map ha a) (map hb b) = rmap (map hc) (bcast_axis f a b).
  Proof.
    intros H.
    assert (Hm : forall {X Y Z W} (p : X -> res Y) (q : Z -> res W) (hx : X -> Z) (hy : Y -> W), (forall u, q (hx u) = rmap hy (p u)) ->
      forall l, mapM q (map hx l) = rmap (map hy) (mapM p l)).
    { intros X Y Z W p q hx hy Hp l. induction l as [|u l IH]; cbn; auto. rewrite Hp, IH. destruct (p u); cbn; auto. destruct (mapM p l); reflexivity. }
    assert (Hc : forall a b, combine (map ha a) (map hb b) = map (fun p => (ha (fst p), hb (snd p))) (combine a b)).
    { induction a as [|u a IH]; intros [|v b]; cbn; auto. f_equal. apply IH. }
    intros a b. unfold bcast_axis. rewrite !map_length. destruct (Nat.eqb_spec (length a) (length b)) as [Hl|Hl].
    - rewrite Hc. apply Hm. intros [u v]. apply H.
    - destruct a as [|u [|u' a]], b as [|v [|v' b]]; cbn [map]; try reflexivity; try (cbn in Hl; lia).
      + apply (Hm _ _ _ _ (f u) (g (ha u)) hb hc (H u) (v :: v' :: b)).
      + apply (Hm _ _ _ _ (fun w => f w v) (fun w => g w (hb v)) ha hc (fun w => H w v) (u :: u' :: a)).
  Qed.
  Lemma fin_elt_op (f : xR -> xR -> xR) g : (forall u v, f (Fin u) (Fin v) = Fin (g u v)) ->
    forall a b, elt_op f (F2 a) (F2 b) = rmap F2 (elt_op g a b).
  Proof.
    intros H a b. unfold elt_op. rewrite fin_same_shape. destruct (same_shape a b).
    - cbn [rmap]. f_equal. apply fin_map2_2, H.
    - apply (fin_bcast (map Fin) (map Fin) (map Fin)). intros u v. apply fin_bcast. intros. rewrite H. reflexivity.
  Qed.
  Lemma mapM_length {A B} (f : A -> res B) l r : mapM f l = Ok r -> length r = length l.
  Proof.
    revert r. induction l as [|a l IH]; cbn; intros r.
    - intros [= <-]. reflexivity.
    - destruct (f a); cbn; [|discriminate]. destruct (mapM f l) eqn:H; cbn; [|discriminate]. intros [= <-]. cbn. f_equal. auto.
  Qed.
  Lemma elt_op_length {A B C} (f : A -> B -> C) a b r : elt_op f a b = Ok r -> (2 <= length a)%nat -> length r = length a.
  Proof.
    unfold elt_op. destruct (same_shape a b) eqn:Hs; intros H Ha.
    - injection H as <-. unfold map2 at 1. rewrite map_length, combine_length.
      unfold same_shape in Hs. apply andb_prop in Hs as [Hs _]. apply Nat.eqb_eq in Hs. lia.
    - unfold bcast_axis at 1 in H. destruct (Nat.eqb_spec (length a) (length b)) as [Hl|Hl].
      + apply mapM_length in H. rewrite H, combine_length. lia.
      + destruct a as [|u [|u' a]]; cbn in Ha; try lia. destruct b as [|v [|v' b]]; try discriminate. apply mapM_length in H. exact H.
  Qed.
  Lemma fin_u_product a b : (4 <= length a)%nat -> u_product E (F2 a) (F2 b) = rmap Fin (u_product ER a b).
  Proof.
    intros Hn. unfold u_product, elt_product. rewrite map_length, EN.
    rewrite (fin_elt_op (nmul XNum) Rmult) by reflexivity. change (nmul (e_num ER)) with Rmult. destruct (elt_op Rmult a b) as [p|]; [|reflexivity].
    cbn [rbind rmap]. f_equal. rewrite <- concat_map, fin_sum. cbn [ndiv nofZ XNum]. apply fin_div, not_0_IZR. nia.
  Qed.

  Lemma outcome_u x : wf x -> (3 <= shape0 x)%nat -> forall d, snd (u_distance_matrix ER x 1) = Ok d ->
    length d = shape0 x.
  Proof.
    intros Wx Hn d Hd. pose proof (dmg_u ER x (shape0 x) 1 HR Wx eq_refl Hn ltac:(lra)) as H.
    unfold outcome in H. rewrite Hd in H. injection H as ->. apply tab2_length.
  Qed.

  Lemma fin_partial_cov x y z n : triple n x y z ->
    partial_distance_covariance E (fin x) (fin y) (fin z) = mmap Fin (partial_distance_covariance ER x y z).
  Proof.
    intros (Wx & Wy & Wz & Sx & Sy & Sz & Hn). unfold partial_distance_covariance. rewrite EN. cbn [nunit XNum].
    change (nunit (e_num ER)) with 1.
    apply (bind_map F2); [apply fin_u_matrix; auto; lra || lia|]. intros a Ha.
    apply (bind_map F2); [apply fin_u_matrix; auto; lra || lia|]. intros b Hb.
    apply (bind_map F2); [apply fin_u_matrix; auto; lra || lia|]. intros c Hc.
    apply outcome_u in Ha, Hb, Hc; auto; try lia.
    unfold u_complementary_projection, u_projection. rewrite fin_u_product by lia.
    destruct (u_product ER c c) as [d|] eqn:Hd; cbn [rmap rbind]; [|reflexivity]. rewrite !bind_ok.
    rewrite EN. cbn [neqb nzero XNum xeqb]. change (neqb (e_num ER)) with Reqb. change (nzero (e_num ER)) with 0.
    assert (Hp : forall v, length v = n ->
      (let? p := if Reqb d 0 then Ok (map (map (fun _ => Fin 0)) (F2 c))
                 else let? ac := u_product E (F2 v) (F2 c) in
                      Ok (map (map (fun w => nmul XNum (ndiv XNum ac (Fin d)) w)) (F2 c)) in
       elt_op (nsub XNum) (F2 v) p)
      = rmap F2 (let? p := if Reqb d 0 then Ok (map (map (fun _ => 0)) c)
                 else let? ac := u_product ER v c in
                      Ok (map (map (fun w => nmul (e_num ER) (ndiv (e_num ER) ac d) w)) c) in
       elt_op (nsub (e_num ER)) v p)).
    { intros v Lv. apply (rbind_map F2).
      - destruct (Reqb_spec d 0).
        + cbn [rmap]. f_equal. rewrite !map_map. apply map_ext. intros r. rewrite !map_map. reflexivity.
        + apply (rbind_map Fin); [apply fin_u_product; lia|]. intros ac _. cbn [rmap]. f_equal. rewrite !map_map. apply map_ext.
          intros r. rewrite !map_map. apply map_ext. intros w. cbn [ndiv XNum]. rewrite fin_div by auto. reflexivity.
      - intros p _. apply fin_elt_op. reflexivity. }
    apply (bind_map F2); [apply lift_map, Hp; lia|]. intros pa Hpa.
    apply (bind_map F2); [apply lift_map, Hp; lia|]. intros pb Hpb. apply lift_map, fin_u_product.
    cbn [lift snd] in Hpa.
    destruct (if Reqb d 0 then _ else _) as [p|]; cbn [rbind] in Hpa; [|discriminate].
    apply elt_op_length in Hpa; lia.
  Qed.

  Lemma fin_clipped ab aa bb : 0 <= aa -> 0 <= bb ->
    clipped_correlation E (Fin ab) (Fin aa) (Fin bb) = Fin (clipped_correlation ER ab aa bb).
  Proof.
    intros Ha Hb. unfold clipped_correlation. rewrite EN. cbn [nmul neqb nzero XNum xeqb]. rewrite fin_mul. cbn [xeqb].
    change (neqb (e_num ER)) with Reqb. change (nzero (e_num ER)) with 0. change (nmul (e_num ER)) with Rmult.
    assert (Hc : forall v, clip1 E (Fin v) = Fin (clip1 ER v)).
    { intros v. unfold clip1. rewrite EN. cbn [nltb nofZ XNum]. rewrite !fin_ltb.
      change (nltb (e_num ER)) with Rltb. change (nofZ (e_num ER)) with IZR. destruct (Rltb v (-1)), (Rltb 1 v); reflexivity. }
    destruct (Reqb_spec (aa * bb) 0) as [H|H]; [apply Hc|]. rewrite fin_sqrt_clamp. cbn [ndiv XNum]. rewrite fin_div; [apply Hc|].
    rewrite sqrt_clamp_R. apply Rgt_not_eq, sqrt_lt_R0. assert (0 <= aa * bb) by nra. lra.
  Qed.

  Lemma fin_partial_cor x y z n : triple n x y z ->
    partial_distance_correlation E (fin x) (fin y) (fin z) = mmap Fin (partial_distance_correlation ER x y z).
  Proof.
    intros Ht. pose proof Ht as (Wx & Wy & Wz & Sx & Sy & Sz & Hn). unfold partial_distance_correlation. rewrite EN. cbn [nunit XNum].
    change (nunit (e_num ER)) with 1.
    assert (Hu : forall w, wf w -> shape0 w = n -> forall d, snd (u_distance_matrix ER w 1) = Ok d ->
       d = tab2 n n (ucenter n (distances 1 w))).
    { intros w Ww Sw d Hd. pose proof (dmg_u ER w n 1 HR Ww Sw ltac:(lia) ltac:(lra)) as H. unfold outcome in H.
      rewrite Hd in H. injection H as ->. reflexivity. }
    apply (bind_map F2); [apply fin_u_matrix; auto; lra || lia|]. intros a Ha. apply Hu in Ha; auto. subst a.
    apply (bind_map F2); [apply fin_u_matrix; auto; lra || lia|]. intros b Hb. apply Hu in Hb; auto. subst b.
    apply (bind_map F2); [apply fin_u_matrix; auto; lra || lia|]. intros c Hc. apply Hu in Hc; auto. subst c.
    pose proof HR as [RN _ _].
    do 6 (apply (bind_map Fin); [apply lift_map, fin_u_product; rewrite tab2_length; lia|];
      let v := fresh "v" in let Hv := fresh "Hv" in intros v Hv; cbn [lift snd] in Hv; rewrite u_product_tab in Hv by auto;
      injection Hv as Hv; rewrite <- ip_uprod in Hv; subst v).
    pose proof (ip_nonneg n x Hn). pose proof (ip_nonneg n y Hn). pose proof (ip_nonneg n z Hn).
    rewrite !fin_clipped by auto. unfold ret, mmap. cbn [fst snd rmap]. f_equal. f_equal.
    set (rxy := clipped_correlation ER (ip n x y) _ _). set (rxz := clipped_correlation ER _ _ _). set (ryz := clipped_correlation ER _ _ _).
    cbn [nsub nmul nunit XNum neqb ndiv nzero]. rewrite !fin_mul, !fin_sub, !fin_sqrt_clamp, fin_mul. cbn [xeqb].
    change (neqb (e_num ER)) with Reqb. change (nzero (e_num ER)) with 0.
    change (nmul (e_num ER)) with Rmult. change (nsub (e_num ER)) with Rminus. change (ndiv (e_num ER)) with Rdiv. change (e_num ER) with RNum.
    destruct (Reqb_spec (sqrt_clamp RNum (1 - rxz * rxz) * sqrt_clamp RNum (1 - ryz * ryz)) 0); [reflexivity|]. apply fin_div. auto.
  Qed.
End More.
