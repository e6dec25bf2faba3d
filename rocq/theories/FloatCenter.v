(** Centred distance matrices and their products in double precision. *)
From Coq Require Import Reals Lra Lia List Arith Bool ZArith Psatz.
From Flocq Require Import Core IEEE754.BinarySingleNaN.
From Verif Require Import Num Numpy MUtils MDistances MInternals MFloat Sums Spec Centering Tab Samples RefDist RefCenter RefFloat
  FloatApi FloatSum FloatError FloatAccuracy FloatNaive FloatAvlErr FloatAvlForm.
Import ListNotations.
Local Open Scope R_scope.

Lemma apxs_tab k M n f g : (forall i, (i < n)%nat -> apx k M (f i) (g i)) -> apxs k M (tab n f) (tab n g).
Proof.
  intros H. unfold tab. assert (Hl : forall i, In i (seq 0 n) -> apx k M (f i) (g i)) by (intros i Hi; apply in_seq in Hi; apply H; lia).
  induction (seq 0 n) as [|i l IH]; cbn [map]; constructor; [apply Hl; left; auto|]. apply IH. intros. apply Hl. right. auto.
Qed.

Section Center.
  Context (lib : flib) (GL : good_lib lib) (E : Env b64) (EN : e_num E = B64Num lib).
  Notation NF := (B64Num lib).

  Definition fsum (n : nat) (f : nat -> b64) : b64 := np_sum NF (tab n f).
  (** the entries computed by double_centered *)
  Definition fdc (n : nat) (f : nat -> nat -> b64) (i j : nat) : b64 :=
    let mean i := b64_div (fsum n (f i)) (b64_ofZ (Z.of_nat n)) in
    b64_add (b64_sub (b64_sub (f i j) (mean j)) (mean i)) (b64_div (fsum n (fun i => fsum n (f i))) (b64_ofZ (Z.of_nat n ^ 2))).
  (** the entries computed by u_centered *)
  Definition fuc (n : nat) (f : nat -> nat -> b64) (i j : nat) : b64 :=
    let mean i := b64_div (fsum n (f i)) (b64_ofZ (Z.of_nat n - 2)) in
    if (j =? i)%nat then B754_zero false
    else b64_add (b64_sub (b64_sub (f i j) (mean j)) (mean i))
           (b64_div (fsum n (fun i => fsum n (f i))) (b64_ofZ ((Z.of_nat n - 1) * (Z.of_nat n - 2)))).

  Lemma fsums_tab2 n f : symmetric_matrix_sums E (tab2 n n f) = (tab n (fun i => fsum n (f i)), fsum n (fun i => fsum n (f i))).
  Proof. unfold symmetric_matrix_sums, row_sums, tab2. rewrite EN, tab_map. reflexivity. Qed.
  Lemma fsub_cols_tab n m v f : sub_cols E (tab m v) (tab2 n m f) = tab2 n m (fun i j => b64_sub (f i j) (v j)).
  Proof. unfold sub_cols, tab2. rewrite tab_map. apply tab_ext. intros. rewrite EN, tab_map2. reflexivity. Qed.
  Lemma fsub_rows_tab n m v f : sub_rows E (tab n v) (tab2 n m f) = tab2 n m (fun i j => b64_sub (f i j) (v i)).
  Proof. unfold sub_rows, tab2. rewrite tab_map2. apply tab_ext. intros. rewrite EN, tab_map. reflexivity. Qed.
  Lemma fadd_all_tab n m t f : add_all E t (tab2 n m f) = tab2 n m (fun i j => b64_add (f i j) t).
  Proof. unfold add_all. rewrite EN, tab2_map. reflexivity. Qed.
  Lemma fzero_diag_tab n m f : zero_diag E (tab2 n m f) = tab2 n m (fun i j => if (j =? i)%nat then B754_zero false else f i j).
  Proof.
    unfold zero_diag. rewrite tab2_length, seq_tab. unfold tab2. rewrite tab_map2. apply tab_ext. intros i Hi.
    rewrite upd_tab, EN. reflexivity.
  Qed.

  Lemma fdc_tab n f : dc_pure E (tab2 n n f) (tab2 n n f) = tab2 n n (fdc n f).
  Proof.
    unfold dc_pure. rewrite fsums_tab2, tab2_length. cbv zeta. rewrite tab_map, fsub_cols_tab, fsub_rows_tab, fadd_all_tab.
    rewrite EN. reflexivity.
  Qed.
  Lemma fuc_tab n f : uc_pure E (tab2 n n f) (tab2 n n f) = tab2 n n (fuc n f).
  Proof.
    unfold uc_pure. rewrite fsums_tab2, tab2_length. cbv zeta. rewrite tab_map, fsub_cols_tab, fsub_rows_tab, fadd_all_tab, fzero_diag_tab.
    rewrite EN. reflexivity.
  Qed.

  Section Error.
    Context (k n : nat) (D : R) (f : nat -> nat -> b64) (a : nat -> nat -> R).
    Context (Hn : (1 <= n)%nat) (Hn' : INR n <= 2 ^ 18) (HD : bpow radix2 (-900) <= D) (HD' : D <= 2 ^ 300) (Hf : few (k + 2 * n + 6)).
    Context (Ha : forall i j, (i < n)%nat -> (j < n)%nat -> apx k D (f i j) (a i j)) (Sa : symmetric n a).

    Lemma D_pos : 0 < D. Proof. pose proof (bpow_gt_0 radix2 (-900)). lra. Qed.
    Lemma low_ge c : 1 <= c -> lowM (c * D).
    Proof. intros Hc. apply lowM_mul; auto. right. auto. Qed.
    Lemma scaled_le c q : 0 <= c -> c <= 2 ^ q -> (q <= 600)%nat -> c * D <= BB.
    Proof.
      intros H0 Hc Hq. pose proof D_pos. apply Rle_trans with (2 ^ q * 2 ^ 300); [apply Rmult_le_compat; lra|].
      rewrite <- pow_add. apply pow2_le. lia.
    Qed.
    Lemma n_ge1 : 1 <= INR n. Proof. replace 1 with (INR 1) by reflexivity. apply le_INR. auto. Qed.

    Lemma fsum_apx i : (i < n)%nat -> apx (k + n) (INR n * D) (fsum n (f i)) (rsum n (a i)).
    Proof.
      intros Hi. unfold fsum. pose proof n_ge1. rewrite <- np_sum_tab.
      assert (L : length (tab n (f i)) = n) by apply tab_length. rewrite <- L at 1. replace (INR n) with (lenR (tab n (f i))) by (unfold lenR; rewrite L; reflexivity).
      apply apxs_sum; auto.
      - apply apxs_tab. auto.
      - unfold lenR. rewrite L. apply (scaled_le _ 18); auto; [lra|lia].
      - rewrite L. apply (few_le _ _ Hf). lia.
    Qed.
    Lemma ftotal_apx : apx (k + n + n) (INR n * (INR n * D)) (fsum n (fun i => fsum n (f i))) (rsum2 n n a).
    Proof.
      pose proof n_ge1 as N1. unfold fsum at 1. unfold rsum2. rewrite <- (np_sum_tab n).
      assert (L : length (tab n (fun i => fsum n (f i))) = n) by apply tab_length. rewrite <- L at 2.
      replace (INR n) with (lenR (tab n (fun i => fsum n (f i)))) at 1 by (unfold lenR; rewrite L; reflexivity).
      apply apxs_sum; auto.
      - apply apxs_tab. intros i Hi. apply fsum_apx. auto.
      - unfold lenR. rewrite L. rewrite <- Rmult_assoc. apply (scaled_le _ 36); [nra| |lia].
        change 36%nat with (18 + 18)%nat. rewrite pow_add. apply Rmult_le_compat; lra.
      - rewrite L. apply (few_le _ _ Hf). lia.
    Qed.

    Lemma dc_apx i j : (i < n)%nat -> (j < n)%nat -> apx (k + 2 * n + 6) (4 * D) (fdc n f i j) (dcenter n a i j).
    Proof.
      intros Hi Hj. pose proof n_ge1 as N1. pose proof D_pos as D0.
      assert (nz : INR n = IZR (Z.of_nat n)) by apply INR_IZR_INZ.
      assert (nb : INR n <= BB) by (eapply Rle_trans; [exact Hn'|apply pow2_le; lia]).
      assert (M1 : forall i, (i < n)%nat -> apx (k + 2 * n + 3) D (b64_div (fsum n (f i)) (b64_ofZ (Z.of_nat n))) (rsum n (a i) / INR n)).
      { intros l Hl. replace D with (INR n * D / INR n) by (field; lra). apply (apx_k (3 + (k + n))); [|lia].
        apply apx_div; auto using fsum_apx; [lia|apply (few_le _ _ Hf); lia|].
        replace (INR n * D / INR n) with D by (field; lra). right. auto. }
      assert (T1 : apx (k + 2 * n + 3) D (b64_div (fsum n (fun i => fsum n (f i))) (b64_ofZ (Z.of_nat n ^ 2))) (rsum2 n n a / INR n ^ 2)).
      { replace D with (INR n * (INR n * D) / INR n ^ 2) by (field; lra). apply (apx_k (3 + (k + n + n))); [|lia].
        apply apx_div; auto using ftotal_apx; [nia|rewrite nz, pow_IZR; reflexivity| |apply (few_le _ _ Hf); lia|].
        - apply Rle_trans with ((2 ^ 18) ^ 2); [apply pow_incr; lra|]. rewrite <- pow_mult. apply pow2_le. lia.
        - replace (INR n * (INR n * D) / INR n ^ 2) with D by (field; lra). right. auto. }
      assert (Hd : dcenter n a i j = a i j - rsum n (a j) / INR n - rsum n (a i) / INR n + rsum2 n n a / INR n ^ 2).
      { unfold dcenter, mean. rewrite (rsum_ext n (a j) (fun k => a k j)) by (intros; apply Sa; auto). rewrite rsum_div. unfold rsum2.
        change (fun k0 => rsum n (fun l => a k0 l)) with (fun k0 => rsum n (a k0)). change (fun l => a i l) with (a i). field. lra. }
      rewrite Hd. unfold fdc. cbv zeta.
      assert (B2 : 2 * D <= BB) by (apply (scaled_le _ 2); (lia || cbn; lra)).
      assert (B3 : 3 * D <= BB) by (apply (scaled_le _ 2); (lia || cbn; lra)).
      assert (B4 : 4 * D <= BB) by (apply (scaled_le _ 2); (lia || cbn; lra)).
      assert (fw : few (k + 2 * n + 3) /\ few (S (k + 2 * n + 3)) /\ few (S (S (k + 2 * n + 3)))) by (repeat split; apply (few_le _ _ Hf); lia).
      destruct fw as (fw1 & fw2 & fw3).
      pose proof (apx_k _ (k + 2 * n + 3) _ _ _ (Ha i j Hi Hj) ltac:(lia)) as A0.
      pose proof (apx_sub _ _ _ _ _ _ _ A0 (M1 j Hj) fw1 ltac:(lra)) as A1.
      pose proof (apx_sub _ _ _ _ _ _ _ A1 (apx_k _ (S (k + 2 * n + 3)) _ _ _ (M1 i Hi) ltac:(lia)) fw2 ltac:(lra)) as A2.
      pose proof (apx_add _ _ _ _ _ _ _ A2 (apx_k _ (S (S (k + 2 * n + 3))) _ _ _ T1 ltac:(lia)) fw3 ltac:(lra)) as A3.
      replace (D + D + D + D) with (4 * D) in A3 by ring. replace (S (S (S (k + 2 * n + 3)))) with (k + 2 * n + 6)%nat in A3 by lia.
      exact A3.
    Qed.

    Lemma uc_apx i j : (4 <= n)%nat -> (i < n)%nat -> (j < n)%nat -> apx (k + 2 * n + 6) (8 * D) (fuc n f i j) (ucenter n a i j).
    Proof.
      intros H4 Hi Hj. pose proof D_pos as D0. assert (N4 : 4 <= INR n) by (replace 4 with (INR 4) by (cbn; ring); apply le_INR; auto).
      assert (nz : INR n = IZR (Z.of_nat n)) by apply INR_IZR_INZ.
      assert (B8 : 8 * D <= BB) by (apply (scaled_le _ 3); (lia || cbn; lra)).
      unfold fuc, ucenter. rewrite (Nat.eqb_sym j i). destruct (i =? j)%nat; [apply apx_zero; [apply low_ge; lra|exact B8]|].
      assert (i2 : 0 < / (INR n - 2)) by (apply Rinv_0_lt_compat; lra).
      assert (i3 : 0 < / ((INR n - 1) * (INR n - 2))) by (apply Rinv_0_lt_compat; nra).
      assert (B2 : 2 * D <= BB) by (apply (scaled_le _ 2); (lia || cbn; lra)).
      assert (B3 : 3 * D <= BB) by (apply (scaled_le _ 2); (lia || cbn; lra)).
      assert (M1 : forall i, (i < n)%nat -> apx (k + 2 * n + 3) (2 * D) (b64_div (fsum n (f i)) (b64_ofZ (Z.of_nat n - 2))) (rsum n (a i) / (INR n - 2))).
      { intros l Hl.
        assert (Q : D <= INR n * D / (INR n - 2) <= 2 * D).
        { split; apply (Rmult_le_reg_r (INR n - 2)); try lra; unfold Rdiv; rewrite Rmult_assoc, Rinv_l by lra; nra. }
        apply (apx_weaken (3 + (k + n)) _ (INR n * D / (INR n - 2))); [|lia|lra|apply low_ge; lra|exact B2].
        apply apx_div; auto using fsum_apx; [lia|rewrite minus_IZR, <- nz; reflexivity| |apply (few_le _ _ Hf); lia|right; lra].
        eapply Rle_trans; [|apply (pow2_le 18 900); lia]. lra. }
      assert (T1 : apx (k + 2 * n + 3) (3 * D) (b64_div (fsum n (fun i => fsum n (f i))) (b64_ofZ ((Z.of_nat n - 1) * (Z.of_nat n - 2)))) (rsum2 n n a / ((INR n - 1) * (INR n - 2)))).
      { assert (Q : D <= INR n * (INR n * D) / ((INR n - 1) * (INR n - 2)) <= 3 * D).
        { assert (q0 : 0 < (INR n - 1) * (INR n - 2)) by nra.
          assert (q1 : (INR n - 1) * (INR n - 2) <= INR n * INR n) by nra. assert (q2 : INR n * INR n <= 3 * ((INR n - 1) * (INR n - 2))) by nra.
          split; apply (Rmult_le_reg_r ((INR n - 1) * (INR n - 2))); auto; unfold Rdiv; rewrite ?(Rmult_assoc _ (/ _)), ?Rinv_l, ?Rmult_1_r by lra.
          - apply (Rmult_le_compat_r D) in q1; lra.
          - apply (Rmult_le_compat_r D) in q2; lra. }
        apply (apx_weaken (3 + (k + n + n)) _ (INR n * (INR n * D) / ((INR n - 1) * (INR n - 2)))); [|lia|lra|apply low_ge; lra|exact B3].
        apply apx_div; auto using ftotal_apx; [nia|rewrite mult_IZR, !minus_IZR, <- nz; reflexivity| |apply (few_le _ _ Hf); lia|right; lra].
        apply Rle_trans with (2 ^ 18 * 2 ^ 18); [apply Rmult_le_compat; lra|]. rewrite <- pow_add. apply pow2_le. lia. }
      assert (B5 : 5 * D <= BB) by (apply (scaled_le _ 3); (lia || cbn; lra)).
      assert (fw : few (k + 2 * n + 3) /\ few (S (k + 2 * n + 3)) /\ few (S (S (k + 2 * n + 3)))) by (repeat split; apply (few_le _ _ Hf); lia).
      destruct fw as (fw1 & fw2 & fw3).
      pose proof (apx_k _ (k + 2 * n + 3) _ _ _ (Ha i j Hi Hj) ltac:(lia)) as A0.
      pose proof (apx_sub _ _ _ _ _ _ _ A0 (M1 j Hj) fw1 ltac:(lra)) as A1.
      pose proof (apx_sub _ _ _ _ _ _ _ A1 (apx_k _ (S (k + 2 * n + 3)) _ _ _ (M1 i Hi) ltac:(lia)) fw2 ltac:(lra)) as A2.
      pose proof (apx_add _ _ _ _ _ _ _ A2 (apx_k _ (S (S (k + 2 * n + 3))) _ _ _ T1 ltac:(lia)) fw3 ltac:(lra)) as A3.
      replace (D + 2 * D + 2 * D + 3 * D) with (8 * D) in A3 by ring. replace (S (S (S (k + 2 * n + 3)))) with (k + 2 * n + 6)%nat in A3 by lia.
      rewrite (rsum_ext n (a j) (fun k => a k j)) in A3 by (intros; apply Sa; auto). change (fun l => a i l) with (a i).
      match goal with |- apx _ _ _ ?v => match type of A3 with apx _ _ _ ?w => replace v with w; [exact A3|] end end.
      field. lra.
    Qed.
  End Error.

  (** ** Products *)
  Section Product.
    Context (k l n : nat) (D D' : R) (f g : nat -> nat -> b64) (a b : nat -> nat -> R).
    Context (Hn : (1 <= n)%nat) (Hn' : INR n <= 2 ^ 18) (HD : bpow radix2 (-400) <= D <= 2 ^ 300) (HD' : bpow radix2 (-400) <= D' <= 2 ^ 300).
    Context (Hf : few (k + l + n * n + 5)).
    Context (Ha : forall i j, (i < n)%nat -> (j < n)%nat -> apx k D (f i j) (a i j)) (Hb : forall i j, (i < n)%nat -> (j < n)%nat -> apx l D' (g i j) (b i j)).

    Lemma fproduct_sum : apx (k + l + 1 + n * n) (INR (n * n) * (D * D')) (np_sum NF (concat (tab2 n n (fun i j => b64_mul (f i j) (g i j))))) (rsum2 n n (fun i j => a i j * b i j)).
    Proof.
      pose proof (bpow_gt_0 radix2 (-400)) as P4.
      assert (DD : bpow radix2 (-800) <= D * D').
      { change (-800)%Z with (-400 + -400)%Z. rewrite bpow_plus. apply Rmult_le_compat; lra. }
      assert (DB : D * D' <= 2 ^ 600) by (change 600%nat with (300 + 300)%nat; rewrite pow_add; apply Rmult_le_compat; lra).
      assert (LW : lowM (D * D')) by (right; eapply Rle_trans; [|exact DD]; apply bpow_le; lia).
      rewrite <- (np_sum_concat_tab2 n n), !concat_tab_tab.
      set (F := fun i => b64_mul (f (i / n)%nat (i mod n)%nat) (g (i / n)%nat (i mod n)%nat)).
      assert (L : length (tab (n * n) F) = (n * n)%nat) by apply tab_length.
      rewrite <- L at 1 2. change (INR (length (tab (n * n) F))) with (lenR (tab (n * n) F)).
      apply apxs_sum; auto.
      - apply apxs_tab. intros i Hi. assert (Hd : (i / n < n)%nat) by (apply Nat.div_lt_upper_bound; lia). assert (Hm : (i mod n < n)%nat) by (apply Nat.mod_upper_bound; lia).
        replace (k + l + 1)%nat with (S (k + l)) by lia. apply apx_mul; auto.
        + apply (few_le _ _ Hf). lia.
        + eapply Rle_trans; [exact DB|apply pow2_le; lia].
      - unfold lenR. rewrite L, mult_INR. apply Rle_trans with (2 ^ 36 * 2 ^ 600); [|rewrite <- pow_add; apply pow2_le; lia].
        assert (N1 : 0 <= INR n) by apply pos_INR.
        apply Rmult_le_compat; [nra|pose proof (bpow_gt_0 radix2 (-800)); lra| |exact DB].
        change 36%nat with (18 + 18)%nat. rewrite pow_add. apply Rmult_le_compat; lra.
      - rewrite L. apply (few_le _ _ Hf). lia.
    Qed.

    Lemma fmean_product : exists v, mean_product E (tab2 n n f) (tab2 n n g) = Ok v /\
      apx (k + l + n * n + 4) (D * D') v (/ INR n ^ 2 * rsum2 n n (fun i j => a i j * b i j)).
    Proof.
      assert (N1 : 1 <= INR n) by (replace 1 with (INR 1) by reflexivity; apply le_INR; auto).
      pose proof (bpow_gt_0 radix2 (-400)) as P4.
      assert (DD : bpow radix2 (-800) <= D * D').
      { change (-800)%Z with (-400 + -400)%Z. rewrite bpow_plus. apply Rmult_le_compat; lra. }
      eexists. split.
      - unfold mean_product, elt_product, elt_op. rewrite same_shape_tab2. cbn [rbind]. rewrite tab2_map2, EN. reflexivity.
      - unfold np_mean. rewrite concat_length_tab2. unfold nofnat. cbn [ndiv nofZ nmul B64Num].
        replace (/ INR n ^ 2 * rsum2 n n (fun i j => a i j * b i j)) with (rsum2 n n (fun i j => a i j * b i j) / INR (n * n)) by (rewrite mult_INR; field; lra).
        replace (D * D') with (INR (n * n) * (D * D') / INR (n * n)) by (rewrite mult_INR; field; lra).
        replace (k + l + n * n + 4)%nat with (3 + (k + l + 1 + n * n))%nat by lia.
        apply apx_div; auto using fproduct_sum.
        + nia.
        + apply INR_IZR_INZ.
        + rewrite mult_INR. apply Rle_trans with (2 ^ 18 * 2 ^ 18); [apply Rmult_le_compat; lra|]. rewrite <- pow_add. apply pow2_le. lia.
        + apply (few_le _ _ Hf). lia.
        + replace (INR (n * n) * (D * D') / INR (n * n)) with (D * D') by (rewrite mult_INR; field; lra).
          right. eapply Rle_trans; [|exact DD]. apply bpow_le. lia.
    Qed.
  End Product.

  (** ** Centred distance matrices of samples *)
  Lemma fdmg_double n x f : pairwise_distances E x None (b64_ofZ 1) = Ok (tab2 n n f) ->
    outcome (distance_matrix_generic E (double_centered E) x (b64_ofZ 1)) = Ok (tab2 n n (fdc n f)).
  Proof.
    intros H. unfold distance_matrix_generic. rewrite !outcome_bind, check_exponent_F. cbn [rbind outcome lift snd].
    rewrite H. cbn [rbind]. set (m := tab2 n n f).
    erewrite dc_run; [|eapply copy_self; reflexivity|reflexivity|reflexivity|apply (square_mat n), tab2_mat].
    unfold deref. cbn [rbind upd nth_error of_option]. unfold m. rewrite fdc_tab. reflexivity.
  Qed.
  Lemma fdmg_u n x f : pairwise_distances E x None (b64_ofZ 1) = Ok (tab2 n n f) ->
    outcome (u_distance_matrix E x (b64_ofZ 1)) = Ok (tab2 n n (fuc n f)).
  Proof.
    intros H. unfold u_distance_matrix, distance_matrix_generic. rewrite !outcome_bind, check_exponent_F. cbn [rbind outcome lift snd].
    rewrite H. cbn [rbind]. set (m := tab2 n n f).
    erewrite uc_run; [|eapply copy_self; reflexivity|reflexivity|reflexivity|apply (square_mat n), tab2_mat].
    unfold deref. cbn [rbind upd nth_error of_option]. unfold m. rewrite fuc_tab. reflexivity.
  Qed.
End Center.
