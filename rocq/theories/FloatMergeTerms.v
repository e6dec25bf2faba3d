(** The terms of the merge sort algorithm on arbitrary doubles, compared with the run in exact arithmetic. *)
From Coq Require Import Reals Lra Lia List Arith Bool ZArith Psatz Permutation.
From Flocq Require Import Core IEEE754.BinarySingleNaN.
From Verif Require Import Num Numpy MUtils MInternals MMergesort MFloat Sums Tab RefFloat FloatError FloatSum FloatAvl RefMerge FloatAvlErr FloatMerge MergeGeneric.
Import ListNotations.
Local Open Scope R_scope.

Section Terms.
  Context (lib : flib) (GL : good_lib lib).
  Notation NF := (B64Num lib).
  Notation NR := RNum.
  Context (EF : Env b64) (ER : Env R) (HNF : e_num EF = NF) (HNR : e_num ER = NR).
  Context (oob : exn).
  Context (X Y : R) (n : nat) (Hn : (4 <= n)%nat).
  Notation m := (INR n).
  Notation L := (Nat.log2_up n).
  Notation lm := (INR L).
  Context (TOP : R) (Htop : forall K, In K [1; X; Y; X * Y] -> K <= TOP) (HB : 64 * lm * m ^ 2 * TOP <= BB).
  Context (Hlow : forall K, In K [1; X; Y; X * Y] -> bpow radix2 (-900) <= K) (Hfew : few (4 * n + L + 60)) (Hn53 : (2 * Z.of_nat n <= 2 ^ 53)%Z).
  Let HB' : 32 * lm * m ^ 2 * TOP <= BB.
  Proof.
    eapply Rle_trans; [|exact HB]. pose proof (pos_INR L). pose proof (Htop 1 ltac:(cbn; auto)).
    assert (0 <= lm * m ^ 2 * TOP) by (apply Rmult_le_pos; [apply Rmult_le_pos; [lra|apply pow_le, pos_INR]|lra]). lra.
  Qed.
  Notation bnds := (bnds X Y n Hn TOP Htop HB' Hlow).
  Notation low := (low X Y Hlow).
  Notation F := (F n Hfew).

  Lemma bnds64 K : In K [1; X; Y; X * Y] -> 64 * (lm * (m * (m * K))) <= BB.
  Proof.
    intros HK. destruct (low K HK) as (_ & _ & K0). pose proof (lm2 n Hn). pose proof (m4 n Hn). pose proof (Htop K HK).
    eapply Rle_trans; [|exact HB]. replace (64 * (lm * (m * (m * K)))) with (64 * lm * m ^ 2 * K) by ring.
    apply Rmult_le_compat_l; [|auto]. apply Rmult_le_pos; [lra|]. apply pow_le. lra.
  Qed.

  Lemma sized_K K : In K [1; X; Y; X * Y] -> sized n L K.
  Proof.
    intros HK. destruct (low K HK) as (K1 & _ & K0). destruct (bnds K HK) as (B1 & B2 & B3 & B4 & B5 & B6 & B7).
    repeat split; auto. replace (lm * (2 * (m * K))) with (2 * (lm * (m * K))) by ring. lra.
  Qed.

  Lemma data K v : In K [1; X; Y; X * Y] -> Forall (fun v => is_finite v = true) v -> Forall (fun v => Rabs (B2R v) <= K) v -> apxs 0 K v (map B2R v).
  Proof. exact (apxs_data X Y n Hn TOP Htop HB' Hlow K v). Qed.

  (** ** Row sums *)
  Lemma row_sums_apx K (l : list b64) zs : In K [1; X; Y; X * Y] -> apxs 0 K l zs -> length l = n ->
    rel (fun a r => apxs (n + 3) (4 * (m * K)) a r /\ length a = n) (compute_row_sums EF oob l) (compute_row_sums ER oob zs).
  Proof.
    intros HK H Hl. pose proof (apxs_length _ _ _ _ H) as Hz. rewrite Hl in Hz. unfold compute_row_sums. rewrite Hl, <- Hz, HNF, HNR.
    destruct (low K HK) as (K1 & K2 & K0). destruct (bnds K HK) as (B1 & B2 & B3 & B4 & B5 & B6 & B7). pose proof (m4 n Hn) as M4.
    assert (LK : lowM (m * K)) by (apply lowM_mul; auto; lra).
    assert (C : apxs n (m * K) (np_cumsum NF l) (np_cumsum NR zs)).
    { rewrite <- Hl at 1. replace m with (lenR l) by (unfold lenR; rewrite Hl; auto). apply (apxs_cumsum lib 0 K); auto; unfold lenR; rewrite Hl; [lra|apply F; lia]. }
    pose proof (apxs_length _ _ _ _ C) as Lc. assert (Lcl : length (np_cumsum NF l) = n) by (unfold np_cumsum; rewrite cumsum_length; auto). rewrite <- Lc, Lcl.
    eapply rel_bind.
    { instantiate (1 := apx n (m * K)). change (of_option oob (nth_error (np_cumsum NF l) (n - 1))) with (rd oob (np_cumsum NF l) (n - 1)).
      change (of_option oob (nth_error (np_cumsum NR zs) (n - 1))) with (rd oob (np_cumsum NR zs) (n - 1)). apply rel_rd; auto. }
    intros last lastR Hla. cbn [rel]. split.
    - apply (apxs_k (S (n + 2))); [|lia]. replace (4 * (m * K)) with (m * K + 3 * (m * K)) by ring.
      eapply (apxs_map2 (n + 2) (m * K) (n + 2) (3 * (m * K))).
      + intros a b u v Ha Hb. apply apx_add; auto; [apply F; lia|lra].
      + apply (apxs_k 1); [|lia]. apply (apxs_map2_l 0 K); auto. intros i a u Hi Ha. apply in_seq in Hi.
        apply (apx_mul 0 0); auto; [|apply F; lia|lra]. apply apx_ofZ; [lia| |lra|pose proof (bnds 1 (I1 X Y)); lra].
        rewrite INR_IZR_INZ. apply IZR_le. lia.
      + apply (apxs_map n (m * K)); auto. intros a u Ha. replace (3 * (m * K)) with (m * K + 2 * (m * K)) by ring.
        replace (n + 2)%nat with (S (n + 1)) by lia. apply apx_sub; [eapply apx_k; eauto; lia| |apply F; lia|lra].
        apply (apx_k (S (0 + n))); [|lia]. apply apx_mul; auto; [apply apx2|apply F; lia|lra|apply lowM_mul; auto; lra].
    - unfold map2. rewrite map_length, combine_length, !map_length, combine_length, seq_length, Lcl, Hl. lia.
  Qed.

  (** ** The sum of products *)
  Section Products.
    Context (fx fy : list b64) (Lx : length fx = n) (Ly : length fy = n).
    Context (Fx : Forall (fun v => is_finite v = true) fx) (Fy : Forall (fun v => is_finite v = true) fy).
    Context (HX : Forall (fun v => Rabs (B2R v) <= X) fx) (HY : Forall (fun v => Rabs (B2R v) <= Y) fy).
    Notation x := (map B2R fx).
    Notation y := (map B2R fy).
    Definition prod_size : R := (32 * lm + 8) * (m * (m * (X * Y))).

    Lemma aijbij_apx : rel (apx (2 * n + L + 9) prod_size) (compute_aijbij_term EF oob true fx fy) (compute_aijbij_term ER oob true x y).
    Proof.
      pose proof (data X fx (IX X Y) Fx HX) as Ax. pose proof (data Y fy (IY X Y) Fy HY) as Ay.
      pose proof (lm2 n Hn) as L2'. pose proof (m4 n Hn) as M4. pose proof (L2 n Hn) as LL2.
      assert (Lxr : length x = n) by (rewrite map_length; auto). assert (Lyr : length y = n) by (rewrite map_length; auto).
      destruct (low X (IX X Y)) as (X1 & _ & X0). destruct (low Y (IY X Y)) as (Y1 & _ & Y0). destruct (low (X * Y) (IXY X Y)) as (XY1 & _ & XY0).
      destruct (bnds X (IX X Y)) as (A1 & A2 & A3 & A4 & A5 & A6 & A7). destruct (bnds Y (IY X Y)) as (C1 & C2 & C3 & C4 & C5 & C6 & C7).
      destruct (bnds (X * Y) (IXY X Y)) as (B1 & B2 & B3 & B4 & B5 & B6 & B7). pose proof (bnds64 (X * Y) (IXY X Y)) as B8.
      set (q := m * (m * (X * Y))) in *.
      assert (q0 : 0 < q) by (unfold q; apply Rmult_lt_0_compat; lra).
      assert (LQ : lowM q) by (unfold q; apply lowM_mul; [lra|]; apply lowM_mul; auto; lra).
      assert (Axy : apxs 1 (X * Y) (map2 (nmul NF) fx fy) (map2 (nmul NR) x y)).
      { apply (apxs_map2 0 X 0 Y); auto. intros a b u v Ha Hb. apply (apx_mul 0 0); auto; [apply F; lia|lra]. }
      assert (Lxy : length (map2 (nmul NF) fx fy) = n) by (unfold map2; rewrite map_length, combine_length; lia).
      unfold compute_aijbij_term. rewrite Lx, Lxr, HNF, HNR.
      set (xf := fun i => nth i x 0). set (yf := fun i => nth i y 0).
      assert (Tx : x = tab n xf) by (unfold xf; rewrite <- Lxr; apply tab_of_list).
      assert (Ty : y = tab n yf) by (unfold yf; rewrite <- Lyr; apply tab_of_list).
      assert (W : [map (fun _ => nunit NR) y; y; x; map2 (nmul NR) x y] = map (tab n) [(fun _ => 1); yf; xf; (fun i => xf i * yf i)]).
      { rewrite Tx, Ty. rewrite (map_const_tab _ (tab n yf)), tab_length, tab_map2. reflexivity. }
      rewrite W.
      pose proof (fun K HK => sized_K K HK) as SZ.
      eapply rel_bind.
      { apply (rel_weight_sums lib EF ER HNF HNR oob n fy Fy L ltac:(lia) (F (n + 4 + L)%nat ltac:(lia)) yf Ty _ [1; Y; X; X * Y]); auto.
        - repeat (apply Forall_cons; [apply SZ; cbn; auto|]). apply Forall_nil.
        - rewrite <- W. constructor; [|constructor; [|constructor; [|constructor; [exact Axy|constructor]]]].
          + apply apxs_map_const; [rewrite map_length; auto|]. apply (apx_ofZ 1 1 1); [lia|cbn; lra|lra|pose proof (bnds 1 (I1 X Y)); lra].
          + apply (apxs_k 0); auto; lia.
          + apply (apxs_k 0); auto; lia.
        - lia.
        - apply Nat.log2_up_spec. lia. }
      intros ws wsR HW. inversion HW as [|K1 w1 r1 Ks1 ls1 rs1 [W1 l1] HW1]; subst. inversion HW1 as [|K2 w2 r2 Ks2 ls2 rs2 [W2 l2] HW2]; subst.
      inversion HW2 as [|K3 w3 r3 Ks3 ls3 rs3 [W3 l3] HW3]; subst. inversion HW3 as [|K4 w4 r4 Ks4 ls4 rs4 [W4 l4] HW4]; subst. cbn [nth].
      clear HW HW1 HW2 HW3 HW4. rewrite Rmult_1_r in W1.
      assert (S1 : lenR (map2 (nmul NF) fx fy) * (X * Y * (lm * (2 * m))) = 2 * (lm * q)) by (unfold lenR; rewrite Lxy; unfold q; ring).
      assert (S2 : lenR fx * (X * (lm * (2 * (m * Y)))) = 2 * (lm * q)) by (unfold lenR; rewrite Lx; unfold q; ring).
      assert (S3 : lenR fy * (Y * (lm * (2 * (m * X)))) = 2 * (lm * q)) by (unfold lenR; rewrite Ly; unfold q; ring).
      assert (S4 : lenR w4 * (lm * (2 * (m * (X * Y)))) = 2 * (lm * q)) by (unfold lenR; rewrite l4; unfold q; ring).
      assert (P1 : 0 <= lm * (2 * m)) by (apply Rmult_le_pos; lra).
      assert (P2 : 0 <= lm * (2 * (m * Y))) by (apply Rmult_le_pos; lra).
      assert (P3 : 0 <= lm * (2 * (m * X))) by (apply Rmult_le_pos; lra).
      assert (LS : lowM (lm * (2 * (m * (X * Y))))) by (repeat (apply lowM_mul; [lra|]); auto).
      eapply rel_bind; [apply (rel_dot lib GL 1 (n + 2 + L) (X * Y) (lm * (2 * m))); auto; rewrite ?Lxy, ?S1; auto; try lra; [|apply F; lia]|].
      { replace (X * Y * (lm * (2 * m))) with (lm * (2 * (m * (X * Y)))) by ring. auto. }
      rewrite S1, Lxy. intros t1 t1R T1.
      eapply rel_bind; [apply (rel_dot lib GL 0 (n + 2 + L) X (lm * (2 * (m * Y)))); auto; rewrite ?Lx, ?S2; auto; try lra; [|apply F; lia]|].
      { replace (X * (lm * (2 * (m * Y)))) with (lm * (2 * (m * (X * Y)))) by ring. auto. }
      rewrite S2, Lx. intros t2 t2R T2.
      eapply rel_bind; [apply (rel_dot lib GL 0 (n + 2 + L) Y (lm * (2 * (m * X)))); auto; rewrite ?Ly, ?S3; auto; try lra; [|apply F; lia]|].
      { replace (Y * (lm * (2 * (m * X)))) with (lm * (2 * (m * (X * Y)))) by ring. auto. }
      rewrite S3, Ly. intros t3 t3R T3.
      pose proof (apxs_sum lib GL _ _ _ _ W4) as T4. rewrite S4, l4 in T4. specialize (T4 ltac:(lra) (F (n + 2 + L + n)%nat ltac:(lia))).
      (* the sums term *)
      set (k := (2 * n + L + 4)%nat).
      assert (ST : apx (k + 3) (8 * (lm * q)) (nadd NF (nsub NF (nsub NF t1 t2) t3) (np_sum NF w4)) (nadd NR (nsub NR (nsub NR t1R t2R) t3R) (np_sum NR r4))).
      { replace (8 * (lm * q)) with (2 * (lm * q) + 2 * (lm * q) + 2 * (lm * q) + 2 * (lm * q)) by ring.
        replace (k + 3)%nat with (S (S (S k))) by lia.
        apply apx_add; [|eapply apx_k; [exact T4|unfold k; lia]|apply F; unfold k; lia|lra].
        apply apx_sub; [|eapply apx_k; [exact T3|unfold k; lia]|apply F; unfold k; lia|lra].
        apply apx_sub; [eapply apx_k; [exact T1|unfold k; lia]|eapply apx_k; [exact T2|unfold k; lia]|apply F; unfold k; lia|lra]. }
      (* the covariance term *)
      assert (LmX : lowM (m * X)) by (apply lowM_mul; auto; lra). assert (LmY : lowM (m * Y)) by (apply lowM_mul; auto; lra).
      assert (LmXY : lowM (m * (X * Y))) by (apply lowM_mul; auto; lra).
      assert (Bm : m <= BB) by (pose proof (bnds 1 (I1 X Y)); lra).
      assert (Bq : lm * q <= BB) by lra. assert (q2 : 2 * q <= lm * q) by exact B4.
      assert (NX : apxs 1 (m * X) (map (fun v => nmul NF (nofZ NF (Z.of_nat n)) v) fx) (map (fun v => nmul NR (nofZ NR (Z.of_nat n)) v) x)).
      { apply (apxs_map 0 X); auto. intros a u Ha. apply (apx_mul 0 0); auto; [|apply F; lia|lra].
        apply apx_ofZ; [lia| |lra|auto]. rewrite INR_IZR_INZ, Z.abs_eq by lia. apply Rle_refl. }
      assert (LNX : lenR (map (fun v => nmul NF (nofZ NF (Z.of_nat n)) v) fx) = m) by (unfold lenR; rewrite map_length, Lx; auto).
      eapply rel_bind; [apply (rel_dot lib GL 1 0 (m * X) Y); auto; rewrite ?map_length, ?Lx, ?LNX; auto; try lra; [| |apply F; lia]|].
      { replace (m * X * Y) with (m * (X * Y)) by ring. auto. }
      { replace (m * (m * X * Y)) with q by (unfold q; ring). lra. }
      rewrite LNX, map_length, Lx. replace (m * (m * X * Y)) with q by (unfold q; ring). intros nxy nxyR TN.
      assert (SX : apx n (m * X) (np_sum NF fx) (np_sum NR x)).
      { pose proof (apxs_sum lib GL _ _ _ _ Ax) as H. unfold lenR in H. rewrite Lx in H. cbn [Nat.add] in H. apply H; [lra|apply F; lia]. }
      assert (SY : apx n (m * Y) (np_sum NF fy) (np_sum NR y)).
      { pose proof (apxs_sum lib GL _ _ _ _ Ay) as H. unfold lenR in H. rewrite Ly in H. cbn [Nat.add] in H. apply H; [lra|apply F; lia]. }
      assert (MI : apxs (n + 2) (2 * (m * (X * Y)))
        (map2 (fun a b => nadd NF (nmul NF (np_sum NF fx) b) (nmul NF (np_sum NF fy) a)) fx fy)
        (map2 (fun a b => nadd NR (nmul NR (np_sum NR x) b) (nmul NR (np_sum NR y) a)) x y)).
      { apply (apxs_map2 0 X 0 Y); auto. intros a b u v Ha Hb. replace (2 * (m * (X * Y))) with (m * X * Y + m * Y * X) by ring.
        replace (n + 2)%nat with (S (S (n + 0))) by lia.
        assert (E1 : m * X * Y = m * (X * Y)) by ring. assert (E2 : m * Y * X = m * (X * Y)) by ring.
        apply apx_add; [| |apply F; lia|lra].
        - apply apx_mul; auto; [apply F; lia|rewrite E1; lra|rewrite E1; auto].
        - apply apx_mul; auto; [apply F; lia|rewrite E2; lra|rewrite E2; auto]. }
      assert (LM : length (map2 (fun a b => nadd NF (nmul NF (np_sum NF fx) b) (nmul NF (np_sum NF fy) a)) fx fy) = n) by (unfold map2; rewrite map_length, combine_length; lia).
      pose proof (apxs_sum lib GL _ _ _ _ MI) as SM. unfold lenR in SM. rewrite LM in SM.
      replace (m * (2 * (m * (X * Y)))) with (2 * q) in SM by (unfold q; ring). specialize (SM ltac:(lra) (F (n + 2 + n)%nat ltac:(lia))).
      assert (PR : apx (S (n + n)) q (nmul NF (np_sum NF fx) (np_sum NF fy)) (nmul NR (np_sum NR x) (np_sum NR y))).
      { replace q with (m * X * (m * Y)) by (unfold q; ring). apply apx_mul; auto; [apply F; lia|replace (m * X * (m * Y)) with q by (unfold q; ring); lra|replace (m * X * (m * Y)) with q by (unfold q; ring); auto]. }
      set (s := np_sum NF (map2 (fun a b => nadd NF (nmul NF (np_sum NF fx) b) (nmul NF (np_sum NF fy) a)) fx fy)) in *.
      set (sR := np_sum NR (map2 (fun a b => nadd NR (nmul NR (np_sum NR x) b) (nmul NR (np_sum NR y) a)) x y)) in *.
      assert (CT : apx (2 * n + 4) (4 * q) (nadd NF (nsub NF nxy s) (nmul NF (np_sum NF fx) (np_sum NF fy))) (nadd NR (nsub NR nxyR sR) (nmul NR (np_sum NR x) (np_sum NR y)))).
      { replace (4 * q) with (q + 2 * q + q) by ring. replace (2 * n + 4)%nat with (S (S (2 * n + 2))) by lia.
        apply apx_add; [|eapply apx_k; [exact PR|lia]|apply F; lia|lra].
        apply apx_sub; [eapply apx_k; [exact TN|lia]|eapply apx_k; [exact SM|lia]|apply F; lia|lra]. }
      cbn [rel]. unfold prod_size. fold q.
      replace ((32 * lm + 8) * q) with (4 * (8 * (lm * q)) + 2 * (4 * q)) by ring.
      replace (2 * n + L + 9)%nat with (S (S (0 + (k + 3)))) by (unfold k; lia).
      apply apx_sub; [| |apply F; unfold k; lia|lra].
      - apply apx_mul; auto; [apply apx4|apply F; unfold k; lia|lra|]. repeat (apply lowM_mul; [lra|]). auto.
      - apply (apx_k (S (0 + (2 * n + 4)))); [|unfold k; lia]. apply apx_mul; auto; [apply apx2|apply F; lia|lra|]. repeat (apply lowM_mul; [lra|]). auto.
    Qed.
  End Products.

  (** ** All terms *)
  Context (fx fy : list b64) (Lx : length fx = n) (Ly : length fy = n).
  Context (Fx : Forall (fun v => is_finite v = true) fx) (Fy : Forall (fun v => is_finite v = true) fy).
  Context (HX : Forall (fun v => Rabs (B2R v) <= X) fx) (HY : Forall (fun v => Rabs (B2R v) <= Y) fy).
  Notation x := (map B2R fx).
  Notation y := (map B2R fy).
  Context (HP : forall l, is_perm (length l) (e_argsort EF l)) (Hemp : forall k, length (e_empty EF k) = k) (HempR : forall k, length (e_empty ER k) = k).
  Context (Hsx : e_argsort EF fx = e_argsort ER x).
  Context (Hsr : e_argsort EF (take fz fy (e_argsort EF fx)) = e_argsort ER (take 0 y (e_argsort ER x))).

  Definition mterms_apx (t : terms (T:=b64)) (tr : terms (T:=R)) : Prop :=
    apx (2 * n + L + 9) prod_size (t_mean_prod t) (t_mean_prod tr) /\
    apxs (4 + n) (5 * (m * X)) (t_a_axis t) (t_a_axis tr) /\ apx (2 * n + 4) (5 * (m * (m * X))) (t_a_total t) (t_a_total tr) /\
    apxs (4 + n) (5 * (m * Y)) (t_b_axis t) (t_b_axis tr) /\ apx (2 * n + 4) (5 * (m * (m * Y))) (t_b_total t) (t_b_total tr) /\
    length (t_a_axis t) = n /\ length (t_b_axis t) = n.

  Lemma take_of_perm {A} (d : A) (l : list A) idx : is_perm n idx -> length l = n -> take_chk oob l idx = Ok (take d l idx).
  Proof. intros Hp Hl. apply take_chk_ok. intros i Hi. rewrite Hl. eapply is_perm_In; eauto. Qed.
  Lemma take_Forall (P : b64 -> Prop) (l : list b64) idx : is_perm n idx -> length l = n -> Forall P l -> Forall P (take fz l idx).
  Proof.
    intros Hp Hl H. unfold take. rewrite Forall_map. apply Forall_forall. intros i Hi. rewrite Forall_forall in H. apply H, nth_In. rewrite Hl. eapply is_perm_In; eauto.
  Qed.
  Lemma take_map_B2R (l : list b64) idx : map B2R (take fz l idx) = take 0 (map B2R l) idx.
  Proof. unfold take. rewrite map_map. apply map_ext. intros i. change 0 with (B2R (fz : b64)). rewrite (map_nth B2R). reflexivity. Qed.

  Lemma scatter_apx k M idx v r e eR : is_perm n idx -> length v = n -> length e = n -> length eR = n -> apxs k M v r -> apxs k M (scatter e idx v) (scatter eR idx r).
  Proof.
    intros Hp Hv He HeR H. pose proof (apxs_length _ _ _ _ H) as Hr. pose proof (is_perm_length _ _ Hp) as Hi.
    apply (Forall2_nth _ _ _ fz 0); [rewrite !scatter_length; congruence|]. rewrite scatter_length, He. intros i Hin.
    destruct (perm_on_surj n _ i (is_perm_on n idx Hp) Hin) as (j & Hj & <-).
    assert (forall a, In a idx -> (a < n)%nat) as Hb by (intros; eapply is_perm_In; eauto).
    rewrite !scatter_nth; try lia; try (eapply is_perm_NoDup; eauto; fail); [|intros; rewrite HeR; auto|intros; rewrite He; auto].
    clear - H Hj Hv. rewrite <- Hv in Hj. clear Hv. revert j Hj. induction H; intros [|j] Hj; cbn in *; try lia; auto. apply IHForall2. lia.
  Qed.

  Theorem merge_apx k kv : rel mterms_apx (terms_mergesort_impl EF oob true k kv fx fy false) (terms_mergesort_impl ER oob true k kv x y false).
  Proof.
    assert (Lxr : length x = n) by (rewrite map_length; auto). assert (Lyr : length y = n) by (rewrite map_length; auto).
    pose proof (HP fx) as Px. rewrite Lx in Px. unfold terms_mergesort_impl. cbv zeta. rewrite <- Hsx in *.
    set (o := e_argsort EF fx) in *. rewrite !(take_of_perm fz), !(take_of_perm 0) by auto. cbn [rbind].
    set (xs := take fz fx o) in *. set (ys := take fz fy o) in *.
    assert (Lxs : length xs = n) by (unfold xs, take; rewrite map_length; apply is_perm_length; auto).
    assert (Lys : length ys = n) by (unfold ys, take; rewrite map_length; apply is_perm_length; auto).
    assert (Exs : take 0 x o = map B2R xs) by (symmetry; apply take_map_B2R). assert (Eys : take 0 y o = map B2R ys) by (symmetry; apply take_map_B2R).
    rewrite Exs, Eys in *.
    assert (Fxs : Forall (fun v => is_finite v = true) xs) by (apply take_Forall; auto). assert (Fys : Forall (fun v => is_finite v = true) ys) by (apply take_Forall; auto).
    assert (Bxs : Forall (fun v => Rabs (B2R v) <= X) xs) by (apply take_Forall; auto). assert (Bys : Forall (fun v => Rabs (B2R v) <= Y) ys) by (apply take_Forall; auto).
    pose proof (data X xs (IX X Y) Fxs Bxs) as Ax.
    eapply rel_bind; [apply aijbij_apx; auto|]. intros mp mpR Hmp.
    eapply rel_bind; [apply (row_sums_apx X); auto; apply IX|]. intros ai aiR (Ha & La).
    pose proof (HP ys) as Py. rewrite Lys in Py. rewrite <- Hsr. set (o' := e_argsort EF ys) in *.
    rewrite (take_of_perm fz ys) by auto. rewrite (take_of_perm 0) by (auto; rewrite map_length; auto). cbn [rbind].
    assert (Eyo : take 0 (map B2R ys) o' = map B2R (take fz ys o')) by (symmetry; apply take_map_B2R). rewrite Eyo.
    assert (Lyo : length (take fz ys o') = n) by (unfold take; rewrite map_length; apply is_perm_length; auto).
    assert (Ayo : apxs 0 Y (take fz ys o') (map B2R (take fz ys o'))) by (apply data; [apply IY|apply take_Forall; auto|apply take_Forall; auto]).
    eapply rel_bind; [apply (row_sums_apx Y); auto; apply IY|]. intros bi biR (Hb & Lb).
    pose proof (apxs_length _ _ _ _ Hb) as LbR. rewrite Lb in LbR. rewrite Lb, <- LbR, HNF, HNR. cbn [rel].
    pose proof (scatter_apx _ _ o' bi biR (e_empty EF n) (e_empty ER n) Py Lb (Hemp n) (HempR n) Hb) as Hsb.
    set (b := scatter (e_empty EF n) o' bi) in *. set (bR := scatter (e_empty ER n) o' biR) in *.
    assert (Lb' : length b = n) by (unfold b; rewrite scatter_length; auto).
    assert (W : forall K l r, In K [1; X; Y; X * Y] -> apxs (n + 3) (4 * (m * K)) l r -> length l = n ->
      apxs (4 + n) (5 * (m * K)) l r /\ apx (2 * n + 4) (5 * (m * (m * K))) (np_sum NF l) (np_sum NR r)).
    { intros K l r HK H Hl. destruct (low K HK) as (K1 & K2 & K0). destruct (bnds K HK) as (B1 & B2 & B3 & B4 & B5 & B6 & B7). pose proof (m4 n Hn) as M4.
      assert (LK : lowM (m * K)) by (apply lowM_mul; auto; lra).
      split; [eapply apxs_weaken; [exact H|lia|lra|apply lowM_mul; auto; lra|lra]|].
      pose proof (apxs_sum lib GL _ _ _ _ H) as S. unfold lenR in S. rewrite Hl in S. replace (m * (4 * (m * K))) with (4 * (m * (m * K))) in S by ring.
      eapply apx_weaken; [apply S; [lra|apply F; lia]|lia|lra|apply lowM_mul; [lra|]; apply lowM_mul; auto; lra|lra]. }
    red. cbn [t_mean_prod t_a_axis t_a_total t_b_axis t_b_total].
    destruct (W X ai aiR (IX X Y) Ha La) as (W1 & W2). destruct (W Y b bR (IY X Y) Hsb Lb') as (W3 & W4).
    split; [exact Hmp|]. split; [exact W1|]. split; [exact W2|]. split; [exact W3|]. split; [exact W4|]. split; auto.
  Qed.
End Terms.

(** Errors relative to a larger size are those of more roundings relative to a smaller one. *)
Lemma gam_slope k : gam k <= INR k * ulp1 * (1 + gam k).
Proof.
  induction k as [|k IH]; [rewrite gam_0; cbn; lra|]. rewrite S_INR, gam_S. pose proof ulp1_pos. pose proof (gam_nonneg k). pose proof (pos_INR k).
  assert (0 <= INR k * ulp1 * (1 + gam k) * ulp1) by (repeat apply Rmult_le_pos; lra).
  assert (0 <= ulp1 * ulp1 * (1 + gam k)) by (repeat apply Rmult_le_pos; lra). nra.
Qed.
Lemma gam_ratio k j : (INR k + INR j) * gam k <= INR k * gam (k + j).
Proof.
  induction j as [|j IH]; [cbn [INR]; rewrite Nat.add_0_r, Rplus_0_r; lra|].
  rewrite Nat.add_succ_r, S_INR, gam_S. pose proof (gam_slope k). pose proof (gam_mono k (k + j) ltac:(lia)). pose proof ulp1_pos. pose proof (pos_INR k).
  assert (INR k * ulp1 * (1 + gam k) <= INR k * ulp1 * (1 + gam (k + j))) by (apply Rmult_le_compat_l; [apply Rmult_le_pos; lra|lra]). nra.
Qed.
