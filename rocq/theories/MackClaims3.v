(** Proofs of C30-C33. *)

From Coq Require Import String QArith Qcanon ZArith List Bool Lia Permutation Sorting.Sorted.
From Verif Require Import Val Frame Triangle A2A Base Mack ListLib QcLib Spec TblFacts ConvFacts TriClaims4 RegFacts AvgFacts
  AvgClaims2 BaseClaims MackFacts MackClaims MackClaims2.
Import ListNotations.
Open Scope list_scope.
Open Scope nat_scope.

Lemma map_seq_inj {A} (g h : nat -> A) a N : map g (seq a N) = map h (seq a N) -> forall i, a <= i < a + N -> g i = h i.
Proof.
  revert a. induction N as [|N IH]; intros a H i Hi; [lia|]. cbn [seq map] in H. injection H as H1 H2.
  destruct (Nat.eq_dec i a) as [->|]; auto. apply (IH (S a)); auto. lia.
Qed.

Lemma combine_seq_gen (l : list Z) : forall k a, k <= List.length l ->
  combine (seq a k) l = map (fun j => (j, nth (j - a) l 0%Z)) (seq a k).
Proof.
  induction l as [|x l IH]; intros k a L; simpl in L; [replace k with 0 by lia; auto|].
  destruct k as [|k]; auto. cbn [seq combine map]. rewrite Nat.sub_diag. f_equal. rewrite IH by lia.
  apply map_ext_in. intros j Hj. apply in_seq in Hj. replace (j - a) with (S (j - S a)) by lia. auto.
Qed.
Lemma combine_seq (l : list Z) k : k <= List.length l -> combine (seq 0 k) l = map (fun j => (j, nth j l 0%Z)) (seq 0 k).
Proof. intro L. rewrite combine_seq_gen by auto. apply map_ext. intro j. rewrite Nat.sub_0_r. auto. Qed.

Lemma qc_sub_nonneg a b : (b <= a)%Qc -> (0 <= a - b)%Qc.
Proof. intro. qlra. Qed.

Section Claims.
  Variables (m : lmat) (n : nat) (C : nat -> nat -> Qc).
  Hypothesis R : regular m n C.
  Hypothesis Pos : positive n C.
  Hypothesis Hn : 3 < n.
  Hypothesis Ev : tail_fits (m_cols m).
  Variable cl : list nat.
  Hypothesis Hcl : clvi m = Ok cl.
  Variable ind : list (list val).
  Variable W : nat -> nat -> Qc.
  Hypothesis Hw : weights ind n W.
  Variable al : nat.
  Variable v : string.
  Variable tail : val.
  Variable k : mack_result.
  Hypothesis K : mack_cl (mkTri m "origin" "dev" v) cl ind al tail = Ok k.

  Let f0 := mf n C W al.
  Let dv := dvv n C W al f0.
  Let lv j := vdiv (dv j) (Fin (D n C W al j)).
  Let dvl := map dv (seq 0 (n - 1)).
  Let lvl := map lv (seq 0 (n - 1)).

  Lemma k_eq : 
    c_ldfs (k_cl k) = fser (m_cols m) n f0 /\
    c_rows (k_cl k) = map (rrow (m_idx m) (m_cols m) n C f0) (seq 0 n) /\
    k_devpvar k = map (fun j => (nth j (m_cols m) 0%Z, dv j)) (seq 0 (n - 1)) /\
    k_ldfvar k = map (fun j => (nth j (m_cols m) 0%Z, lv j)) (seq 0 (n - 1)) /\
    k_proc k = map (procv n C W al dvl) (seq 0 n) /\ k_param k = map (parv n C W al lvl) (seq 0 n) /\
    k_mse k = map (msev n C W al) (seq 0 n) /\
    k_mse_total k = skipsum (map (totv n C W al) (seq 1 (n - 1))).
  Proof.
    destruct Hw as (Wi & Wn & Wc).
    destruct (mack_eq m n C R Hn Pos Ev _ _ Wi Wn Wc al v cl Hcl tail) as (r & _ & _ & E & K').
    rewrite K in K'. injection K' as ->. rewrite E. cbn. repeat split; auto.
  Qed.

  Lemma f0_pos j : (0 < f0 j)%Qc.
  Proof.
    destruct (regular_rmat m n C R) as (Em & So & Sd & Lo & Ld). destruct Hw as (Wi & Wn & Wc).
    unfold f0. apply (mf_pos (m_idx m) (m_cols m)); auto. lia.
  Qed.
  Lemma sq_proj f i j : i < n -> n - 1 - i <= j -> sq n C f i j = projected n C f i j.
  Proof.
    intros Hi L. unfold sq, projected. destruct (Nat.ltb_spec (i + j) n) as [L'|L']; auto.
    replace (n - 1 - i) with j by lia. rewrite Nat.sub_diag, prodf_0. ring.
  Qed.
  Lemma proj_pos i j : i < n -> (0 < projected n C f0 i j)%Qc.
  Proof.
    intro Hi. apply qc_mul_pos; [apply Pos; lia|]. apply prodf_pos. intros. apply f0_pos.
  Qed.
  Lemma proj_S f i j : i < n -> n - 1 - i <= j -> projected n C f i (S j) = (projected n C f i j * f j)%Qc.
  Proof.
    intros Hi L. unfold projected. replace (S j - (n - 1 - i)) with (S (j - (n - 1 - i))) by lia. rewrite prodf_Sr.
    replace (n - 1 - i + (j - (n - 1 - i))) with j by lia. ring.
  Qed.

  Section Fin.
    Variable s : nat -> Qc.
    Hypothesis Hs : forall j, j < n - 1 -> dv j = Fin (s j).

    Lemma row_eq i : i < n ->
      map (fun j => Fin (sq n C f0 i j)) (seq 0 n) = map (fun j => Fin (if j <? n - 1 - i then C i j else projected n C f0 i j)) (seq 0 n).
    Proof.
      intro Hi. apply map_seq_ext. intros j Hj. f_equal. destruct (Nat.ltb_spec j (n - 1 - i)).
      - unfold sq. apply ltb_if. lia.
      - apply sq_proj; auto.
    Qed.

    Lemma proc_fin i : i < n -> procv n C W al dvl i =
      Fin (projected n C f0 i (n - 1) * projected n C f0 i (n - 1)
           * sumf (n - 1 - i) i (fun j => s j / (f0 j * f0 j) / projected n C f0 i j))%Qc.
    Proof.
      intro Hi. unfold procv, process_error_row. destruct (Nat.eqb_spec i 0) as [->|Ni].
      - rewrite sumf_0. cbn. f_equal. ring.
      - fold f0. set (c := fun j => if j <? n - 1 - i then C i j else projected n C f0 i j).
        assert (Er : map (fun j => Fin (sq n C f0 i j)) (seq 0 n) = map (fun j => Fin (c j)) (seq 0 n)) by exact (row_eq i Hi).
        cbv zeta. rewrite Er.
        assert (Ed : dvl = map (fun j => Fin (s j)) (seq 0 (n - 1))).
        { unfold dvl. apply map_seq_ext. intros j Hj. apply Hs. lia. }
        rewrite Ed.
        assert (Cc : forall j, n - 1 - i <= j -> c j = projected n C f0 i j) by (intros j L; unfold c; apply nltb_if; auto).
        assert (Q := pe_from_eq n f0 s c (n - 1 - i)). 
        assert (H1 : forall k, n - 1 - i <= k -> f0 k <> 0%Qc) by (intros; apply qc_pos_neq, f0_pos).
        assert (H2 : forall k, n - 1 - i <= k -> c k <> 0%Qc).
        { intros j L. rewrite Cc by auto. apply qc_pos_neq, proj_pos; auto. }
        assert (H3 : forall k, n - 1 - i <= k -> S k < n -> c (S k) = (c k * f0 k)%Qc).
        { intros j L _. rewrite !Cc by lia. apply proj_S; auto. }
        specialize (Q H1 H2 H3 (n - 1 - (n - i)) (n - i) ltac:(lia) ltac:(lia)).
        assert (E0 : vmul (at1 (map (fun j => Fin (c j)) (seq 0 n)) (n - i - 1)) (at1 (map (fun j => Fin (s j)) (seq 0 (n - 1))) (n - i - 1))
             = Fin (c (n - i)%nat * c (n - i)%nat * sumf (n - 1 - i) (n - i - (n - 1 - i)) (pterm f0 s c))%Qc).
        { rewrite (at1_map (fun j => Fin (c j))), (at1_map (fun j => Fin (s j))) by lia. cbn [vmul]. f_equal.
          replace (n - i - (n - 1 - i)) with 1 by lia. rewrite sumf_Sl, sumf_0. unfold pterm.
          replace (n - i) with (S (n - 1 - i)) by lia. rewrite H3 by lia. replace (S (n - 1 - i) - 1) with (n - 1 - i) by lia.
          assert (A1 := H1 (n - 1 - i) ltac:(lia)). assert (A2 := H2 (n - 1 - i) ltac:(lia)). field. auto. }
        rewrite E0, Q. replace (n - i + (n - 1 - (n - i))) with (n - 1) by lia. rewrite nan0_fin. rewrite Cc by lia.
        replace (n - 1 - (n - 1 - i)) with i by lia. f_equal. f_equal. apply sumf_ext. intros j Hj.
        unfold pterm. rewrite Cc by lia. auto.
    Qed.

    Lemma par_fin (u : nat -> Qc) i : i < n -> (forall j, j < n - 1 -> lv j = Fin (u j)) ->
      parv n C W al lvl i =
      Fin (C i (n - 1 - i)%nat * C i (n - 1 - i)%nat
           * (prodf (n - 1 - i) i (fun j => f0 j * f0 j + u j) - prodf (n - 1 - i) i (fun j => f0 j * f0 j)))%Qc.
    Proof.
      intros Hi Hu. unfold parv, parameter_error_row. destruct (Nat.eqb_spec i 0) as [->|Ni].
      - rewrite !prodf_0. cbn. f_equal. ring.
      - fold f0. set (c := fun j => if j <? n - 1 - i then C i j else projected n C f0 i j).
        assert (Er : map (fun j => Fin (sq n C f0 i j)) (seq 0 n) = map (fun j => Fin (c j)) (seq 0 n)) by exact (row_eq i Hi).
        cbv zeta. rewrite Er.
        assert (Ed : lvl = map (fun j => Fin (u j)) (seq 0 (n - 1))).
        { unfold lvl. apply map_seq_ext. intros j Hj. apply Hu. lia. }
        rewrite Ed.
        assert (Cc : forall j, n - 1 - i <= j -> c j = projected n C f0 i j) by (intros j L; unfold c; apply nltb_if; auto).
        assert (Ca : c (n - 1 - i) = C i (n - 1 - i)).
        { rewrite Cc by lia. unfold projected. rewrite Nat.sub_diag, prodf_0. ring. }
        assert (Q := qe_from_eq n f0 c (n - 1 - i) u).
        assert (H3 : forall k, n - 1 - i <= k -> k < n -> c k = (c (n - 1 - i)%nat * prodf (n - 1 - i) (k - (n - 1 - i)) f0)%Qc).
        { intros j L _. rewrite Ca, Cc by lia. reflexivity. }
        specialize (Q H3 (n - 1 - (n - i)) (n - i) ltac:(lia) ltac:(lia)).
        assert (E0 : vmul (vpow (at1 (map (fun j => Fin (c j)) (seq 0 n)) (n - i - 1)) 2) (at1 (map (fun j => Fin (u j)) (seq 0 (n - 1))) (n - i - 1))
             = Fin (c (n - 1 - i)%nat * c (n - 1 - i)%nat
                * (prodf (n - 1 - i) (n - i - (n - 1 - i)) (fv f0 u) - prodf (n - 1 - i) (n - i - (n - 1 - i)) (ff f0)))%Qc).
        { rewrite (at1_map (fun j => Fin (c j))), (at1_map (fun j => Fin (u j))) by lia. rewrite vpow_fin, qpow2. cbn [vmul]. f_equal.
          replace (n - i - (n - 1 - i)) with 1 by lia. replace (n - i - 1) with (n - 1 - i) by lia.
          rewrite !prodf_Sl, !prodf_0. unfold ff, fv. ring. }
        rewrite E0, Q. replace (n - i + (n - 1 - (n - i))) with (n - 1) by lia. rewrite nan0_fin. rewrite Ca.
        replace (n - 1 - (n - 1 - i)) with i by lia. reflexivity.
    Qed.
  End Fin.

  (** *** The variance estimates, whatever their value (C32). *)
  Let sg := sigma2 n C W al f0.
  Lemma sg_s2 j : s2 n C W al f0 j = sg j.
  Proof. reflexivity. Qed.
  Lemma sg_nonneg j : j < n - 2 -> (0 <= sg j)%Qc.
  Proof.
    intro Hj. destruct Hw as (_ & Wn & _). unfold sg, sigma2. apply qc_div_nonneg; [|apply qn_pos; lia].
    apply sumf_nonneg. intros i Hi. apply qc_mul_nonneg; [|apply qc_sq_nonneg].
    apply qc_mul_nonneg; [apply Wn; lia|]. apply Qclt_le_weak, qpow_pos, Pos. lia.
  Qed.
  Lemma dv_lt j : j < n - 2 -> dv j = Fin (sg j).
  Proof. intro Hj. unfold dv, dvv. rewrite ltb_if by auto. auto. Qed.
  Lemma dv_last : dv (n - 2) = vmin2 (vdiv (Fin (sg (n - 3)%nat * sg (n - 3)%nat)%Qc) (Fin (sg (n - 4)))) (vmin2 (Fin (sg (n - 3))) (Fin (sg (n - 4)))).
  Proof. unfold dv, dvv. rewrite nltb_if by lia. reflexivity. Qed.
  Lemma dv_last_pos : (0 < sg (n - 4)%nat)%Qc ->
    dv (n - 2) = Fin (qmin (sg (n - 3)%nat * sg (n - 3)%nat / sg (n - 4)%nat) (qmin (sg (n - 3)%nat) (sg (n - 4)%nat)))%Qc.
  Proof. intro H. rewrite dv_last. rewrite vdiv_fin by (apply qc_pos_neq; auto). rewrite !vmin2_fin. reflexivity. Qed.
  Lemma last_0 a : (0 < a)%Qc -> vmin2 (vdiv (Fin (a * a)%Qc) (Fin 0%Qc)) (vmin2 (Fin a) (Fin 0%Qc)) = Fin 0%Qc.
  Proof.
    intro H. rewrite vmin2_fin. destruct (qcleb_spec a 0%Qc) as [L|L]; [qlra|].
    assert (X : (0 < a * a)%Qc) by (apply qc_mul_pos; auto). unfold vdiv. change (qsgn 0) with SZero. cbv match.
    assert (E : qsgn (a * a)%Qc = SPos). { unfold qsgn. apply Qcgt_alt in X. rewrite X. auto. }
    rewrite E. reflexivity.
  Qed.
  Lemma dv_last_0 : sg (n - 4) = 0%Qc -> (0 < sg (n - 3)%nat)%Qc -> dv (n - 2) = Fin 0%Qc.
  Proof. intros H H'. rewrite dv_last, H. apply last_0; auto. Qed.
  Lemma dv_last_nan : sg (n - 4) = 0%Qc -> sg (n - 3) = 0%Qc -> dv (n - 2) = NaN.
  Proof. intros H H'. rewrite dv_last, H, H'. reflexivity. Qed.

  (** All variances numeric and non-negative unless the last one is 0/0. *)
  Lemma dv_cases : (sg (n - 4) = 0%Qc /\ sg (n - 3) = 0%Qc /\ dv (n - 2) = NaN) \/
    exists s, (forall j, j < n - 1 -> dv j = Fin (s j)) /\ forall j, (0 <= s j)%Qc.
  Proof.
    assert (N4 := sg_nonneg (n - 4) ltac:(lia)). assert (N3 := sg_nonneg (n - 3) ltac:(lia)).
    assert (G : forall x, (0 <= x)%Qc -> dv (n - 2) = Fin x ->
      exists s, (forall j, j < n - 1 -> dv j = Fin (s j)) /\ forall j, (0 <= s j)%Qc).
    { intros x Hx E. exists (fun j => if j <? n - 2 then sg j else x). split.
      - intros j Hj. destruct (Nat.ltb_spec j (n - 2)) as [L|L]; [apply dv_lt; auto|].
        replace j with (n - 2) by lia. auto.
      - intro j. destruct (Nat.ltb_spec j (n - 2)) as [L|L]; auto. apply sg_nonneg; auto. }
    destruct (qc_lt_le_dec 0%Qc (sg (n - 4))) as [L|L].
    - right. eapply G; [|apply dv_last_pos; auto]. unfold qmin.
      assert (0 <= sg (n - 3)%nat * sg (n - 3)%nat / sg (n - 4)%nat)%Qc by (apply qc_div_nonneg; auto; apply qc_mul_nonneg; auto).
      repeat (destruct (qcleb _ _)); auto.
    - assert (E : sg (n - 4) = 0%Qc) by (apply Qcle_antisym; auto).
      destruct (qc_lt_le_dec 0%Qc (sg (n - 3))) as [L'|L'].
      + right. eapply G; [|apply dv_last_0; auto]. apply Qcle_refl.
      + left. assert (E' : sg (n - 3) = 0%Qc) by (apply Qcle_antisym; auto). repeat split; auto. apply dv_last_nan; auto.
  Qed.

  Lemma D_p j : j < n - 1 -> (0 < D n C W al j)%Qc.
  Proof.
    destruct (regular_rmat m n C R) as (Em & So & Sd & Lo & Ld). destruct Hw as (Wi & Wn & Wc).
    apply (D_pos (m_idx m) (m_cols m)); auto. lia.
  Qed.
  Lemma lv_fin s : (forall j, j < n - 1 -> dv j = Fin (s j)) -> forall j, j < n - 1 -> lv j = Fin (s j / D n C W al j)%Qc.
  Proof. intros H j Hj. unfold lv. rewrite H by auto. apply vdiv_fin. apply qc_pos_neq, D_p; auto. Qed.

  Lemma last_len {A} (l : list A) d : last l d = nth (length l - 1) l d.
  Proof.
    induction l as [|x l IH]; auto. cbn [last length]. destruct l as [|y l]; auto. rewrite IH. cbn [length].
    replace (S (S (length l)) - 1) with (S (S (length l) - 1)) by lia. reflexivity.
  Qed.

  Lemma nan_rows : dv (n - 2) = NaN -> forall i, i < n -> procv n C W al dvl i = Fin 0%Qc /\ parv n C W al lvl i = Fin 0%Qc.
  Proof.
    intros H i Hi. unfold procv, parv, process_error_row, parameter_error_row.
    destruct (Nat.eqb_spec i 0) as [->|Ni]; [split; reflexivity|]. cbv zeta.
    assert (A1 : at1 dvl (n - 2) = NaN) by (unfold dvl; rewrite at1_map by lia; auto).
    assert (A2 : at1 lvl (n - 2) = NaN) by (unfold lvl; rewrite at1_map by lia; unfold lv; rewrite H; auto).
    destruct (n - 1 - (n - i)) as [|c] eqn:E.
    - replace (n - i - 1) with (n - 2) by lia. rewrite A1, A2. cbn [pe_from qe_from].
      rewrite !vmul_nan_r. split; reflexivity.
    - rewrite pe_from_last, qe_from_last; [split; reflexivity| |].
      + replace (n - i + c) with (n - 2) by lia. auto.
      + replace (n - i + c) with (n - 2) by lia. auto.
  Qed.

  Lemma msev_fin i : i < n -> exists p q, procv n C W al dvl i = Fin p /\ parv n C W al lvl i = Fin q /\ msev n C W al i = Fin (p + q)%Qc /\
    (0 <= p)%Qc /\ (0 <= q)%Qc /\ (i = 0 -> p = 0%Qc /\ q = 0%Qc).
  Proof.
    intro Hi. destruct dv_cases as [(_ & _ & E)|(s & Es & Ns)].
    - destruct (nan_rows E i Hi) as [E1 E2]. exists 0%Qc, 0%Qc. repeat split; auto using Qcle_refl.
      unfold msev. fold f0. change (vadd (procv n C W al dvl i) (parv n C W al lvl i) = Fin (0 + 0)%Qc). rewrite E1, E2. reflexivity.
    - eexists. eexists. split; [apply (proc_fin s Es); auto|].
      split; [apply (par_fin (fun j => s j / D n C W al j)%Qc i Hi (lv_fin s Es))|].
      split.
      { change (msev n C W al i) with (vadd (procv n C W al dvl i) (parv n C W al lvl i)).
        rewrite (proc_fin s Es) by auto. rewrite (par_fin (fun j => s j / D n C W al j)%Qc i Hi (lv_fin s Es)). reflexivity. }
      split; [|split].
      + apply qc_mul_nonneg; [apply qc_sq_nonneg|]. apply sumf_nonneg. intros j Hj.
        apply qc_div_nonneg; [|apply proj_pos; auto]. apply qc_div_nonneg; auto. apply qc_mul_pos; apply f0_pos.
      + apply qc_mul_nonneg; [apply qc_sq_nonneg|].
        assert (G : forall N a, a + N <= n - 1 -> (prodf a N (fun j => f0 j * f0 j) <= prodf a N (fun j => f0 j * f0 j + s j / D n C W al j))%Qc /\
           (0 <= prodf a N (fun j => f0 j * f0 j))%Qc).
        { induction N as [|N IH]; intros a L; [rewrite !prodf_0; split; [apply Qcle_refl|apply Qclt_le_weak, qc_0_lt_1]|].
          rewrite !prodf_Sl. destruct (IH (S a) ltac:(lia)) as [I1 I2].
          assert (P1 := f0_pos a). assert (P2 : (0 <= s a / D n C W al a)%Qc) by (apply qc_div_nonneg; auto; apply D_p; lia).
          set (x := prodf (S a) N (fun j => f0 j * f0 j)%Qc) in *. set (y := prodf (S a) N (fun j => f0 j * f0 j + s j / D n C W al j)%Qc) in *. set (z := (s a / D n C W al a)%Qc) in *.
          assert (Z := qc_sq_nonneg (f0 a)). clearbody x y z. split.
          - assert (0 <= (f0 a * f0 a) * (y - x))%Qc by (apply qc_mul_nonneg; auto using qc_sub_nonneg).
            assert (0 <= z * y)%Qc by (apply qc_mul_nonneg; auto; apply Qcle_trans with x; auto). 
            assert (Q : ((f0 a * f0 a + z) * y = f0 a * f0 a * x + f0 a * f0 a * (y - x) + z * y)%Qc) by ring. rewrite Q.
            set (p := (f0 a * f0 a * (y - x))%Qc) in *. set (q := (z * y)%Qc) in *. set (w := (f0 a * f0 a * x)%Qc) in *.
            clearbody p q w. qlra.
          - apply qc_mul_nonneg; auto. }
        destruct (G i (n - 1 - i) ltac:(lia)) as [G1 _]. 
        apply qc_sub_nonneg. exact G1.
      + intros ->. rewrite sumf_0, !prodf_0. split; ring.
  Qed.

  Lemma vsum_map (h : nat -> val) (q : nat -> Qc) a N : (forall j, a <= j < a + N -> h j = Fin (q j)) ->
    vsum (map h (seq a N)) = Fin (sumf a N q).
  Proof.
    intro H. unfold sumf. rewrite <- vsum_fin, map_map. f_equal. apply map_ext_in. intros j Hj. apply in_seq in Hj. apply H. lia.
  Qed.
  Lemma skipn_map_seq {A} (h : nat -> A) c N a : skipn c (map h (seq a N)) = map h (seq (a + c) (N - c)).
  Proof.
    revert a N. induction c as [|c IH]; intros a N; [rewrite Nat.add_0_r, Nat.sub_0_r; auto|].
    destruct N as [|N]; auto. cbn [seq map skipn]. rewrite IH. f_equal. f_equal; lia.
  Qed.
  Lemma ult_proj i : i < n -> ultv n C W al i = projected n C f0 i (n - 1).
  Proof.
    intro Hi. unfold ultv, projected. fold f0. f_equal. unfold cdf. replace (n - (n - 1 - i)) with (S i) by lia.
    rewrite prodf_Sr. replace (n - 1 - i + i) with (n - 1) by lia. replace (n - 1 - (n - 1 - i)) with i by lia.
    assert (E : f0 (n - 1) = 1%Qc) by (unfold f0, mf; apply nltb_if; lia). rewrite E. ring.
  Qed.

  Lemma tot_fin (s e : nat -> Qc) i : (forall j, j < n - 1 -> dv j = Fin (s j)) -> 0 < i < n -> msev n C W al i = Fin (e i) ->
    totv n C W al i =
    Fin (e i + qz 2 * projected n C f0 i (n - 1) * sumf (S i) (n - 1 - i) (fun l => projected n C f0 l (n - 1))
         * sumf (n - 1 - i) i (fun j => s j / (f0 j * f0 j) / sumf 0 (n - 1 - j) (fun l => C l j)))%Qc.
  Proof.
    intros Es Hi Ee. unfold totv, mse_total_row. fold f0.
    rewrite (at1_map (msev n C W al)), Ee by lia.
    rewrite (at1_map (fun i => Fin (ultv n C W al i))) by lia.
    rewrite skipn_map_seq. rewrite <- (map_map (ultv n C W al) Fin), skipsum_fin. cbn [plus].
    unfold rh_sum.
    rewrite (vsum_map _ (fun j => s j / (f0 j * f0 j) / sumf 0 (n - 1 - j) (fun l => C l j))%Qc).
    - cbn [vmul vadd]. rewrite ult_proj by lia. replace (n - S i) with (n - 1 - i) by lia.
      change (qsum (map (ultv n C W al) (seq (S i) (n - 1 - i)))) with (sumf (S i) (n - 1 - i) (ultv n C W al)).
      rewrite (sumf_ext (S i) (n - 1 - i) (ultv n C W al) (fun l => projected n C f0 l (n - 1))); auto.
      intros l Hl. apply ult_proj. lia.
    - intros j Hj. rewrite (at1_map (quotv n C W al)) by lia.
      rewrite (vsum_map _ (fun l => C l j)).
      + unfold quotv. rewrite ltb_if by lia. change (dvv n C W al (mf n C W al) j) with (dv j). fold f0. rewrite Es by lia.
        rewrite !vdiv_fin; auto.
        * apply qc_pos_neq, sumf_pos; [lia|]. intros l Hl. apply Pos. lia.
        * apply qc_pos_neq, qc_mul_pos; apply f0_pos.
      + intros l Hl. rewrite cell_mk by lia. unfold sq. rewrite ltb_if by lia. auto.
  Qed.
  Lemma tot_nan i : dv (n - 2) = NaN -> 0 < i < n -> totv n C W al i = NaN.
  Proof.
    intros H Hi. unfold totv, mse_total_row, rh_sum.
    assert (E : vsum (map (fun j => vdiv (at1 (map (quotv n C W al) (seq 0 n)) j)
       (vsum (map (fun l => cell (mk n n (fun i j => Fin (sq n C (mf n C W al) i j))) l j) (seq 0 (n - 1 - j))))) (seq (n - 1 - i) i)) = NaN).
    { destruct i as [|i]; [lia|]. rewrite seq_S, map_app. cbn [map]. unfold vsum at 1. rewrite fold_right_app. cbn [fold_right].
      replace (n - 1 - S i + i) with (n - 2) by lia. rewrite (at1_map (quotv n C W al)) by lia.
      assert (Eq : quotv n C W al (n - 2) = NaN).
      { unfold quotv. rewrite ltb_if by lia. change (dvv n C W al (mf n C W al) (n - 2)) with (dv (n - 2)). rewrite H. auto. }
      rewrite Eq, vdiv_nan_l. change (vadd NaN (Fin 0%Qc)) with NaN.
      match goal with |- fold_right _ _ ?l = _ => generalize l end. intro l. induction l as [|x l IH]; [reflexivity|].
      cbn [fold_right]. rewrite IH. apply vadd_nan_r. }
    rewrite E, vmul_nan_r, vadd_nan_r. auto.
  Qed.

  Lemma skipsum_nan N a (h : nat -> val) : (forall i, a <= i < a + N -> h i = NaN) -> skipsum (map h (seq a N)) = Fin 0%Qc.
  Proof.
    intro H. rewrite (map_ext_in h (fun _ => NaN)); [apply skipsum_nan_map|]. intros i Hi. apply in_seq in Hi. apply H. lia.
  Qed.

  Lemma c33_ge : exists e T, k_mse k = map (fun i => Fin (e i)) (seq 0 n) /\ k_mse_total k = Fin T /\
    (forall i, i < n -> (0 <= e i)%Qc) /\ e 0 = 0%Qc /\ (sumf 0 n e <= T)%Qc.
  Proof.
    destruct k_eq as (_ & _ & _ & _ & _ & _ & E & Et).
    destruct dv_cases as [(_ & _ & N)|(s & Es & Ns)].
    - exists (fun _ => 0%Qc), 0%Qc. split; [|split; [|split; [|split]]].
      + rewrite E. apply map_seq_ext. intros i Hi.
        change (msev n C W al i) with (vadd (procv n C W al dvl i) (parv n C W al lvl i)).
        destruct (nan_rows N i ltac:(lia)) as [-> ->]. reflexivity.
      + rewrite Et. apply skipsum_nan. intros i Hi. apply tot_nan; auto. lia.
      + intros. apply Qcle_refl.
      + reflexivity.
      + rewrite sumf_const. replace (qn n * 0)%Qc with 0%Qc by ring. apply Qcle_refl.
    - pose (e := fun i => match msev n C W al i with Fin q => q | _ => 0%Qc end).
      assert (Ee : forall i, i < n -> msev n C W al i = Fin (e i) /\ (0 <= e i)%Qc /\ (i = 0 -> e i = 0%Qc)).
      { intros i Hi. destruct (msev_fin i Hi) as (p & q & _ & _ & M & P1 & P2 & Z). unfold e. rewrite M. split; auto. split; [qlra|].
        intro I. destruct (Z I) as [-> ->]. ring. }
      exists e. eexists. split; [|split; [|split; [|split]]].
      + rewrite E. apply map_seq_ext. intros i Hi. apply Ee. lia.
      + rewrite Et. rewrite (map_ext_in (totv n C W al) (fun i => Fin (e i + qz 2 * projected n C f0 i (n - 1) * sumf (S i) (n - 1 - i) (fun l => projected n C f0 l (n - 1))
         * sumf (n - 1 - i) i (fun j => s j / (f0 j * f0 j) / sumf 0 (n - 1 - j) (fun l => C l j)))%Qc)).
        2:{ intros i Hi. apply in_seq in Hi. apply tot_fin; auto; [lia|]. apply Ee. lia. }
        match goal with |- skipsum (map (fun i => Fin (@?g i)) _) = _ => rewrite <- (map_map g Fin) end. rewrite skipsum_fin. reflexivity.
      + intros i Hi. apply Ee; auto.
      + apply Ee; auto. lia.
      + assert (Z : e 0 = 0%Qc) by (apply Ee; auto; lia). 
        match goal with |- (_ <= qsum (map ?g (seq 1 (n - 1))))%Qc => change (sumf 0 n e <= sumf 1 (n - 1) g)%Qc end.
        replace n with (S (n - 1)) at 1 by lia. rewrite sumf_Sl, Z.
        apply Qcle_trans with (sumf 1 (n - 1) e); [qlra|]. apply sumf_le. intros i Hi.
        match goal with |- (_ <= _ + ?x)%Qc => assert (X : (0 <= x)%Qc) end.
        { apply qc_mul_nonneg; [apply qc_mul_nonneg; [apply qc_mul_nonneg|]|].
          - vm_compute. discriminate.
          - apply Qclt_le_weak, proj_pos. lia.
          - apply sumf_nonneg. intros l Hl. apply Qclt_le_weak, proj_pos. lia.
          - apply sumf_nonneg. intros j Hj. apply qc_div_nonneg.
            + apply qc_div_nonneg; auto. apply qc_mul_pos; apply f0_pos.
            + apply sumf_pos; [lia|]. intros l Hl. apply Pos. lia. }
        match goal with |- (_ <= _ + ?x)%Qc => generalize dependent x end. intros x X. qlra.
  Qed.

  Lemma c32_nonneg : exists p q,
    k_proc k = map (fun i => Fin (p i)) (seq 0 n) /\ k_param k = map (fun i => Fin (q i)) (seq 0 n) /\
    k_mse k = map (fun i => Fin (p i + q i)%Qc) (seq 0 n) /\ (forall i, i < n -> (0 <= p i)%Qc /\ (0 <= q i)%Qc) /\ p 0 = 0%Qc /\ q 0 = 0%Qc.
  Proof.
    destruct k_eq as (_ & _ & _ & _ & E1 & E2 & E3 & _).
    exists (fun i => match procv n C W al dvl i with Fin q => q | _ => 0%Qc end),
           (fun i => match parv n C W al lvl i with Fin q => q | _ => 0%Qc end).
    rewrite E1, E2, E3. repeat split.
    - apply map_seq_ext. intros i Hi. destruct (msev_fin i ltac:(lia)) as (p & q & -> & _). auto.
    - apply map_seq_ext. intros i Hi. destruct (msev_fin i ltac:(lia)) as (p & q & _ & -> & _). auto.
    - apply map_seq_ext. intros i Hi. destruct (msev_fin i ltac:(lia)) as (p & q & -> & -> & -> & _). auto.
    - destruct (msev_fin i ltac:(lia)) as (p & q & -> & _ & _ & ? & _). auto.
    - destruct (msev_fin i ltac:(lia)) as (p & q & _ & -> & _ & _ & ? & _). auto.
  Qed.

  (** The results, with the factors and variances read off the result. *)
  Variable f s u : nat -> Qc.
  Hypothesis Hf : c_ldfs (k_cl k) = map (fun j => (nth j (m_cols m) 0%Z, Fin (f j))) (seq 0 n).
  Hypothesis Hsv : k_devpvar k = map (fun j => (nth j (m_cols m) 0%Z, Fin (s j))) (seq 0 (n - 1)).
  Hypothesis Huv : k_ldfvar k = map (fun j => (nth j (m_cols m) 0%Z, Fin (u j))) (seq 0 (n - 1)).

  Lemma f_f0 j : j < n -> f j = f0 j.
  Proof.
    intro Hj. destruct k_eq as (E & _). rewrite Hf in E. unfold fser in E.
    assert (Q := map_seq_inj _ _ _ _ E j ltac:(lia)). cbn in Q. congruence.
  Qed.
  Lemma s_dv j : j < n - 1 -> dv j = Fin (s j).
  Proof.
    intro Hj. destruct k_eq as (_ & _ & E & _). rewrite Hsv in E.
    assert (Q := map_seq_inj _ _ _ _ E j ltac:(lia)). cbn in Q. congruence.
  Qed.
  Lemma u_lv j : j < n - 1 -> lv j = Fin (u j).
  Proof.
    intro Hj. destruct k_eq as (_ & _ & _ & E & _). rewrite Huv in E.
    assert (Q := map_seq_inj _ _ _ _ E j ltac:(lia)). cbn in Q. congruence.
  Qed.
  Lemma proj_f i j : i < n -> j < n -> projected n C f i j = projected n C f0 i j.
  Proof. intros Hi Hj. unfold projected. f_equal. apply prodf_ext. intros l Hl. apply f_f0. lia. Qed.

  Lemma sg_f j : j < n - 1 -> sigma2 n C W al f j = sg j.
  Proof. intro Hj. unfold sg, sigma2. rewrite f_f0 by lia. auto. Qed.
  Lemma c30 i : i < n -> nth i (k_proc k) NaN =
      Fin (projected n C f i (n - 1) * projected n C f i (n - 1)
           * sumf (n - 1 - i) i (fun j => s j / (f j * f j) / projected n C f i j))%Qc.
  Proof.
    intro Hi. destruct k_eq as (_ & _ & _ & _ & E & _). rewrite E, nth_map_seq by auto. cbn [plus].
    rewrite (proc_fin s s_dv) by auto. rewrite proj_f by lia. f_equal. f_equal. apply sumf_ext. intros j Hj.
    rewrite f_f0, proj_f by lia. auto.
  Qed.
  Lemma c31 i : i < n -> nth i (k_param k) NaN =
      Fin (C i (n - 1 - i)%nat * C i (n - 1 - i)%nat
           * (prodf (n - 1 - i) i (fun j => f j * f j + u j) - prodf (n - 1 - i) i (fun j => f j * f j)))%Qc.
  Proof.
    intro Hi. destruct k_eq as (_ & _ & _ & _ & _ & E & _). rewrite E, nth_map_seq by auto. cbn [plus].
    rewrite (par_fin u i Hi u_lv). do 3 f_equal; apply prodf_ext; intros j Hj; rewrite f_f0 by lia; auto.
  Qed.
  Variable e : nat -> Qc.
  Hypothesis He : k_mse k = map (fun i => Fin (e i)) (seq 0 n).
  Lemma c33 : k_mse_total k =
      Fin (sumf 1 (n - 1) (fun i => e i
        + qz 2 * projected n C f i (n - 1) * sumf (S i) (n - 1 - i) (fun l => projected n C f l (n - 1))
          * sumf (n - 1 - i) i (fun j => s j / (f j * f j) / sumf 0 (n - 1 - j) (fun l => C l j))))%Qc.
  Proof.
    destruct k_eq as (_ & _ & _ & _ & _ & _ & E & Et). rewrite Et. unfold sumf at 1. rewrite <- skipsum_fin, map_map. f_equal.
    apply map_ext_in. intros i Hi. apply in_seq in Hi. rewrite He in E.
    assert (Q := map_seq_inj _ _ _ _ E i ltac:(lia)). rewrite (tot_fin s e) by (auto using s_dv; lia).
    f_equal. f_equal. f_equal; [f_equal|].
    - f_equal. rewrite proj_f by lia. auto.
    - apply sumf_ext. intros l Hl. rewrite proj_f by lia. auto.
    - apply sumf_ext. intros j Hj. rewrite f_f0 by lia. auto.
  Qed.
End Claims.

Section C32.
  Variables (m : lmat) (n : nat) (C : nat -> nat -> Qc).
  Hypothesis R : regular m n C.
  Hypothesis Pos : positive n C.
  Hypothesis Hn : 3 < n.
  Hypothesis Ev : tail_fits (m_cols m).
  Variable cl : list nat.
  Hypothesis Hcl : clvi m = Ok cl.
  Variable ind : list (list val).
  Variable W : nat -> nat -> Qc.
  Hypothesis Hw : weights ind n W.
  Variable al : nat.
  Variable v : string.
  Variable tail : val.
  Variable k : mack_result.
  Hypothesis K : mack_cl (mkTri m "origin" "dev" v) cl ind al tail = Ok k.
  Variable f : nat -> Qc.
  Hypothesis Hf : c_ldfs (k_cl k) = map (fun j => (nth j (m_cols m) 0%Z, Fin (f j))) (seq 0 n).
  Let sg := sigma2 n C W al f.

  Lemma c32_devpvar : exists x, k_devpvar k =
      map (fun j => (nth j (m_cols m) 0%Z, if j <? n - 2 then Fin (sg j) else x)) (seq 0 (n - 1)) /\
    (forall j, j < n - 2 -> (0 <= sg j)%Qc) /\
    ((0 < sg (n - 4)%nat)%Qc -> x = Fin (qmin (sg (n - 3)%nat * sg (n - 3)%nat / sg (n - 4)%nat) (qmin (sg (n - 3)%nat) (sg (n - 4)%nat)))%Qc) /\
    (sg (n - 4) = 0%Qc -> (0 < sg (n - 3)%nat)%Qc -> x = Fin 0%Qc) /\
    (sg (n - 4) = 0%Qc -> sg (n - 3) = 0%Qc -> x = NaN) /\
    k_ldfvar k = map (fun p => (snd p, vdiv (snd (nth (fst p) (k_devpvar k) (0%Z, NaN)))
       (Fin (sumf 0 (n - 1 - fst p) (fun i => W i (fst p) * C i (fst p) ^ al)%Qc)))) (combine (seq 0 (n - 1)) (m_cols m)).
  Proof.
    destruct (regular_rmat m n C R) as (Em & So & Sd & Lo & Ld).
    assert (F := f_f0 m n C R Pos Hn Ev cl Hcl ind W Hw al v tail k K f Hf).
    assert (G : forall j, j < n - 1 -> sg j = sigma2 n C W al (mf n C W al) j).
    { intros j Hj. unfold sg, sigma2. rewrite F by lia. auto. }
    destruct (k_eq m n C R Pos Hn Ev cl Hcl ind W Hw al v tail k K) as (_ & _ & E & El & _).
    exists (dvv n C W al (mf n C W al) (n - 2)). rewrite !G by lia. split; [|split; [|split; [|split; [|split]]]].
    - rewrite E. apply map_seq_ext. intros j Hj. f_equal. destruct (Nat.ltb_spec j (n - 2)) as [L|L].
      + rewrite (dv_lt n C W al) by auto. rewrite G by lia. auto.
      + do 2 f_equal. lia.
    - intros j Hj. rewrite G by lia. eapply sg_nonneg; eauto.
    - apply dv_last_pos; auto.
    - apply dv_last_0; auto.
    - apply dv_last_nan; auto.
    - rewrite El, E. 
      assert (Ez : combine (seq 0 (n - 1)) (m_cols m) = map (fun j => (j, nth j (m_cols m) 0%Z)) (seq 0 (n - 1))).
      { apply combine_seq. lia. }
      rewrite Ez, map_map. apply map_seq_ext. intros j Hj. cbn [fst snd]. rewrite (nth_map_seq _ _ _ (0%Z, NaN)) by lia. reflexivity.
  Qed.

  Lemma c32_nan : sg (n - 4) = 0%Qc -> sg (n - 3) = 0%Qc ->
    k_proc k = map (fun _ => Fin 0%Qc) (seq 0 n) /\ k_param k = map (fun _ => Fin 0%Qc) (seq 0 n) /\ 
    k_mse k = map (fun _ => Fin 0%Qc) (seq 0 n) /\ k_mse_total k = Fin 0%Qc.
  Proof.
    intros H4 H3.
    assert (F := f_f0 m n C R Pos Hn Ev cl Hcl ind W Hw al v tail k K f Hf).
    assert (G : forall j, j < n - 1 -> sg j = sigma2 n C W al (mf n C W al) j).
    { intros j Hj. unfold sg, sigma2. rewrite F by lia. auto. }
    rewrite !G in * by lia.
    destruct (k_eq m n C R Pos Hn Ev cl Hcl ind W Hw al v tail k K) as (_ & _ & _ & _ & E1 & E2 & E3 & E4).
    assert (N := dv_last_nan n C Hn W al H4 H3).
    assert (Z := nan_rows n C Hn W al N).
    rewrite E1, E2, E3, E4. repeat split.
    - apply map_seq_ext. intros i Hi. apply Z. lia.
    - apply map_seq_ext. intros i Hi. apply Z. lia.
    - apply map_seq_ext. intros i Hi. unfold msev. destruct (Z i ltac:(lia)) as [Z1 Z2]. 
      etransitivity; [exact (f_equal2 vadd Z1 Z2)|]. reflexivity.
    - apply (skipsum_nan n Hn). intros i Hi. apply (tot_nan n C Hn W al i N). lia.
  Qed.
End C32.
