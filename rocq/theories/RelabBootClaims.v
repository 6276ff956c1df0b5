(** Proofs of C94: boot_cl and the labels. *)

From Coq Require Import String QArith Qcanon ZArith List Bool Lia Sorting.Sorted.
From Verif Require Import Val Frame Triangle A2A Base Mack Boot Quant Dist BootSum SpecRelab ListLib QcLib Spec Spec2 BuildFacts RegFacts MackFacts BaseClaims BootLib
  BootFit BootClaims RelabBoot.
Import ListNotations.
Open Scope string_scope.
Open Scope list_scope.
Open Scope nat_scope.

Definition move (l l' : list Z) (o : Z) : Z := match zfind o l with Some i => nth i l' 0%Z | None => 0%Z end.
Lemma move_nth l l' i : zsorted l -> i < List.length l -> move l l' (nth i l 0%Z) = nth i l' 0%Z.
Proof. intros S L. unfold move. rewrite zfind_nth by (auto using zsorted_nodup). auto. Qed.
Lemma move_map l l' : zsorted l -> List.length l' = List.length l -> l' = map (move l l') l.
Proof.
  intros S L. apply (nth_ext _ _ 0%Z 0%Z); [rewrite map_length; auto|]. intros i Hi.
  rewrite (nth_indep (map _ l) 0%Z (move l l' 0%Z)) by (rewrite map_length; lia). rewrite map_nth, move_nth by (auto; lia). auto.
Qed.
Lemma sorted_cmp l : zsorted l -> forall i j, i < List.length l -> j < List.length l ->
  Z.compare (nth i l 0%Z) (nth j l 0%Z) = Nat.compare i j.
Proof.
  intro S. assert (L : forall j i, i < j -> j < List.length l -> (nth i l 0 < nth j l 0)%Z).
  { induction S as [|x l S IH F]; intros j i A B; [simpl in B; lia|]. destruct j as [|j]; [lia|]. simpl in B. destruct i as [|i]; cbn [nth].
    - rewrite Forall_forall in F. apply F. apply nth_In. lia.
    - apply IH; lia. }
  intros i j A B. destruct (Nat.compare_spec i j) as [->|H|H].
  - apply Z.compare_refl.
  - apply Z.compare_lt_iff. auto.
  - apply Z.compare_gt_iff. auto.
Qed.
Lemma move_cmp l l' : zsorted l -> zsorted l' -> List.length l' = List.length l ->
  forall a b, In a l -> In b l -> Z.compare (move l l' a) (move l l' b) = Z.compare a b.
Proof.
  intros A B L a b Ha Hb. apply (In_nth _ _ 0%Z) in Ha as (i & Hi & <-). apply (In_nth _ _ 0%Z) in Hb as (j & Hj & <-).
  rewrite !move_nth by auto. rewrite !sorted_cmp by (auto; lia). auto.
Qed.
Lemma move_place l l' o : zsorted l -> List.length l' = List.length l -> In o l -> same_place l l' o (move l l' o).
Proof.
  intros A L H. apply (In_nth _ _ 0%Z) in H as (i & Hi & <-). exists i. rewrite move_nth by auto.
  split; apply nth_error_nth'; lia.
Qed.

Section Call.
  Variables (m m' : lmat) (n : nat) (C : nat -> nat -> Qc).
  Hypothesis R : regular m n C.
  Hypothesis R' : regular m' n C.
  Hypothesis P : positive n C.
  Hypothesis Hn : 2 < n.
  Hypothesis Ev : tail_fits (m_cols m).
  Hypothesis Ev' : tail_fits (m_cols m').
  Hypothesis H1 : forall j, j < n -> nth j (m_cols m') 0%Z = 1%Z <-> nth j (m_cols m) 0%Z = 1%Z.
  Variables (ind : list (list val)) (w : nat -> nat -> bool).
  Hypothesis Hi : forall i j, i + j < n - 1 -> cell ind i j = Fin (if w i j then 1 else 0)%Qc.
  Hypothesis Hl : forall j, j < n - 1 -> w (n - 2 - j) j = true.
  Variables (gm : list val -> val) (rt : val -> val) (cl rl : list nat).
  Hypothesis Hcl : forall j, nth j cl O < n.
  Hypothesis Hrl : forall j, nth j rl O < n.
  Let phi := move (m_idx m) (m_idx m').
  Let f := vol_factor n C.

  Definition mres (b : boot_result) : boot_result :=
    mkBoot (map (fun j => (nth j (m_cols m') 0%Z, snd (nth j (o_ldfs b) (0%Z, NaN)))) (seq 0 n))
      (mkMat (m_idx m') (m_cols m') (m_cells (o_fit_cum b))) (mkMat (m_idx m') (m_cols m') (m_cells (o_fit_incr b)))
      (mkMat (m_idx m') (m_cols m') (m_cells (o_resid_us b))) (mkMat (m_idx m') (m_cols m') (m_cells (o_resid_adj b)))
      (o_scale b) (o_dof b) (o_dist b) (map (rv phi) (o_reserves b))
      (map (fun r => let '(o, l, u, v) := r in (phi o, l, u, v)) (o_summary b)) (o_total b).

  Lemma l_len : List.length (m_idx m') = n /\ List.length (m_idx m) = n /\ List.length (m_cols m') = n /\ List.length (m_cols m) = n.
  Proof. destruct R as (_ & _ & A & B & _), R' as (_ & _ & A' & B' & _). auto. Qed.
  Lemma l_nbr : nbr_cells m' = nbr_cells m.
  Proof.
    destruct (regular_rmat m n C R) as (E & So & Sd & Lo & Ld). destruct (regular_rmat m' n C R') as (E' & So' & Sd' & Lo' & Ld').
    rewrite E, E'. rewrite !r_nbr_cells; auto; lia.
  Qed.
  Lemma l_dof : dof m' = dof m.
  Proof. unfold dof. rewrite l_nbr. unfold ncols, nrows. destruct l_len as (-> & -> & -> & ->). auto. Qed.
  Lemma l_ra : m_cells (ra m' n C rt) = m_cells (ra m n C rt).
  Proof. unfold ra. cbn [m_cells]. unfold adjc. rewrite l_nbr, l_dof. auto. Qed.
  Lemma l_dist : sampling_dist (ra m' n C rt) = sampling_dist (ra m n C rt).
  Proof.
    unfold sampling_dist. rewrite l_ra. unfold nrows, ncols. cbn [ra m_idx m_cols]. destruct l_len as (-> & -> & -> & ->). auto.
  Qed.
  Lemma l_scale : scale_param m' (ru m' n C rt) = scale_param m (ru m n C rt).
  Proof.
    unfold scale_param. rewrite l_dof. f_equal. f_equal. unfold colsums, ncols, mcol, nrows. cbn [fmap ru m_idx m_cols m_cells].
    destruct l_len as (-> & -> & -> & ->). auto.
  Qed.

  Lemma c94 sims par rng :
    boot_cl gm rt (mkTri m' "origin" "dev" "value") cl rl ind sims par rng
    = match boot_cl gm rt (mkTri m "origin" "dev" "value") cl rl ind sims par rng with Ok b => Ok (mres b) | Err e => Err e end /\
    forall b, boot_cl gm rt (mkTri m "origin" "dev" "value") cl rl ind sims par rng = Ok b ->
      (forall r, In r (o_reserves b) -> In (v_o r) (m_idx m)) /\ map (fun r => fst (fst (fst r))) (o_summary b) = m_idx m /\
      map snd (o_ldfs (mres b)) = map snd (o_ldfs b).
  Proof.
    rewrite (boot_eq m' n C R' P Hn Ev' ind w Hi Hl gm rt cl rl sims par rng).
    rewrite (boot_eq m n C R P Hn Ev ind w Hi Hl gm rt cl rl sims par rng).
    cbv zeta. rewrite l_dist, l_scale.
    destruct (regular_rmat m n C R) as (_ & So & Sd & Lo & Ld). destruct (regular_rmat m' n C R') as (_ & So' & Sd' & Lo' & Ld').
    set (sd := sampling_dist (ra m n C rt)).
    destruct (negb par && (0 <? sims) && (List.length sd =? 0)); [split; [auto|discriminate]|].
    set (psi := move (m_cols m) (m_cols m')).
    destruct (simulate_rr m m' (rmat (m_idx m) (m_cols m) n (incr_of (fitc n C (vol_factor n C))))
      (rmat (m_idx m') (m_cols m') n (incr_of (fitc n C (vol_factor n C)))) rt (fst (rng sd)) phi psi (snd (rng sd)) cl rl
      (scale_param m (ru m n C rt)) sims) as (Es & Eo).
    - apply move_map; auto. lia.
    - apply move_map; auto. lia.
    - apply move_cmp; auto. lia.
    - apply move_cmp; auto. lia.
    - intros d Hd. apply (In_nth _ _ 0%Z) in Hd as (j & Hj & <-). unfold psi. rewrite move_nth by auto.
      assert (Q := H1 j ltac:(lia)). destruct (Z.eqb_spec (nth j (m_cols m') 0%Z) 1) as [A|A], (Z.eqb_spec (nth j (m_cols m) 0%Z) 1) as [B|B]; tauto.
    - reflexivity.
    - intro Q. rewrite Q in Lo. simpl in Lo. lia.
    - intro Q. rewrite Q in Ld. simpl in Ld. lia.
    - intro j. unfold nrows. rewrite Lo. auto.
    - intro j. unfold ncols. rewrite Ld. auto.
    - set (rs := simulate rt m cl rl (rmat (m_idx m) (m_cols m) n (incr_of (fitc n C (vol_factor n C)))) (scale_param m (ru m n C rt)) sims
        (fst (rng sd)) (snd (rng sd))) in *.
      rewrite Es.
      set (lt := map (fun i => (nth i (m_idx m) 0%Z, Fin (C i (n - 1 - i)))) (seq 0 n)).
      assert (Elt : map (fun i => (nth i (m_idx m') 0%Z, Fin (C i (n - 1 - i)))) (seq 0 n) = map (fun p => (phi (fst p), snd p)) lt).
      { unfold lt. rewrite map_map. apply map_seq_ext. intros i Hi'. cbn [fst snd]. f_equal. unfold phi. rewrite move_nth by (auto; lia). auto. }
      rewrite Elt.
      assert (Mfst : map fst lt = m_idx m).
      { unfold lt. rewrite map_map. cbn [fst]. apply (nth_ext _ _ 0%Z 0%Z).
        - rewrite map_length, seq_length. auto.
        - intros i Hi'. rewrite map_length, seq_length in Hi'. apply (nth_map_seq (fun i => nth i (m_idx m) 0%Z)). auto. }
      assert (Mfst' : map fst (map (fun p => (phi (fst p), snd p)) lt) = m_idx m').
      { rewrite <- Elt, map_map. cbn [fst]. apply (nth_ext _ _ 0%Z 0%Z).
        - rewrite map_length, seq_length. auto.
        - intros i Hi'. rewrite map_length, seq_length in Hi'. apply (nth_map_seq (fun i => nth i (m_idx m') 0%Z)). auto. }
      rewrite Mfst, Mfst'.
      assert (Mi := move_cmp (m_idx m) (m_idx m') So So' ltac:(lia)). fold phi in Mi.
      assert (Ni : m_idx m <> []) by (intro Q; rewrite Q in Lo; simpl in Lo; lia).
      assert (Ez : zmin (m_idx m') = phi (zmin (m_idx m))).
      { assert (Q := move_map (m_idx m) (m_idx m') So ltac:(lia)). fold phi in Q. rewrite Q at 1. apply min_map; auto. }
      set (rows := map (fun p => (fst p, snd p, if (fst p =? zmin (m_idx m))%Z then slookup lt (fst p) else mean_by v_ultimate rs (fst p),
         vsub (if (fst p =? zmin (m_idx m))%Z then slookup lt (fst p) else mean_by v_ultimate rs (fst p)) (snd p))) lt).
      assert (Erows : map (fun p => (fst p, snd p,
          if (fst p =? zmin (m_idx m'))%Z then slookup (map (fun p => (phi (fst p), snd p)) lt) (fst p) else mean_by v_ultimate (map (rv phi) rs) (fst p),
          vsub (if (fst p =? zmin (m_idx m'))%Z then slookup (map (fun p => (phi (fst p), snd p)) lt) (fst p) else mean_by v_ultimate (map (rv phi) rs) (fst p)) (snd p)))
          (map (fun p => (phi (fst p), snd p)) lt)
        = map (fun r => let '(o, l, u, v) := r in (phi o, l, u, v)) rows).
      { unfold rows. rewrite !map_map. apply map_ext_in. intros (o, l) Ho. cbn [fst snd].
        assert (Io : In o (m_idx m)) by (rewrite <- Mfst; apply (in_map fst _ _ Ho)).
        assert (Esl : slookup (map (fun p => (phi (fst p), snd p)) lt) (phi o) = slookup lt o).
        { assert (G : forall s, (forall q, In q s -> In (fst q) (m_idx m)) -> slookup (map (fun p => (phi (fst p), snd p)) s) (phi o) = slookup s o).
          { unfold slookup. induction s as [|(a, b) s IH]; intro Hs; cbn [map find fst snd]; auto.
            rewrite (cmp_eqb phi) by (apply Mi; auto; apply (Hs (a, b)); left; auto). destruct (a =? o)%Z; auto.
            apply IH. intros; apply Hs; right; auto. }
          apply G. intros q Hq. rewrite <- Mfst. apply in_map. auto. }
        assert (Em : mean_by v_ultimate (map (rv phi) rs) (phi o) = mean_by v_ultimate rs o).
        { unfold mean_by. rewrite (filter_map_in (rv phi) _ (fun r => (v_o r =? o)%Z)).
          - rewrite map_map. auto.
          - intros r Hr. cbn [rv v_o]. apply cmp_eqb. apply Mi; auto. }
        rewrite Esl, Em, Ez, (cmp_eqb phi) by (apply Mi; auto; apply BaseClaims.zmin_in; auto). auto. }
      rewrite Erows.
      assert (Et : forall pr : (Z * val * val * val) -> val, (forall o o' l u v, pr (o', l, u, v) = pr (o, l, u, v)) ->
        map pr (map (fun r => let '(o, l, u, v) := r in (phi o, l, u, v)) rows) = map pr rows).
      { intros pr H. rewrite !map_map. apply map_ext. intros (((o, l), u), v). apply H. }
      rewrite (Et (fun r => snd (fst (fst r)))), (Et (fun r => snd (fst r))), (Et (fun r => snd r)) by auto. split.
      + f_equal. unfold mres. cbn [o_ldfs o_fit_cum o_fit_incr o_resid_us o_resid_adj o_scale o_dof o_dist o_reserves o_summary o_total].
        rewrite l_dof. f_equal.
        * apply map_seq_ext. intros j Hj. f_equal.
          rewrite (nth_map_seq (fun j => (nth j (m_cols m) 0%Z, Fin (if S j <? n then vol_factor n C j else 1%Qc)))) by lia. auto.
        * unfold ra, adjc. rewrite l_nbr, l_dof. auto.
      + intros b Hb. injection Hb as <-. cbn [o_reserves o_summary]. split; [exact Eo|]. split.
        * unfold rows. rewrite map_map. cbn [fst]. exact Mfst.
        * unfold mres. cbn [o_ldfs]. rewrite !map_map. apply map_seq_ext. intros j Hj. cbn [snd].
          rewrite (nth_map_seq (fun j => (nth j (m_cols m) 0%Z, Fin (if S j <? n then vol_factor n C j else 1%Qc)))) by lia. auto.
  Qed.
End Call.

(** The table and the quantiles. *)
Section Tab.
  Variables (m m' : lmat) (n : nat) (b : boot_result).
  Hypothesis So : zsorted (m_idx m).
  Hypothesis So' : zsorted (m_idx m').
  Hypothesis Le : List.length (m_idx m') = List.length (m_idx m).
  Hypothesis Or : forall r, In r (o_reserves b) -> In (v_o r) (m_idx m).
  Hypothesis Os : map (fun r => fst (fst (fst r))) (o_summary b) = m_idx m.
  Let phi := move (m_idx m) (m_idx m').

  Lemma samples_mv : Quant.samples (map (rv phi) (o_reserves b)) (m_idx m') = Quant.samples (o_reserves b) (m_idx m).
  Proof.
    assert (Mi := move_cmp (m_idx m) (m_idx m') So So' Le). fold phi in Mi.
    unfold Quant.samples. f_equal.
    - assert (Q := move_map (m_idx m) (m_idx m') So Le). fold phi in Q. rewrite Q, map_map. apply map_ext_in. intros o Ho.
      unfold origin_sample. rewrite (filter_map_in (rv phi) _ (fun r => (v_o r =? o)%Z)).
      + rewrite map_map. auto.
      + intros r Hr. cbn [rv v_o]. apply cmp_eqb. apply Mi; auto.
    - f_equal. unfold total_sample. rewrite !map_map. cbn [rv v_sim]. apply map_ext. intro s. f_equal.
      rewrite (filter_map_in (rv phi) _ (fun r => v_sim r =? s)) by auto. rewrite map_map. auto.
  Qed.
  Lemma table_mv : map row_figures (boot_table (mres m m' n b)) = map row_figures (boot_table b).
  Proof.
    assert (Es : boot_std_errors (mres m m' n b) = boot_std_errors b).
    { assert (E : map (fun r => fst (fst (fst r))) (map (fun r : Z * val * val * val => let '(o, l, u, v) := r in (phi o, l, u, v)) (o_summary b)) = m_idx m').
      { rewrite (move_map (m_idx m) (m_idx m') So Le). fold phi. rewrite <- Os, !map_map. apply map_ext. intros (((o, l), u), v). auto. }
      unfold boot_std_errors, boot_variances, mres. cbn [o_reserves o_summary]. fold phi. rewrite Os, E, samples_mv. auto. }
    unfold boot_table. rewrite Es. unfold mres. cbn [o_summary o_total]. 
    assert (G : forall (ses : list fl) (l l' : list (option Z * val * val * val)),
      map (fun r => let '(_, l, u, v) := r in (l, u, v)) l' = map (fun r => let '(_, l, u, v) := r in (l, u, v)) l ->
      map row_figures (map (fun p => let '((o, l, u, r), se) := p in mkBrow o l u r se (fdiv se (of_val r))) (combine l' ses))
      = map row_figures (map (fun p => let '((o, l, u, r), se) := p in mkBrow o l u r se (fdiv se (of_val r))) (combine l ses))).
    { induction ses as [|se ses IH]; intros [|(((o1, l1), u1), v1) l] [|(((o2, l2), u2), v2) l'] H; try discriminate; auto.
      cbn [map] in H. injection H as -> -> -> H. cbn [combine map]. rewrite (IH l l' H). auto. }
    apply G. rewrite !map_app. f_equal. rewrite !map_map. apply map_ext. intros (((o, l), u), v). auto.
  Qed.
  Lemma sq_mv q two me : boot_summary_quantiles (map (rv phi) (o_reserves b)) (m_idx m') q two me
    = boot_summary_quantiles (o_reserves b) (m_idx m) q two me.
  Proof. unfold boot_summary_quantiles. rewrite samples_mv. auto. Qed.
  Lemma gq_mv q me lb : boot_get_quantiles (map (rv phi) (o_reserves b)) (m_idx m') q me lb
    = boot_get_quantiles (o_reserves b) (m_idx m) q me lb.
  Proof. unfold boot_get_quantiles. rewrite samples_mv. auto. Qed.
  Lemma recs_mv : Forall2 (moved_rec (m_idx m) (m_idx m')) (o_reserves b) (map (rv phi) (o_reserves b)).
  Proof.
    revert Or. generalize (o_reserves b). intros l H. induction l as [|r l IH]; cbn [map]; constructor.
    - unfold moved_rec, rv. cbn [v_sim v_o v_latest v_ultimate v_reserve]. repeat split; auto. apply move_place; auto. apply H. left. auto.
    - apply IH. intros; apply H; right; auto.
  Qed.
End Tab.
