(** Proofs of C92: boot_cl and the currency unit. *)

From Coq Require Import String QArith Qcanon ZArith List Bool Lia Permutation Sorting.Sorted.
From Verif Require Import Val Frame Triangle A2A Base Mack Boot Quant Dist BootSum SpecUnits ListLib QcLib Spec Spec2 BuildFacts RegFacts MackFacts BaseClaims BootLib
  BootFit BootClaims ScaleBoot.
Import ListNotations.
Open Scope string_scope.
Open Scope list_scope.
Open Scope nat_scope.

Section Call.
  Variables (m m' : lmat) (n : nat) (C : nat -> nat -> Qc) (k : Qc).
  Let c : Qc := (k * k)%Qc.
  Hypothesis Kp : (0 < k)%Qc.
  Hypothesis R : regular m n C.
  Hypothesis R' : regular m' n (fun i j => k * k * C i j)%Qc.
  Hypothesis Ei : m_idx m' = m_idx m.
  Hypothesis Ec : m_cols m' = m_cols m.
  Hypothesis P : positive n C.
  Hypothesis Hn : 2 < n.
  Hypothesis Ev : tail_fits (m_cols m).
  Variables (ind : list (list val)) (w : nat -> nat -> bool).
  Hypothesis Hi : forall i j, i + j < n - 1 -> cell ind i j = Fin (if w i j then 1 else 0)%Qc.
  Hypothesis Hl : forall j, j < n - 1 -> w (n - 2 - j) j = true.
  Variables (gm : list val -> val) (rt : val -> val).
  Notation sc := (vmul (Fin (k * k)%Qc)).
  Notation sk := (vmul (Fin k)).
  Let Cp : (0 < k * k)%Qc. Proof. apply qc_mul_pos; auto. Qed.
  Let C' := (fun i j => k * k * C i j)%Qc.
  Let P' : positive n C'. Proof. intros i j L. apply qc_mul_pos; auto. Qed.
  Let f := vol_factor n C.
  Let f' := vol_factor n C'.

  Lemma s_f j : S j < n -> f' j = f j.
  Proof.
    intro Hj. unfold f, f', vol_factor, C'.
    assert (N : sumf 0 (n - 1 - j) (fun i => C i j) <> 0%Qc).
    { apply qc_pos_neq. apply sumf_pos; [lia|]. intros i H. apply P. lia. }
    rewrite (sumf_mulc 0 (n - 1 - j) (k * k)%Qc (fun i => C i (S j))), (sumf_mulc 0 (n - 1 - j) (k * k)%Qc (fun i => C i j)). field. split; auto. apply qc_pos_neq; auto.
  Qed.
  Lemma s_prod a b : a + b < n -> prodf a b f' = prodf a b f.
  Proof. intro H. apply prodf_ext. intros j Hj. apply s_f. lia. Qed.
  Lemma s_fit i j : i < n -> fitc n C' f' i j = (k * k * fitc n C f i j)%Qc.
  Proof.
    intro H. unfold fitc. destruct (Nat.le_gt_cases j (n - 1 - i)).
    - rewrite s_prod by lia. unfold C', Qcdiv. ring.
    - replace (n - 1 - i - j) with 0 by lia. unfold C', Qcdiv, prodf. cbn. ring.
  Qed.
  Lemma s_incr i j : i < n -> incr_of (fitc n C' f') i j = (k * k * incr_of (fitc n C f) i j)%Qc.
  Proof. intro H. unfold incr_of. destruct j; rewrite !s_fit by auto; ring. Qed.
  Lemma s_incrC i j : incr_of C' i j = (k * k * incr_of C i j)%Qc.
  Proof. unfold incr_of, C'. destruct j; ring. Qed.

  Lemma kv_div x y : vdiv (sc x) (sk y) = sk (vdiv x y).
  Proof.
    assert (E : sc x = sk (sk x)).
    { assert (E := qsgn_c _ Cp). assert (E' := qsgn_c _ Kp). destruct x; cbn; rewrite ?E, ?E'; cbn; rewrite ?E'; auto. f_equal. ring. }
    rewrite E, (sc_div k Kp), (sc_div_l k Kp). auto.
  Qed.

  (** The root of the fitted increments. *)
  Hypothesis Hr : forall i j, i + j < n -> let x := incr_of (fitc n C f) i j in
    rt (Fin (k * k * x)%Qc) = sk (rt (Fin x)) /\ rt (Fin (k * k * abs_ x)%Qc) = sk (rt (Fin (abs_ x))).

  Hypothesis Hnan : rt NaN = sk (rt NaN).

  Lemma abs_sc x : abs_ (k * k * x)%Qc = (k * k * abs_ x)%Qc.
  Proof.
    assert (E := sc_abs (k * k)%Qc Cp (Fin x)). cbn in E. unfold abs_. congruence || (injection E as E; exact E).
  Qed.
  Lemma s_rus i j : i < n -> rus n C' f' rt i j = sk (rus n C f rt i j).
  Proof.
    intro H. unfold rus. destruct (Nat.ltb_spec (i + j) n) as [L|L]; auto. rewrite s_incr, s_incrC by auto.
    rewrite abs_sc. destruct (Hr i j L) as (_ & ->).
    replace (k * k * incr_of C i j - k * k * incr_of (fitc n C f) i j)%Qc with (k * k * (incr_of C i j - incr_of (fitc n C f) i j))%Qc by ring.
    change (Fin (k * k * (incr_of C i j - incr_of (fitc n C f) i j))%Qc) with (sc (Fin (incr_of C i j - incr_of (fitc n C f) i j)%Qc)).
    apply kv_div.
  Qed.
  Lemma s_ru : ru m' n C' rt = fmap sk (ru m n C rt).
  Proof.
    unfold ru. rewrite fmap_mk, Ei, Ec. f_equal. apply mk_ext. intros i j A B. apply s_rus. auto.
  Qed.
  Lemma s_nbr : nbr_cells m' = nbr_cells m.
  Proof.
    apply regular_rmat in R as (E & So & Sd & Lo & Ld). apply regular_rmat in R' as (E' & So' & Sd' & Lo' & Ld').
    rewrite E, E'. rewrite !r_nbr_cells; auto; lia.
  Qed.
  Lemma s_dof : dof m' = dof m.
  Proof. unfold dof. rewrite s_nbr. unfold ncols, nrows. rewrite Ei, Ec. auto. Qed.
  Lemma s_ra : ra m' n C' rt = fmap sk (ra m n C rt).
  Proof.
    unfold ra. rewrite fmap_mk, Ei, Ec. f_equal. apply mk_ext. intros i j A B.
    fold f' f. rewrite s_rus by auto. unfold adjc. rewrite s_nbr, s_dof. apply sc_mul_r; auto.
  Qed.

  Lemma fmap_cell (g : val -> val) r i j : g NaN = NaN -> cell (m_cells (fmap g r)) i j = g (cell (m_cells r) i j).
  Proof.
    intro G. unfold cell, fmap. cbn [m_cells]. change (@nil val) with (map g []) at 1. rewrite (map_nth (map g)).
    rewrite <- G at 1. apply map_nth.
  Qed.
  Lemma s_dist r : sampling_dist (fmap sk r) = map sk (sampling_dist r).
  Proof.
    unfold sampling_dist.
    set (p := fun v => negb (isnan v) && negb (veqb v (Fin 0%Qc))).
    rewrite <- (filter_map sk p p) by (intro v; unfold p; rewrite (sc_nan k Kp), (sc_eq0 k Kp); auto). f_equal.
    rewrite concat_map, map_map. unfold nrows, ncols. cbn [fmap m_idx m_cols]. f_equal. apply map_ext. intro i.
    rewrite map_map. apply map_ext. intro j. apply fmap_cell. auto.
  Qed.
  Lemma s_scale : scale_param m' (fmap sk (ru m n C rt)) = sc (scale_param m (ru m n C rt)).
  Proof.
    unfold scale_param. rewrite s_dof, <- (sc_div_l (k * k)%Qc Cp). f_equal. rewrite <- (sc_skip (k * k)%Qc Cp). f_equal.
    unfold colsums. rewrite map_map. unfold ncols. cbn [fmap m_cols]. apply map_ext. intro j.
    rewrite <- (sc_skip (k * k)%Qc Cp). f_equal. unfold mcol, nrows. cbn [fmap m_idx]. rewrite map_map. apply map_ext. intro i.
    rewrite !fmap_cell; auto; try reflexivity. generalize (cell (m_cells (ru m n C rt)) i j). intro v. cbn [vpow].
    rewrite (sc_mul_l k Kp v (Fin 1%Qc)). apply (kk k Kp).
  Qed.

  Variables (cl rl : list nat) (sims : nat) (par : bool).
  Variable rng : list val -> (nat -> val) * (list (val * val) -> nat -> val).
  Hypothesis G1 : forall sd j, fst (rng (map sk sd)) j = sk (fst (rng sd) j).
  Hypothesis G2 : forall sd ps j, snd (rng (map sk sd)) (map (fun p => (fst p, sc (snd p))) ps) j = sc (snd (rng sd) ps j).

  Definition sres (b : boot_result) : boot_result :=
    mkBoot (o_ldfs b) (fmap sc (o_fit_cum b)) (fmap sc (o_fit_incr b)) (fmap sk (o_resid_us b)) (fmap sk (o_resid_adj b))
      (sc (o_scale b)) (o_dof b) (map sk (o_dist b)) (map (srec (k * k)%Qc) (o_reserves b))
      (map (fun r => let '(o, l, u, v) := r in (o, sc l, sc u, sc v)) (o_summary b))
      (let '(l, u, v) := o_total b in (sc l, sc u, sc v)).

  Lemma s_mean g h rs o : (forall r, g (srec (k * k)%Qc r) = sc (h r)) ->
    mean_by g (map (srec (k * k)%Qc) rs) o = sc (mean_by h rs o).
  Proof.
    intro H. unfold mean_by. rewrite (filter_map (srec (k * k)%Qc) _ (fun r => (v_o r =? o)%Z)) by auto.
    rewrite <- (sc_mean (k * k)%Qc Cp), !map_map. f_equal. apply map_ext. auto.
  Qed.

  Lemma c92 : boot_cl gm rt (mkTri m' "origin" "dev" "value") cl rl ind sims par rng
    = match boot_cl gm rt (mkTri m "origin" "dev" "value") cl rl ind sims par rng with Ok b => Ok (sres b) | Err e => Err e end.
  Proof.
    assert (Ev' : tail_fits (m_cols m')) by (rewrite Ec; auto).
    rewrite (boot_eq m' n C' R' P' Hn Ev' ind w Hi Hl gm rt cl rl sims par rng).
    rewrite (boot_eq m n C R P Hn Ev ind w Hi Hl gm rt cl rl sims par rng).
    cbv zeta. fold f' f. rewrite s_ra, s_ru, s_dist, map_length.
    destruct (negb par && (0 <? sims) && (List.length (sampling_dist (ra m n C rt)) =? 0)); auto. f_equal.
    assert (Rm : forall D D', (forall i j, i < n -> D' i j = (k * k * D i j)%Qc) ->
      rmat (m_idx m') (m_cols m') n D' = fmap sc (rmat (m_idx m) (m_cols m) n D)).
    { intros D D' H. rewrite Ei, Ec. unfold rmat. rewrite fmap_mk. f_equal. apply mk_ext. intros i j A B. unfold rc.
      destruct (i + j <? n); auto. rewrite H by auto. auto. }
    rewrite s_scale, s_dof.
    rewrite (Rm (fitc n C f) (fitc n C' f')) by (intros; apply s_fit; auto).
    rewrite (Rm (incr_of (fitc n C f)) (incr_of (fitc n C' f'))) by (intros; apply s_incr; auto).
    set (sd := sampling_dist (ra m n C rt)).
    set (rs := simulate rt m cl rl (rmat (m_idx m) (m_cols m) n (incr_of (fitc n C f))) (scale_param m (ru m n C rt)) sims (fst (rng sd)) (snd (rng sd))).
    destruct (regular_rmat m n C R) as (_ & _ & _ & Lo & Ld).
    assert (Ers : simulate rt m' cl rl (fmap sc (rmat (m_idx m) (m_cols m) n (incr_of (fitc n C f)))) (sc (scale_param m (ru m n C rt))) sims
        (fst (rng (map sk sd))) (snd (rng (map sk sd))) = map (srec (k * k)%Qc) rs).
    { unfold rs. apply (simulate_sc k Kp); auto.
      - intros i j A B. apply fmap_cell. auto.
      - intros i A. unfold rmat. cbn [m_cells]. unfold nrows in A. rewrite Lo in A. rewrite (cell_mk n n) by lia. unfold rc.
        rewrite ltb_if by lia. cbn [vltb]. destruct (qcltb_spec (incr_of (fitc n C f) i 0) 0) as [Q|Q]; auto.
        exfalso. revert Q. change (~ (fitc n C f i 0 < 0)%Qc).
        assert (Fp : (0 < fitc n C f i 0)%Qc) by (apply fitc_pos; auto; [intros; apply vol_pos; auto; lia|lia]).
        intro Q. apply (Qclt_not_le _ _ Q). apply Qclt_le_weak. auto.
      - intros i j A B. unfold rmat. cbn [m_cells]. unfold nrows, ncols in A, B. rewrite Lo in A. rewrite Ld in B. rewrite (cell_mk n n) by lia.
        unfold rc. destruct (Nat.ltb_spec (i + j) n) as [L|L].
        + apply (Hr i j L).
        + cbn. apply Hnan. }
    rewrite Ers. unfold sres. cbn [o_ldfs o_fit_cum o_fit_incr o_resid_us o_resid_adj o_scale o_dof o_dist o_reserves o_summary o_total].
    set (lt := map (fun i => (nth i (m_idx m) 0%Z, Fin (C i (n - 1 - i)))) (seq 0 n)).
    assert (Elt : map (fun i => (nth i (m_idx m') 0%Z, Fin (C' i (n - 1 - i)))) (seq 0 n) = map (fun p => (fst p, sc (snd p))) lt).
    { unfold lt. rewrite map_map, Ei. auto. }
    rewrite Elt. 
    set (rows := map (fun p => (fst p, snd p, if (fst p =? zmin (map fst lt))%Z then slookup lt (fst p) else mean_by v_ultimate rs (fst p),
       vsub (if (fst p =? zmin (map fst lt))%Z then slookup lt (fst p) else mean_by v_ultimate rs (fst p)) (snd p))) lt).
    assert (Erows : map (fun p => (fst p, snd p,
        if (fst p =? zmin (map fst (map (fun p => (fst p, sc (snd p))) lt)))%Z then slookup (map (fun p => (fst p, sc (snd p))) lt) (fst p)
        else mean_by v_ultimate (map (srec (k * k)%Qc) rs) (fst p),
        vsub (if (fst p =? zmin (map fst (map (fun p => (fst p, sc (snd p))) lt)))%Z then slookup (map (fun p => (fst p, sc (snd p))) lt) (fst p)
        else mean_by v_ultimate (map (srec (k * k)%Qc) rs) (fst p)) (snd p))) (map (fun p => (fst p, sc (snd p))) lt)
        = map (fun r => let '(o, l, u, v) := r in (o, sc l, sc u, sc v)) rows).
    { unfold rows. rewrite !map_map. cbn [fst]. apply map_ext. intros (o, l). cbn [fst snd].
      assert (Es : slookup (map (fun p => (fst p, sc (snd p))) lt) o = sc (slookup lt o)).
      { clear. unfold slookup. induction lt as [|(a, b) l IH]; cbn [map find fst snd]; auto. destruct (a =? o)%Z; auto. }
      rewrite Es, (s_mean v_ultimate v_ultimate) by auto.
      destruct (o =? zmin (map (fun x => fst x) lt))%Z eqn:Eq; cbn [fst]; rewrite ?Eq, (sc_sub (k * k)%Qc Cp); auto. }
    rewrite Erows.
    assert (Et : forall pr : (Z * val * val * val) -> val, (forall o l u v, pr (o, sc l, sc u, sc v) = sc (pr (o, l, u, v))) ->
      skipsum (map pr (map (fun r => let '(o, l, u, v) := r in (o, sc l, sc u, sc v)) rows)) = sc (skipsum (map pr rows))).
    { intros pr H. rewrite <- (sc_skip (k * k)%Qc Cp), !map_map. f_equal. apply map_ext. intros (((o, l), u), v). auto. }
    rewrite (Et (fun r => snd (fst (fst r)))), (Et (fun r => snd (fst r))), (Et (fun r => snd r)) by auto.
    f_equal. rewrite Ec. apply map_seq_ext. intros j Hj. f_equal. f_equal. destruct (Nat.ltb_spec (S j) n); auto. apply s_f. auto.
  Qed.
End Call.
