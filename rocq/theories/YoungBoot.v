(** Proof of C95: the youngest origin and the bootstrap. *)

From Coq Require Import String QArith Qcanon ZArith List Bool Lia Permutation Sorting.Sorted.
From Verif Require Import Val Frame Triangle A2A Base Mack Boot ListLib QcLib Spec Spec2 SpecRel TblFacts ConvFacts FillFacts
  TriClaims4 RegFacts AvgFacts MackFacts BuildFacts BaseClaims ZeroClaims BootFit BootLib BootSim BootClaims
  SpecAny BelowOne AnyClaims AnySims.
Import ListNotations.
Open Scope string_scope.
Open Scope list_scope.
Open Scope nat_scope.

Section YoungSim.
  Variables (os ds : list Z) (n : nat) (fi fi' : nat -> nat -> Qc) (keep : nat -> bool) (rt : val -> val) (sims : nat) (resid : nat -> val).
  Hypothesis Hn : 0 < n.
  Hypothesis Agree : forall i j, i < n - 1 -> i + j < n -> fi i j = fi' i j.
  Hypothesis Kl : keep (n - 1) = true.

  Lemma yK s i j : i < n - 1 -> i + j < n -> Ka n fi keep rt resid s i j = Ka n fi' keep rt resid s i j.
  Proof. intros Hi Hj. unfold Ka. apply sumf_ext. intros k Hk. destruct (keep k); auto. unfold X. rewrite Agree by lia. auto. Qed.
  Lemma yF s k : k < n -> factor n keep (Ka n fi keep rt resid) s k = factor n keep (Ka n fi' keep rt resid) s k.
  Proof.
    intro Hk. unfold factor. destruct (keep k) eqn:Kk; [|reflexivity].
    destruct (find keep (seq (S k) (n - 1 - k))) as [k'|] eqn:F.
    - apply find_some in F as (F & _). apply in_seq in F. apply (f_equal2 ratio); apply sumf_ext; intros i Hi; apply yK; lia.
    - destruct (Nat.eq_dec k (n - 1)) as [->|D].
      + destruct s as [|q]; [reflexivity|]. rewrite Nat.sub_diag, !sumf_0. reflexivity.
      + assert (Q := find_none _ _ F (n - 1)). rewrite Q in Kl; [discriminate|]. apply in_seq. lia.
  Qed.
  Lemma yP s i j : i < n - 1 -> j < n ->
    path n keep (factor n keep (Ka n fi keep rt resid) s) (Ka n fi keep rt resid s) i j
    = path n keep (factor n keep (Ka n fi' keep rt resid) s) (Ka n fi' keep rt resid s) i j.
  Proof.
    intros Hi Hj. unfold path. destruct (Nat.eqb_spec i 0) as [->|Di].
    - destruct (keep j); [|reflexivity]. rewrite yK by lia. reflexivity.
    - destruct (Nat.ltb_spec j (n - 1 - i)).
      + destruct (keep j); [|reflexivity]. rewrite yK by lia. reflexivity.
      + destruct (keep (n - 1 - i)) eqn:Kq; [|reflexivity]. cbn [negb]. destruct (Nat.eqb_spec j (n - 1 - i)) as [->|D].
        * rewrite Kq, yK by lia. reflexivity.
        * rewrite yF by lia. destruct (factor n keep (Ka n fi' keep rt resid) s (j - 1)); [|reflexivity]. rewrite yK by lia.
          apply (f_equal Some). apply (f_equal2 Qcmult); [reflexivity|]. apply prodf_ext. intros k Hk. rewrite yF by lia. reflexivity.
  Qed.
  Definition fc_of (F : nat -> nat -> Qc) (s i : nat) : val * list simrow :=
    (known (la_a n F keep rt resid s i), map (rec_a os ds n F keep rt resid s i) (seq 0 n)).
  Lemma yFG s i : i < n - 1 -> fc_of fi s i = fc_of fi' s i.
  Proof.
    intro Hi. unfold fc_of. apply (f_equal2 pair).
    - unfold la_a. destruct (i =? 0); [reflexivity|]. destruct (keep (n - 1 - i)); [|reflexivity]. rewrite yK by lia. reflexivity.
    - apply map_seq_ext. intros j Hj. unfold rec_a. cbv zeta.
      assert (Q := fun k Hk => yP s i k Hi Hk).
      assert (St : step ds (path n keep (factor n keep (Ka n fi keep rt resid) s) (Ka n fi keep rt resid s) i) j
                 = step ds (path n keep (factor n keep (Ka n fi' keep rt resid) s) (Ka n fi' keep rt resid s) i) j).
      { apply step_ext. intros k Hk. apply Q. lia. }
      apply (f_equal2 (fun a b => mkS s (nth i os 0%Z) (nth j ds 0%Z) (negb (i + j <? n)) (known a) (known b))); [exact St|apply Q; lia].
  Qed.

  Hypothesis So : zsorted os.
  Hypothesis Sd : zsorted ds.
  Hypothesis Lo : length os = n.
  Hypothesis Ld : length ds = n.
  Variable scale : val.
  Variables (gam : list (val * val) -> nat -> val) (G : nat -> val * val -> val).
  Hypothesis HG : forall ps k, gam ps k = G k (nth k ps (NaN, NaN)).

  Definition RRa (F : nat -> nat -> Qc) (s i : nat) : rrec :=
    rec_of s (nth i os 0%Z) (fst (fc_of F s i))
      (last (cumsum (fincs (gam (gparams scale (cube sims n (fc_of F)))) ((s * n + i) * n) (snd (fc_of F s i)))) NaN).
  Lemma fc_key F s i : map key (snd (fc_of F s i)) = map (fun d => (s, nth i os 0%Z, d)) ds.
  Proof.
    unfold fc_of. cbn [snd]. rewrite map_map.
    transitivity (map (fun d => (s, nth i os 0%Z, d)) (map (fun j => nth j ds 0%Z) (seq 0 (length ds)))).
    - rewrite Ld, map_map. apply map_ext. intro j. reflexivity.
    - rewrite map_nth_seq. reflexivity.
  Qed.
  Lemma fc_par F (C : nat -> nat -> Qc) s i j : s < sims -> i < n -> j < n ->
    nth ((s * n + i) * n + j) (gparams scale (cube sims n (fc_of F))) (NaN, NaN)
    = (vabs (vdiv (b_inc (rec_a os ds n F keep rt resid s i j)) scale), scale).
  Proof.
    intros Hs Hi Hj. set (m := rmat os ds n C).
    assert (En : nrows m = n) by (change (nrows m) with (length os); auto).
    assert (Ec : ncols m = n) by (change (ncols m) with (length ds); auto).
    assert (Lf : length (cube sims n (fc_of F)) = sims * nrows m) by (rewrite En; apply cube_length).
    assert (Kf : forall s i, s < sims -> i < nrows m ->
      map key (snd (nth (s * nrows m + i) (cube sims n (fc_of F)) (NaN, []))) = map (fun d => (s, nth i (m_idx m) 0%Z, d)) (m_cols m)).
    { intros s' i' Hs' Hi'. rewrite En in *. rewrite cube_nth by auto. apply fc_key. }
    assert (Gp := gparams_any m scale sims (cube sims n (fc_of F)) Lf Kf s i j Hs). rewrite En, Ec in Gp. specialize (Gp Hi Hj).
    rewrite cube_nth in Gp by auto. unfold fc_of in Gp at 2. cbn [snd] in Gp. rewrite nth_map_seq in Gp by auto. exact Gp.
  Qed.
  Lemma yRR s i : s < sims -> i < n - 1 -> RRa fi s i = RRa fi' s i.
  Proof.
    intros Hs Hi. assert (E := yFG s i Hi). unfold RRa. rewrite E.
    apply (f_equal (fun l => rec_of s (nth i os 0%Z) (fst (fc_of fi' s i)) (last (cumsum l) NaN))). unfold fincs.
    apply map_ext_in. intros [k r] Hk. cbn [fst snd].
    assert (Hk' := in_combine_l _ _ _ _ Hk). unfold fc_of in Hk'. cbn [snd] in Hk'. rewrite map_length, seq_length in Hk'. apply in_seq in Hk'.
    assert (Ek : gam (gparams scale (cube sims n (fc_of fi))) k = gam (gparams scale (cube sims n (fc_of fi'))) k).
    { rewrite !HG. apply (f_equal (G k)). replace k with ((s * n + i) * n + (k - (s * n + i) * n)) by lia.
      rewrite !(fc_par _ fi) by lia. apply (f_equal (fun r => (vabs (vdiv (b_inc r) scale), scale))).
      assert (Q : nth (k - (s * n + i) * n) (snd (fc_of fi s i)) (mkS 0 0 0 false NaN NaN) = nth (k - (s * n + i) * n) (snd (fc_of fi' s i)) (mkS 0 0 0 false NaN NaN))
        by (rewrite E; auto).
      unfold fc_of in Q. cbn [snd] in Q. rewrite !nth_map_seq in Q by lia. rewrite Q. auto. }
    unfold final_incr. rewrite Ek. auto.
  Qed.

  (** What the simulation returns, for either triangle. *)
  Hypothesis Kp0 : keep 0 = true.
  Hypothesis Rt : root_like rt.
  Hypothesis Rf : forall k, k < sims * (n * n) -> exists q, resid k = Fin q.
  Lemma y_sim C F : (forall i j, i + j < n -> keep j = true -> (0 <= F i j)%Qc) ->
    (forall i j, i + j < n -> keep j = false -> (F i j < 0)%Qc) ->
    simulate rt (rmat os ds n C) (map (fun j => n - 1 - j) (seq 0 n)) (map (fun i => n - 1 - i) (seq 0 n)) (rmat os ds n F) scale sims resid gam
    = flat_map (fun i => map (fun s => RRa F s i) (seq 0 sims)) (seq 0 n).
  Proof.
    intros Fpos Fneg.
    assert (GL : forall x, n - 1 < x < n -> keep x = false) by (intros; lia).
    assert (Ef := any_fcs os ds n C F keep So Sd Lo Ld Hn Kp0 Fpos Fneg rt Rt sims resid Rf (n - 1) ltac:(lia) Kl GL).
    unfold simulate.
    change (fun o : Z => match zfind o (m_idx (rmat os ds n C)) with
        Some i => nth (nth i (map (fun i => n - 1 - i) (seq 0 n)) 0) (m_cols (rmat os ds n C)) 0%Z | None => 0%Z end) with (ladev os ds n).
    change (fun s i => (known (la_a n F keep rt resid s i), map (rec_a os ds n F keep rt resid s i) (seq 0 n))) with (fc_of F) in Ef.
    rewrite Ef. set (m := rmat os ds n C).
    assert (En : nrows m = n) by (change (nrows m) with (length os); auto).
    assert (Ec : ncols m = n) by (change (ncols m) with (length ds); auto).
    assert (Nd : m_cols m <> []). { change (ds <> []). intro Q. rewrite Q in Ld. simpl in Ld. lia. }
    assert (Lf : length (cube sims n (fc_of F)) = sims * nrows m) by (rewrite En; apply cube_length).
    assert (Kf : forall s i, s < sims -> i < nrows m ->
      map key (snd (nth (s * nrows m + i) (cube sims n (fc_of F)) (NaN, []))) = map (fun d => (s, nth i (m_idx m) 0%Z, d)) (m_cols m)).
    { intros s' i' Hs' Hi'. rewrite En in *. rewrite cube_nth by auto. apply fc_key. }
    assert (Ra := records_any m scale sims (cube sims n (fc_of F)) So Sd Nd Lf Kf gam). rewrite En, Ec in Ra. rewrite Ra.
    apply flat_map_seq_ext. intros i Hi. apply map_seq_ext. intros s Hs. rewrite cube_nth by lia. reflexivity.
  Qed.
End YoungSim.

Section Young.
  Variables (m m' : lmat) (n : nat) (C C' : nat -> nat -> Qc).
  Hypothesis R : regular m n C.
  Hypothesis R' : regular m' n C'.
  Hypothesis P : positive n C.
  Hypothesis P' : positive n C'.
  Hypothesis Hn : 2 < n.
  Hypothesis Ei : m_idx m' = m_idx m.
  Hypothesis Ec : m_cols m' = m_cols m.
  Hypothesis Y : same_but_youngest n C C'.
  Hypothesis Ev : tail_fits (m_cols m).
  Variables (ind : list (list val)) (w : nat -> nat -> bool).
  Hypothesis Hi : forall i j, i + j < n - 1 -> cell ind i j = Fin (if w i j then 1 else 0)%Qc.
  Hypothesis Hl : forall j, j < n - 1 -> w (n - 2 - j) j = true.
  Variables (gm : list val -> val) (rt : val -> val).
  Hypothesis Rt : root_like rt.
  Hypothesis F1 : (1 <= vol_factor n C (n - 2))%Qc.

  Let os := m_idx m.
  Let ds := m_cols m.
  Let f := vol_factor n C.
  Let fi := incr_of (fitc n C f).
  Let fi' := incr_of (fitc n C' f).

  Lemma y_factor j : S j < n -> vol_factor n C' j = f j.
  Proof.
    intro Hj. unfold f, vol_factor.
    rewrite (sumf_ext 0 (n - 1 - j) (fun i => C' i (S j)) (fun i => C i (S j))) by (intros; apply Y; lia).
    rewrite (sumf_ext 0 (n - 1 - j) (fun i => C' i j) (fun i => C i j)) by (intros; apply Y; lia). auto.
  Qed.
  Lemma y_fitc i j : i < n -> fitc n C' (vol_factor n C') i j = fitc n C' f i j.
  Proof. intro A. unfold fitc. f_equal. apply prodf_ext. intros k Hk. apply y_factor. lia. Qed.
  Lemma y_fitc2 i j : i < n - 1 -> fitc n C' f i j = fitc n C f i j.
  Proof. intro A. unfold fitc. rewrite Y by lia. auto. Qed.
  Lemma y_incr i j : i < n -> incr_of (fitc n C' (vol_factor n C')) i j = fi' i j.
  Proof. intro A. unfold fi'. destruct j; cbn [incr_of]; rewrite !y_fitc by auto; auto. Qed.
  Lemma y_incr2 i j : i < n - 1 -> fi' i j = fi i j.
  Proof. intro A. unfold fi, fi'. destruct j; cbn [incr_of]; rewrite !y_fitc2 by auto; auto. Qed.
  Lemma young_rus D (PD : positive n D) : rus n D f rt (n - 1) 0 = Fin 0%Qc.
  Proof.
    unfold rus. rewrite ltb_if by lia. cbn [incr_of].
    assert (E := fitc_last n D f (n - 1)). replace (n - 1 - (n - 1)) with 0 in E by lia. rewrite E.
    assert (Dp : (0 < D (n - 1)%nat 0%nat)%Qc) by (apply PD; lia).
    destruct Rt as (_ & _ & Rp & _).
    assert (Ea : abs_ (D (n - 1)%nat 0%nat) = D (n - 1)%nat 0%nat).
    { unfold abs_. destruct (qcltb_spec (D (n - 1)%nat 0%nat) 0) as [Q|Q]; auto. exfalso. qlra. }
    rewrite Ea. destruct (Rp _ Dp) as (r & Hr & ->). rewrite vdiv_fin by (apply qc_pos_neq; auto). f_equal. field.
    apply qc_pos_neq; auto.
  Qed.
  Lemma y_rus i j : i < n -> j < n -> rus n C' (vol_factor n C') rt i j = rus n C f rt i j.
  Proof.
    intros A B. assert (E : rus n C' (vol_factor n C') rt i j = rus n C' f rt i j).
    { unfold rus. rewrite y_incr by auto. auto. }
    rewrite E. destruct (Nat.eq_dec i (n - 1)) as [->|D].
    - destruct j as [|j].
      + rewrite !young_rus; auto.
      + unfold rus. rewrite !nltb_if by lia. auto.
    - unfold rus. destruct (Nat.ltb_spec (i + j) n) as [Q|Q]; auto. fold fi fi'. rewrite y_incr2 by lia.
      assert (W : incr_of C' i j = incr_of C i j) by (destruct j; cbn [incr_of]; rewrite ?Y by lia; auto).
      rewrite W. auto.
  Qed.
  Lemma y_ru : ru m' n C' rt = ru m n C rt.
  Proof. unfold ru. rewrite Ei, Ec. f_equal. apply mk_ext. intros. apply y_rus; auto. Qed.
  Lemma y_cells : nbr_cells m' = nbr_cells m.
  Proof.
    destruct (regular_rmat m n C R) as (E & So & Sd & Lo & Ld). destruct (regular_rmat m' n C' R') as (E' & So' & Sd' & Lo' & Ld').
    rewrite E, E'. rewrite !r_nbr_cells; auto; lia.
  Qed.
  Lemma y_dof : dof m' = dof m.
  Proof. unfold dof. rewrite y_cells. unfold nrows, ncols. rewrite Ei, Ec. auto. Qed.
  Lemma y_ra : ra m' n C' rt = ra m n C rt.
  Proof.
    unfold ra, adjc. rewrite Ei, Ec, y_cells, y_dof. f_equal. apply mk_ext. intros i j A B. rewrite y_rus by auto. auto.
  Qed.

  Lemma fi_sign D (PD : positive n D) i j : i + j < n ->
    (alive n C j = true -> (0 <= incr_of (fitc n D f) i j)%Qc) /\ (alive n C j = false -> (incr_of (fitc n D f) i j < 0)%Qc).
  Proof.
    intro A. assert (Fp : forall j, j < n - 1 -> (0 < f j)%Qc) by (intros k Hk; apply vol_pos; auto; lia).
    destruct j as [|j]; cbn [incr_of alive].
    - split; [intros _; apply Qclt_le_weak, fitc_pos; auto|discriminate].
    - rewrite fitc_step by (auto; lia).
      assert (Q : (0 < fitc n D f i j)%Qc) by (apply fitc_pos; auto; lia).
      match goal with |- context [(?x * f j - ?x)%Qc] => replace (x * f j - x)%Qc with (x * (f j - 1))%Qc by ring end.
      destruct (qcleb_spec 1 (vol_factor n C j)) as [Z|Z]; split; intro H; try discriminate.
      + apply qc_mul_nonneg; [apply Qclt_le_weak; auto|]. unfold f. qlra.
      + assert (W : (0 < fitc n D f i j * (1 - f j))%Qc) by (apply qc_mul_pos; auto; apply Qcnot_le_lt in Z; unfold f; qlra).
        replace (fitc n D f i j * (f j - 1))%Qc with (- (fitc n D f i j * (1 - f j)))%Qc by ring. qlra.
  Qed.

  Lemma c95 cl rl sims par rng b (G : list val -> nat -> val * val -> val) :
    clvi m = Ok cl -> rlvi m = Ok rl ->
    boot_cl gm rt (mkTri m "origin" "dev" "value") cl rl ind sims par rng = Ok b ->
    (forall k, k < sims * (n * n) -> exists q, fst (rng (o_dist b)) k = Fin q) ->
    (forall l ps k, snd (rng l) ps k = G l k (nth k ps (NaN, NaN))) ->
    clvi m' = Ok cl /\ rlvi m' = Ok rl /\
    exists b', boot_cl gm rt (mkTri m' "origin" "dev" "value") cl rl ind sims par rng = Ok b' /\
      o_ldfs b' = o_ldfs b /\ o_dof b' = o_dof b /\ o_scale b' = o_scale b /\
      o_resid_us b' = o_resid_us b /\ o_resid_adj b' = o_resid_adj b /\ o_dist b' = o_dist b /\
      (forall i j, i < n - 1 -> j < n ->
         cell (m_cells (o_fit_cum b')) i j = cell (m_cells (o_fit_cum b)) i j /\
         cell (m_cells (o_fit_incr b')) i j = cell (m_cells (o_fit_incr b)) i j) /\
      (forall o, o <> nth (n - 1) (m_idx m) 0%Z ->
         filter (fun r => (v_o r =? o)%Z) (o_reserves b') = filter (fun r => (v_o r =? o)%Z) (o_reserves b)) /\
      firstn (n - 1) (o_summary b') = firstn (n - 1) (o_summary b).
  Proof.
    intros Hcl Hrl B Rf HG.
    destruct (regular_rmat m n C R) as (E & So & Sd & Lo & Ld). destruct (regular_rmat m' n C' R') as (E' & So' & Sd' & Lo' & Ld').
    rewrite E in Hcl, Hrl. rewrite r_clvi in Hcl by (auto; lia). rewrite r_rlvi in Hrl by (auto; lia).
    split; [rewrite E', r_clvi by (auto; lia); auto|]. split; [rewrite E', r_rlvi by (auto; lia); auto|].
    injection Hcl as <-. injection Hrl as <-.
    rewrite (boot_eq m n C R P Hn Ev ind w Hi Hl) in B. cbv zeta in B.
    rewrite (boot_eq m' n C' R' P' Hn ltac:(rewrite Ec; exact Ev) ind w Hi Hl). cbv zeta.
    rewrite y_ru, y_ra.
    assert (Es : scale_param m' (ru m n C rt) = scale_param m (ru m n C rt)) by (unfold scale_param; rewrite y_dof; auto).
    rewrite Es, y_dof, Ei, Ec.
    destruct (negb par && _ && _); [discriminate|]. injection B as <-. cbn [o_dist] in Rf.
    assert (Ef : rmat (m_idx m) (m_cols m) n (incr_of (fitc n C' (vol_factor n C'))) = rmat os ds n fi').
    { unfold rmat. f_equal. apply mk_ext. intros i j A Bq. unfold rc. rewrite y_incr by auto. auto. }
    rewrite Ef. fold f fi os ds.
    set (sd := sampling_dist (ra m n C rt)) in *. set (sc := scale_param m (ru m n C rt)).
    set (resid := fst (rng sd)) in *. set (gam := snd (rng sd)).
    set (keep := alive n C).
    assert (Kl : keep (n - 1) = true).
    { unfold keep. replace (n - 1) with (S (n - 2)) by lia. cbn [alive]. destruct (qcleb_spec 1 (vol_factor n C (n - 2))); [reflexivity|contradiction]. }
    assert (S1 : simulate rt m (map (fun j => n - 1 - j) (seq 0 n)) (map (fun i => n - 1 - i) (seq 0 n)) (rmat os ds n fi) sc sims resid gam
      = flat_map (fun i => map (fun s => RRa os ds n keep rt sims resid sc gam fi s i) (seq 0 sims)) (seq 0 n)).
    { rewrite E at 1. apply (y_sim os ds n keep rt sims resid ltac:(lia) Kl So Sd Lo Ld); auto; intros; apply fi_sign; auto. }
    assert (S2 : simulate rt m' (map (fun j => n - 1 - j) (seq 0 n)) (map (fun i => n - 1 - i) (seq 0 n)) (rmat os ds n fi') sc sims resid gam
      = flat_map (fun i => map (fun s => RRa os ds n keep rt sims resid sc gam fi' s i) (seq 0 sims)) (seq 0 n)).
    { rewrite E' at 1. rewrite Ei, Ec. apply (y_sim os ds n keep rt sims resid ltac:(lia) Kl So Sd Lo Ld); auto; intros; apply fi_sign; auto. }
    assert (S3 : forall o, o <> nth (n - 1) os 0%Z ->
      filter (fun r => (v_o r =? o)%Z) (flat_map (fun i => map (fun s => RRa os ds n keep rt sims resid sc gam fi' s i) (seq 0 sims)) (seq 0 n))
      = filter (fun r => (v_o r =? o)%Z) (flat_map (fun i => map (fun s => RRa os ds n keep rt sims resid sc gam fi s i) (seq 0 sims)) (seq 0 n))).
    { intros o Ho. rewrite !filter_flat_map. apply flat_map_seq_ext. intros i Hi'.
      destruct (Nat.eq_dec i (n - 1)) as [->|D].
      - assert (W : forall F, filter (fun r => (v_o r =? o)%Z) (map (fun s => RRa os ds n keep rt sims resid sc gam F s (n - 1)) (seq 0 sims)) = []).
        { intro F. rewrite filter_map_seq. cbn [RRa rec_of v_o].
          assert (Z : forall l : list nat, filter (fun _ : nat => (nth (n - 1) os 0 =? o)%Z) l = []).
          { intro l. destruct (Z.eqb_spec (nth (n - 1) os 0%Z) o); [congruence|]. induction l; auto. }
          rewrite Z. auto. }
        rewrite !W. auto.
      - apply (f_equal (filter (fun r => (v_o r =? o)%Z))). apply map_seq_ext. intros s Hs. symmetry.
        assert (Ag : forall i j, i < n - 1 -> i + j < n -> fi i j = fi' i j) by (intros i0 j0 A1 A2; symmetry; apply y_incr2; auto).
        assert (HG' : forall ps k, gam ps k = G sd k (nth k ps (NaN, NaN))) by (intros ps k; apply HG).
        exact (yRR os ds n fi fi' keep rt sims resid ltac:(lia) Ag Kl Lo Ld sc gam (G sd) HG' s i ltac:(lia) ltac:(lia)). }
    eexists. split; [reflexivity|]. cbn [o_ldfs o_dof o_scale o_resid_us o_resid_adj o_dist o_fit_cum o_fit_incr o_reserves o_summary].
    split.
    { apply map_seq_ext. intros j Hj. destruct (Nat.ltb_spec (S j) n); auto. rewrite y_factor by auto. auto. }
    do 5 (split; [reflexivity|]). split; [|split].
    - intros i j A Bq. cbn [rmat m_cells]. rewrite !cell_mk by lia. unfold rc. rewrite y_fitc, y_fitc2, y_incr2 by lia. auto.
    - intros o Ho. rewrite S1, S2. apply S3. exact Ho.
    - assert (Fs : firstn (n - 1) (seq 0 n) = seq 0 (n - 1)).
      { rewrite (seq_last n) by lia. rewrite firstn_app, seq_length, Nat.sub_diag, firstn_all2 by (rewrite seq_length; lia).
        cbn [firstn]. apply app_nil_r. }
      rewrite S1, S2, !map_map, !firstn_map, Fs. apply map_seq_ext. intros i Hi'. cbn [fst snd].
      assert (Oi : nth i (m_idx m) 0%Z <> nth (n - 1) os 0%Z).
      { assert (W := zsorted_nth (m_idx m) i (n - 1) 0%Z So ltac:(lia)). unfold os. lia. }
      assert (Ul : forall D, slookup (map (fun i => (nth i os 0%Z, Fin (D i (n - 1 - i)%nat))) (seq 0 n)) (nth i os 0%Z) = Fin (D i (n - 1 - i)%nat)).
      { intro D. apply (slookup_map (fun i => nth i os 0%Z) (fun i => Fin (D i (n - 1 - i)%nat))); [|apply in_seq; lia].
        rewrite <- Lo. fold os. rewrite list_map_nth. apply zsorted_nodup. exact So. }
      rewrite !Ul. unfold mean_by. rewrite S3 by exact Oi. rewrite Y by lia. auto.
  Qed.
End Young.
