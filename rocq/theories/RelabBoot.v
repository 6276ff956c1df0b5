(** Simulation on a triangle with other labels (C94). *)

From Coq Require Import String QArith Qcanon ZArith List Bool Lia.
From Verif Require Import Val Frame Triangle A2A Base Mack Boot Quant ListLib QcLib Spec BuildFacts RegFacts BaseClaims BsPlotClaims.
Import ListNotations.
Open Scope list_scope.
Open Scope nat_scope.

Lemma filter_map_in {A B} (f : A -> B) (p : B -> bool) (q : A -> bool) l : (forall x, In x l -> p (f x) = q x) ->
  filter p (map f l) = map f (filter q l).
Proof.
  intro H. induction l as [|x l IH]; cbn [map filter]; auto. rewrite H by (left; auto).
  rewrite IH by (intros; apply H; right; auto). destruct (q x); auto.
Qed.
Lemma sins_map_in {A B} (ca : A -> A -> comparison) (cb : B -> B -> comparison) (f : A -> B) x l :
  (forall y, In y l -> cb (f x) (f y) = ca x y) -> sins cb (f x) (map f l) = map f (sins ca x l).
Proof.
  intro H. induction l as [|y l IH]; cbn [map sins]; auto. rewrite H by (left; auto).
  destruct (ca x y); cbn [map]; auto. rewrite IH by (intros; apply H; right; auto). auto.
Qed.
Lemma sins_in {A} (c : A -> A -> comparison) x l y : In y (sins c x l) -> y = x \/ In y l.
Proof.
  induction l as [|z l IH]; cbn [sins]; intro H.
  - destruct H as [->|[]]; auto.
  - destruct (c x z); cbn [In] in *; destruct H as [->|H]; auto. apply IH in H as [->|H]; auto.
Qed.
Lemma ssort_in' {A} (c : A -> A -> comparison) l y : In y (ssort c l) -> In y l.
Proof.
  unfold ssort. induction l as [|x l IH]; cbn [fold_right]; auto. intro H. apply sins_in in H as [->|H]; [left|right]; auto.
Qed.
Lemma ssort_map_in {A B} (ca : A -> A -> comparison) (cb : B -> B -> comparison) (f : A -> B) l :
  (forall x y, In x l -> In y l -> cb (f x) (f y) = ca x y) -> ssort cb (map f l) = map f (ssort ca l).
Proof.
  intro H. induction l as [|x l IH]; auto. change (ssort cb (map f (x :: l))) with (sins cb (f x) (ssort cb (map f l))).
  rewrite IH by (intros; apply H; right; auto). change (ssort ca (x :: l)) with (sins ca x (ssort ca l)).
  apply sins_map_in. intros y Hy. apply H; [left; auto|right; eapply ssort_in'; eauto].
Qed.
Lemma combine_map2 {A B A' B'} (f : A -> A') (g : B -> B') a b : combine (map f a) (map g b) = map (fun p => (f (fst p), g (snd p))) (combine a b).
Proof. revert b. induction a as [|x a IH]; intros [|y b]; cbn [map combine]; auto. rewrite IH. auto. Qed.

Section Relab.
  Variables (m m' fit fit' : lmat) (rt : val -> val) (resid : nat -> val) (phi psi : Z -> Z).
  Hypothesis Ei : m_idx m' = map phi (m_idx m).
  Hypothesis Ec : m_cols m' = map psi (m_cols m).
  Hypothesis Mi : forall a b, In a (m_idx m) -> In b (m_idx m) -> Z.compare (phi a) (phi b) = Z.compare a b.
  Hypothesis Mc : forall a b, In a (m_cols m) -> In b (m_cols m) -> Z.compare (psi a) (psi b) = Z.compare a b.
  Hypothesis M1 : forall d, In d (m_cols m) -> (psi d =? 1)%Z = (d =? 1)%Z.
  Hypothesis Hf : m_cells fit' = m_cells fit.
  Hypothesis Ni : m_idx m <> [].
  Hypothesis Nc : m_cols m <> [].

  Let En : nrows m' = nrows m. Proof. unfold nrows. rewrite Ei. apply map_length. Qed.
  Let Em : ncols m' = ncols m. Proof. unfold ncols. rewrite Ec. apply map_length. Qed.

  Lemma cmp_eqb (h : Z -> Z) a b : Z.compare (h a) (h b) = Z.compare a b -> (h a =? h b)%Z = (a =? b)%Z.
  Proof. intro H. rewrite !Z.eqb_compare, H. auto. Qed.
  Lemma cmp_leb (h : Z -> Z) a b : Z.compare (h a) (h b) = Z.compare a b -> (h a <=? h b)%Z = (a <=? b)%Z.
  Proof. intro H. unfold Z.leb. rewrite H. auto. Qed.
  Lemma min_map (h : Z -> Z) l : (forall a b, In a l -> In b l -> Z.compare (h a) (h b) = Z.compare a b) -> l <> [] ->
    zmin (map h l) = h (zmin l).
  Proof.
    intros H N. apply AvgFacts.zmin_least.
    - apply in_map. apply BaseClaims.zmin_in. auto.
    - intros y Hy. apply in_map_iff in Hy as (x & <- & Hx). apply Z.leb_le. rewrite cmp_leb.
      + apply Z.leb_le. apply zmin_le. auto.
      + apply H; auto. apply BaseClaims.zmin_in. auto.
  Qed.
  Lemma max_map (h : Z -> Z) l : (forall a b, In a l -> In b l -> Z.compare (h a) (h b) = Z.compare a b) -> l <> [] ->
    zmax (map h l) = h (zmax l).
  Proof.
    intros H N. assert (Nm : map h l <> []) by (destruct l; [contradiction|discriminate]).
    assert (A := zmax_in (map h l) Nm). apply in_map_iff in A as (x & Ex & Hx).
    assert (B : (h (zmax l) <= zmax (map h l))%Z) by (apply zmax_ge, in_map, zmax_in; auto).
    rewrite <- Ex in *. apply Z.le_antisymm; auto. apply Z.leb_le. rewrite cmp_leb; [apply Z.leb_le, zmax_ge; auto|].
    apply H; auto. apply zmax_in. auto.
  Qed.

  Definition rr (r : simrow) : simrow := mkS (b_sim r) (phi (b_o r)) (psi (b_d r)) (b_fc r) (b_inc r) (b_cum r).
  Definition okr (r : simrow) : Prop := In (b_o r) (m_idx m) /\ In (b_d r) (m_cols m).
  Definition okg (g : list simrow) : Prop := forall r, In r g -> okr r.

  Lemma nth_phi i : i < nrows m -> nth i (m_idx m') 0%Z = phi (nth i (m_idx m) 0%Z).
  Proof. intro H. rewrite Ei, (nth_indep _ 0%Z (phi 0%Z)) by (rewrite map_length; auto). apply map_nth. Qed.
  Lemma nth_psi j : j < ncols m -> nth j (m_cols m') 0%Z = psi (nth j (m_cols m) 0%Z).
  Proof. intro H. rewrite Ec, (nth_indep _ 0%Z (psi 0%Z)) by (rewrite map_length; auto). apply map_nth. Qed.

  Lemma group_rr s i : i < nrows m -> sample_group rt m' fit' resid s i = map rr (sample_group rt m fit resid s i).
  Proof.
    intro Hi. unfold sample_group. rewrite En, Em, Hf, map_map. apply map_seq_ext. intros j Hj. unfold rr.
    cbn [b_sim b_o b_d b_fc b_inc b_cum]. rewrite nth_phi, nth_psi by lia. auto.
  Qed.
  Lemma group_ok s i : i < nrows m -> okg (sample_group rt m fit resid s i).
  Proof.
    intros Hi r Hr. unfold sample_group in Hr. apply in_map_iff in Hr as (j & <- & Hj). apply in_seq in Hj.
    split; cbn [b_o b_d]; apply nth_In; [exact Hi|]. unfold ncols in Hj. lia.
  Qed.
  Lemma samples_rr sims : Boot.samples rt m' fit' sims resid = map (map rr) (Boot.samples rt m fit sims resid).
  Proof.
    unfold Boot.samples. rewrite En. generalize (seq 0 sims). intro l. induction l as [|s l IH]; cbn [flat_map map]; auto.
    rewrite map_app, IH. f_equal. rewrite map_map. apply map_seq_ext. intros i Hi. apply group_rr. lia.
  Qed.
  Lemma samples_ok sims g : In g (Boot.samples rt m fit sims resid) -> okg g.
  Proof.
    unfold Boot.samples. intro H. apply in_flat_map in H as (s & _ & H). apply in_map_iff in H as (i & <- & H). apply in_seq in H.
    apply group_ok. lia.
  Qed.

  Definition okt (tab : list (list simrow)) : Prop := forall g, In g tab -> okg g.

  Lemma agg_rr cl sims tab : (forall j, nth j cl O < nrows m) -> okt tab -> agg_rows m' cl sims (map (map rr) tab)
    = map (fun r => let '(s, d, a, b) := r in (s, psi d, a, b)) (agg_rows m cl sims tab).
  Proof.
    intros Hc Ot. unfold agg_rows. rewrite Em, <- concat_map.
    assert (Of : okg (List.concat tab)).
    { intros r H. apply in_concat in H as (g & A & B). apply (Ot g A r B). }
    generalize (seq 0 sims). intro l. induction l as [|s l IH]; cbn [flat_map map]; auto. rewrite map_app, IH. f_equal. clear IH l.
    assert (Hl : forall j, In j (seq 0 (ncols m)) -> j < ncols m) by (intros j H; apply in_seq in H; lia).
    revert Hl. generalize (seq 0 (ncols m)). intros l Hl. induction l as [|j l IH]; cbn [flat_map map]; auto.
    rewrite map_app, IH by (intros; apply Hl; right; auto). f_equal. clear IH. assert (Hj : j < ncols m) by (apply Hl; left; auto). clear Hl.
    cbv zeta. rewrite nth_psi by auto. rewrite nth_phi by auto.
    set (p := fun r => (b_sim r =? s) && (b_d r =? nth j (m_cols m) 0%Z)%Z && negb (isnan (b_cum r))).
    rewrite (filter_map_in rr _ p).
    2:{ intros r Hr. unfold p. cbn [rr b_sim b_d b_cum]. rewrite cmp_eqb; auto. apply Mc; [apply (Of r Hr)|apply nth_In; auto]. }
    assert (Og : okg (filter p (List.concat tab))) by (intros r Hr; apply filter_In in Hr as (Hr & _); auto).
    destruct (filter p (List.concat tab)) as [|r g]; auto.
    assert (E1 : skipsum (map b_cum (map rr (r :: g))) = skipsum (map b_cum (r :: g))) by (rewrite map_map; auto).
    assert (E2 : skipsum (map (fun r => if (b_o r =? phi (nth (nth j cl O) (m_idx m) 0%Z))%Z then Fin 0%Qc else b_cum r) (map rr (r :: g)))
               = skipsum (map (fun r => if (b_o r =? nth (nth j cl O) (m_idx m) 0%Z)%Z then Fin 0%Qc else b_cum r) (r :: g))).
    { f_equal. rewrite map_map. apply map_ext_in. intros x Hx. cbn [rr b_o b_cum].
      rewrite cmp_eqb; auto. apply Mi; [apply (Og x Hx)|apply nth_In; apply Hc]. }
    cbn [map] in E1, E2 |- *. rewrite E1, E2. auto.
  Qed.
  Lemma agg_ok cl sims tab r : In r (agg_rows m cl sims tab) -> In (snd (fst (fst r))) (m_cols m).
  Proof.
    unfold agg_rows. intro H. apply in_flat_map in H as (s & _ & H). apply in_flat_map in H as (j & Hj & H). cbv zeta in H.
    destruct (filter _ _); [contradiction|]. destruct H as [<-|[]]. cbn [fst snd]. apply in_seq in Hj. apply nth_In. unfold ncols in Hj. lia.
  Qed.
  Lemma ldf_rows_rr l : forall prev,
    ldf_rows (match prev with Some (d, a) => Some (psi d, a) | None => None end) (map (fun r => let '(s, d, a, b) := r in (s, psi d, a, b)) l)
    = map (fun r => (fst (fst r), psi (snd (fst r)), snd r)) (ldf_rows prev l).
  Proof.
    induction l as [|(((s, d), a1), a2) l IH]; intros prev; cbn [map ldf_rows]; auto. rewrite map_app. f_equal.
    - destruct prev as [(d0, a0)|]; auto. destruct (veqb a0 (Fin 0%Qc) || isnan a0 || isnan a1); auto.
    - apply (IH (Some (d, a2))).
  Qed.
  Lemma ldf_rows_ok l : (forall r, In r l -> In (snd (fst (fst r))) (m_cols m)) -> forall prev,
    (match prev with Some (d, _) => In d (m_cols m) | None => True end) ->
    forall r, In r (ldf_rows prev l) -> In (snd (fst r)) (m_cols m).
  Proof.
    induction l as [|(((s, d), a1), a2) l IH]; intros H prev Hp r Hr; cbn [ldf_rows] in Hr; [contradiction|].
    apply in_app_or in Hr as [Hr|Hr].
    - destruct prev as [(d0, a0)|]; [|contradiction]. destruct (veqb a0 (Fin 0%Qc) || isnan a0 || isnan a1); [contradiction|].
      destruct Hr as [<-|[]]. auto.
    - apply (IH ltac:(intros; apply H; right; auto) (Some (d, a2))); auto. apply (H (s, d, a1, a2)). left. auto.
  Qed.
  Definition rl3 (r : nat * Z * val) : nat * Z * val := (fst (fst r), psi (snd (fst r)), snd r).
  Lemma ldfs_rr cl sims tab : (forall j, nth j cl O < nrows m) -> okt tab -> bs_ldfs m' cl sims (map (map rr) tab) = map rl3 (bs_ldfs m cl sims tab).
  Proof. intros Hc Ot. unfold bs_ldfs. rewrite agg_rr by auto. apply (ldf_rows_rr _ None). Qed.
  Lemma ldfs_ok cl sims tab r : In r (bs_ldfs m cl sims tab) -> In (snd (fst r)) (m_cols m).
  Proof. unfold bs_ldfs. apply ldf_rows_ok; auto. intros; eapply agg_ok; eauto. Qed.

  Definition okl (lt : list (nat * Z * val)) : Prop := forall r, In r lt -> In (snd (fst r)) (m_cols m).
  Lemma ldf_at_rr lt s d : okl lt -> In d (m_cols m) -> ldf_at (map rl3 lt) s (psi d) = ldf_at lt s d.
  Proof.
    intros Ol Hd. unfold ldf_at. induction lt as [|r lt IH]; cbn [map find]; auto. cbn [rl3 fst snd].
    rewrite (cmp_eqb psi) by (apply Mc; auto; apply Ol; left; auto).
    destruct ((fst (fst r) =? s) && (snd (fst r) =? d)%Z); auto. apply IH. intros x Hx. apply Ol. right. auto.
  Qed.

  Variables (ladev ladev' : Z -> Z).
  Hypothesis La : forall o, In o (m_idx m) -> In (ladev o) (m_cols m) /\ ladev' (phi o) = psi (ladev o).
  Lemma leb_rr r : okr r -> (ladev' (b_o (rr r)) <=? b_d (rr r))%Z = (ladev (b_o r) <=? b_d r)%Z.
  Proof. intros (A & B). cbn [rr b_o b_d]. destruct (La _ A) as (D & ->). apply cmp_leb. apply Mc; auto. Qed.
  Lemma fc_rr g : okg g -> fc_part ladev' (map rr g) = map rr (fc_part ladev g).
  Proof. intro H. apply filter_map_in. intros r Hr. apply leb_rr. auto. Qed.
  Lemma act_rr g : okg g -> act_part ladev' (map rr g) = map rr (act_part ladev g).
  Proof. intro H. apply filter_map_in. intros r Hr. f_equal. apply leb_rr. auto. Qed.
  Lemma lact_rr g : okg g -> l_act_cum ladev' (map rr g) = l_act_cum ladev g.
  Proof. intro H. unfold l_act_cum. rewrite fc_rr by auto. destruct (fc_part ladev g); auto. Qed.
  Lemma fc_ok g : okg g -> okg (fc_part ladev g).
  Proof. intros H r Hr. apply filter_In in Hr as (Hr & _). auto. Qed.
  Lemma act_ok g : okg g -> okg (act_part ladev g).
  Proof. intros H r Hr. apply filter_In in Hr as (Hr & _). auto. Qed.
  Lemma cumldf_rr lt g : okl lt -> okg g -> cum_ldfs ladev' (map rl3 lt) (map rr g) = cum_ldfs ladev lt g.
  Proof.
    intros Ol H. unfold cum_ldfs. rewrite fc_rr, map_map by auto. f_equal. apply map_ext_in. intros r Hr. cbn [rr b_sim b_d].
    apply ldf_at_rr; auto. apply (fc_ok g H r Hr).
  Qed.
  Lemma first_rr g : okg g -> is_first m' (map rr g) = is_first m g.
  Proof.
    intro H. unfold is_first. destruct g as [|r g]; auto. cbn [map]. rewrite Ei, min_map by auto. cbn [rr b_o]. apply cmp_eqb.
    apply Mi; [apply (H r); left; auto|apply BaseClaims.zmin_in; auto].
  Qed.
  Lemma incr_rr l : (forall q, In q l -> In (fst q) (m_cols m)) -> forall p, incr_from p (map (fun q => (psi (fst q), snd q)) l) = incr_from p l.
  Proof.
    induction l as [|(d, x) l IH]; intros H p; cbn [map incr_from fst snd]; auto. rewrite IH by (intros; apply H; right; auto).
    rewrite M1 by (apply (H (d, x)); left; auto). auto.
  Qed.
  Lemma set_rr g cums : okg g -> set_cum_inc (map rr g) cums = map rr (set_cum_inc g cums).
  Proof.
    intro H. unfold set_cum_inc.
    assert (E : combine (map b_d (map rr g)) cums = map (fun q => (psi (fst q), snd q)) (combine (map b_d g) cums)).
    { rewrite map_map. cbn [rr b_d]. rewrite <- (map_id cums) at 1. 
      rewrite <- (map_map b_d psi). rewrite (combine_map2 psi (fun x => x)). auto. }
    rewrite E, incr_rr.
    - rewrite <- (map_id (combine cums _)) at 1. rewrite (combine_map2 rr (fun x => x)), !map_map. auto.
    - intros (d, x) Hq. apply in_combine_l in Hq. apply in_map_iff in Hq as (r & <- & Hr). apply (H r Hr).
  Qed.
  Lemma set_ok g cums : okg g -> okg (set_cum_inc g cums).
  Proof.
    intros H r Hr. unfold set_cum_inc in Hr. apply in_map_iff in Hr as ((x, y) & <- & Hr). apply in_combine_l in Hr. apply (H x Hr).
  Qed.
  Definition rg (e : val * list simrow) : val * list simrow := (fst e, map rr (snd e)).
  Lemma forecasts_rr lt tab : okl lt -> okt tab -> forall prev,
    forecasts m' ladev' (map rl3 lt) prev (map (map rr) tab) = map rg (forecasts m ladev lt prev tab).
  Proof.
    intro Ol. induction tab as [|g tab IH]; intros Ot prev; cbn [map forecasts]; auto.
    assert (Og : okg g) by (apply Ot; left; auto). assert (Ot' : okt tab) by (intros x Hx; apply Ot; right; auto).
    rewrite first_rr by auto. destruct (is_first m g) eqn:Fg; cbn [map].
    - rewrite IH by auto. f_equal. unfold rg. cbn [fst snd]. f_equal. rewrite <- set_rr by auto. f_equal. rewrite map_map. auto.
    - rewrite lact_rr, cumldf_rr, fc_rr, act_rr, IH by auto. f_equal. unfold rg. cbn [fst snd]. f_equal.
      rewrite <- set_rr.
      + rewrite <- map_app. f_equal. f_equal; [rewrite !map_map; auto|].
        rewrite <- (map_id (removelast _)) at 1. rewrite (combine_map2 rr (fun x => x)), !map_map. auto.
      + intros r Hr. apply in_app_or in Hr as [Hr|Hr]; [apply (act_ok g Og r Hr)|apply (fc_ok g Og r Hr)].
  Qed.
  Lemma forecasts_ok lt tab : okt tab -> forall prev e, In e (forecasts m ladev lt prev tab) -> okg (snd e).
  Proof.
    induction tab as [|g tab IH]; intros Ot prev e He; cbn [forecasts] in He; [contradiction|].
    assert (Og : okg g) by (apply Ot; left; auto). assert (Ot' : okt tab) by (intros x Hx; apply Ot; right; auto).
    destruct (is_first m g).
    - destruct He as [<-|He]; [apply set_ok; auto|apply (IH Ot' _ _ He)].
    - destruct He as [<-|He]; [|apply (IH Ot' _ _ He)]. cbn [snd]. apply set_ok.
      intros r Hr. apply in_app_or in Hr as [Hr|Hr]; [apply (act_ok g Og r Hr)|apply (fc_ok g Og r Hr)].
  Qed.

  Lemma gparams_rr scale fcs : gparams scale (map rg fcs) = gparams scale fcs.
  Proof.
    unfold gparams. rewrite map_map. cbn [rg snd].
    replace (map (fun x => map rr (snd x)) fcs) with (map (map rr) (map snd fcs)) by (rewrite map_map; auto).
    rewrite <- concat_map, !map_map. auto.
  Qed.
  Lemma final_rr gd fcs : forall pos,
    final_groups gd pos (map rg fcs) = map (fun e => (rg (fst e), snd e)) (final_groups gd pos fcs).
  Proof.
    induction fcs as [|(la, g) fcs IH]; intro pos; cbn [map final_groups rg fst snd]; auto.
    rewrite map_length, IH. f_equal. f_equal. f_equal.
    rewrite <- (map_id (seq pos (List.length g))) at 1. rewrite (combine_map2 (fun x => x) rr), !map_map. auto.
  Qed.
  Lemma final_ok gd fcs : (forall e, In e fcs -> okg (snd e)) -> forall pos e, In e (final_groups gd pos fcs) -> okg (snd (fst e)).
  Proof.
    induction fcs as [|(la, g) fcs IH]; intros H pos e He; cbn [final_groups] in He; [contradiction|].
    destruct He as [<-|He]; [apply (H (la, g)); left; auto|]. apply (IH ltac:(intros; apply H; right; auto) _ _ He).
  Qed.

  Definition rv (r : rrec) : rrec := mkR (v_sim r) (phi (v_o r)) (v_latest r) (v_ultimate r) (v_reserve r).
  Lemma recs_rr fin : (forall e, In e fin -> okg (snd (fst e))) ->
    reserve_recs m' (map (fun e => (rg (fst e), snd e)) fin) = map rv (reserve_recs m fin).
  Proof.
    intro H. unfold reserve_recs. rewrite Ec, max_map by auto.
    induction fin as [|((la, g), us) fin IH]; cbn [map flat_map]; auto.
    rewrite map_app, <- IH by (intros; apply H; right; auto). f_equal. cbn [fst snd rg]. 
    assert (Og : okg g) by (apply (H ((la, g), us)); left; auto).
    rewrite <- (map_id us) at 1. rewrite (combine_map2 rr (fun x => x)).
    assert (Oc : forall q, In q (combine g us) -> okr (fst q)) by (intros (r, u) Hq; apply in_combine_l in Hq; apply Og; auto).
    revert Oc. generalize (combine g us). clear IH. intros l Oc. induction l as [|(r, u) l IH]; cbn [map flat_map fst snd]; auto.
    rewrite map_app, <- IH by (intros; apply Oc; right; auto). f_equal.
    cbn [rr b_d b_sim b_o]. rewrite cmp_eqb by (apply Mc; [apply (Oc (r, u)); left; auto|apply zmax_in; auto]).
    destruct (b_d r =? zmax (m_cols m))%Z; auto.
  Qed.
  Lemma recs_ok fin : (forall e, In e fin -> okg (snd (fst e))) -> forall r, In r (reserve_recs m fin) -> In (v_o r) (m_idx m).
  Proof.
    intros H r Hr. unfold reserve_recs in Hr. apply in_flat_map in Hr as (((la, g), us) & He & Hr). cbn [fst snd] in Hr.
    apply in_flat_map in Hr as ((x, u) & Hq & Hr). cbn [fst snd] in Hr. destruct (b_d x =? zmax (m_cols m))%Z; [|contradiction].
    destruct Hr as [<-|[]]. cbn [v_o]. apply in_combine_l in Hq. apply (H _ He x Hq).
  Qed.
End Relab.

Lemma simulate_rr (m m' fit fit' : lmat) (rt : val -> val) (resid : nat -> val) (phi psi : Z -> Z)
    (gam : list (val * val) -> nat -> val) (cl rl : list nat) (scale : val) (sims : nat) :
  m_idx m' = map phi (m_idx m) -> m_cols m' = map psi (m_cols m) ->
  (forall a b, In a (m_idx m) -> In b (m_idx m) -> Z.compare (phi a) (phi b) = Z.compare a b) ->
  (forall a b, In a (m_cols m) -> In b (m_cols m) -> Z.compare (psi a) (psi b) = Z.compare a b) ->
  (forall d, In d (m_cols m) -> (psi d =? 1)%Z = (d =? 1)%Z) ->
  m_cells fit' = m_cells fit -> m_idx m <> [] -> m_cols m <> [] ->
  (forall j, nth j cl O < nrows m) -> (forall i, nth i rl O < ncols m) ->
  simulate rt m' cl rl fit' scale sims resid gam = map (rv phi) (simulate rt m cl rl fit scale sims resid gam) /\
  (forall r, In r (simulate rt m cl rl fit scale sims resid gam) -> In (v_o r) (m_idx m)).
Proof.
  intros Ei Ec Mi Mc M1 Hf Ni Nc Hc Hl. unfold simulate.
  set (ladev := fun o => match zfind o (m_idx m) with Some i => nth (nth i rl O) (m_cols m) 0%Z | None => 0%Z end).
  set (ladev' := fun o => match zfind o (m_idx m') with Some i => nth (nth i rl O) (m_cols m') 0%Z | None => 0%Z end).
  assert (La : forall o, In o (m_idx m) -> In (ladev o) (m_cols m) /\ ladev' (phi o) = psi (ladev o)).
  { intros o Ho. unfold ladev, ladev'. rewrite Ei.
    assert (Q : forall l, (forall x, In x l -> In x (m_idx m)) -> zfind (phi o) (map phi l) = zfind o l).
    { induction l as [|x l IH]; intro H; cbn [map zfind]; auto. rewrite (cmp_eqb phi) by (apply Mi; auto; apply H; left; auto).
      destruct (o =? x)%Z; auto. rewrite IH by (intros; apply H; right; auto). auto. }
    rewrite Q by auto. destruct (zfind o (m_idx m)) as [i|] eqn:F.
    - split; [apply nth_In, Hl|]. apply (nth_psi m m' psi Ec). apply Hl.
    - exfalso. clear - Ho F. induction (m_idx m) as [|x l IH]; [contradiction|]. cbn [zfind] in F.
      destruct (o =? x)%Z eqn:E; [discriminate|]. destruct Ho as [->|Ho]; [rewrite Z.eqb_refl in E; discriminate|].
      destruct (zfind o l); [discriminate|]. auto. }
  set (tab := Boot.samples rt m fit sims resid).
  assert (Ot : okt m tab) by (intros g Hg; apply (samples_ok m m' fit rt resid phi psi Ei Ec sims g Hg)).
  assert (Ol : okl m (bs_ldfs m cl sims tab)) by (intros r Hr; apply (ldfs_ok m m' phi psi Ei Ec cl sims tab r Hr)).
  rewrite (samples_rr m m' fit fit' rt resid phi psi Ei Ec Hf), (ldfs_rr m m' phi psi Ei Ec Mi Mc) by auto.
  unfold process_error. fold tab. rewrite (forecasts_rr m m' phi psi Ei Mi Mc M1 Ni ladev ladev' La) by auto.
  rewrite gparams_rr, final_rr.
  set (fcs := forecasts m ladev (bs_ldfs m cl sims tab) NaN tab).
  assert (Of : forall e, In e fcs -> okg m (snd e)) by (intros e He; apply (forecasts_ok m ladev _ tab Ot _ e He)).
  set (fin := final_groups (gam (gparams scale fcs)) 0 fcs).
  assert (Ofin : forall e, In e fin -> okg m (snd (fst e))) by (intros e He; apply (final_ok m _ fcs Of _ e He)).
  unfold bs_reserves. rewrite (recs_rr m m' phi psi Ec Mc Nc fin Ofin).
  assert (Or := recs_ok m fin Ofin). split.
  - apply ssort_map_in. intros x y Hx Hy. unfold rrec_cmp. cbn [rv v_o v_sim]. rewrite Mi by auto. auto.
  - intros r Hr. apply ssort_in' in Hr. auto.
Qed.
