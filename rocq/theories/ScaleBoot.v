(** Rescaled losses through the bootstrap (C92): the simulation commutes with the
    currency unit. *)

From Coq Require Import String QArith Qcanon ZArith List Bool Lia Permutation Sorting.Sorted.
From Verif Require Import Val Frame Triangle A2A Base Mack Boot Quant Dist BootSum SpecUnits ListLib QcLib Spec BuildFacts RegFacts BootLib.
Import ListNotations.
Open Scope string_scope.
Open Scope list_scope.
Open Scope nat_scope.

Section Sc.
  Variable c : Qc.
  Hypothesis Cp : (0 < c)%Qc.
  Notation sc := (vmul (Fin c)).

  Lemma qsgn_c : qsgn c = SPos.
  Proof. unfold qsgn. replace (c ?= 0)%Qc with Gt; auto. symmetry. apply Qcgt_alt. auto. Qed.
  Lemma c_nz : c <> 0%Qc. Proof. apply qc_pos_neq. auto. Qed.
  Lemma qsgn_mul x : qsgn (c * x) = qsgn x.
  Proof.
    unfold qsgn. destruct (x ?= 0)%Qc eqn:E.
    - apply Qceq_alt in E. subst. replace (c * 0)%Qc with 0%Qc by ring. reflexivity.
    - apply Qclt_alt in E. replace (c * x ?= 0)%Qc with Lt; auto. symmetry. apply Qclt_alt.
      replace 0%Qc with (0 * c)%Qc by ring. rewrite Qcmult_comm. apply Qcmult_lt_compat_r; auto.
    - apply Qcgt_alt in E. replace (c * x ?= 0)%Qc with Gt; auto. symmetry. apply Qcgt_alt.
      apply qc_mul_pos; auto.
  Qed.
  Lemma qcmp_mul x y : (c * x ?= c * y)%Qc = (x ?= y)%Qc.
  Proof.
    destruct (x ?= y)%Qc eqn:E.
    - apply Qceq_alt in E. subst. apply Qceq_alt. auto.
    - apply Qclt_alt in E. apply Qclt_alt. rewrite !(Qcmult_comm c). apply Qcmult_lt_compat_r; auto.
    - apply Qcgt_alt in E. apply Qcgt_alt. rewrite !(Qcmult_comm c). apply Qcmult_lt_compat_r; auto.
  Qed.

  Ltac vc := intros; repeat (match goal with v : val |- _ => destruct v end); simpl; rewrite ?qsgn_c; simpl; auto.
  Lemma sc_0 : sc (Fin 0%Qc) = Fin 0%Qc. Proof. simpl. f_equal. ring. Qed.
  Lemma sc_nan v : isnan (sc v) = isnan v. Proof. vc. Qed.
  Lemma sc_add a b : vadd (sc a) (sc b) = sc (vadd a b). Proof. vc. f_equal. ring. Qed.
  Lemma sc_neg a : vneg (sc a) = sc (vneg a). Proof. vc. f_equal. ring. Qed.
  Lemma sc_sub a b : vsub (sc a) (sc b) = sc (vsub a b). Proof. unfold vsub. rewrite sc_neg. apply sc_add. Qed.
  Ltac vd := rewrite ?qsgn_mul; repeat match goal with |- context [qsgn ?q] => lazymatch q with c => fail | _ => destruct (qsgn q) eqn:? end end;
    simpl; rewrite ?qsgn_c; auto.
  Lemma sc_mul_l a b : vmul (sc a) b = sc (vmul a b).
  Proof. vc; vd; f_equal; ring. Qed.
  Lemma sc_mul_r a b : vmul a (sc b) = sc (vmul a b).
  Proof. vc; vd; f_equal; ring. Qed.
  Lemma sc_div_l a b : vdiv (sc a) b = sc (vdiv a b).
  Proof. vc; vd; f_equal; unfold Qcdiv; ring. Qed.
  Lemma sc_div a b : vdiv (sc a) (sc b) = vdiv a b.
  Proof.
    assert (N := c_nz). vc; vd; f_equal; field; split; auto; intro Q; subst;
      match goal with E : qsgn _ = _ |- _ => discriminate E end.
  Qed.
  Lemma sc_lt a b : vltb (sc a) (sc b) = vltb a b.
  Proof. vc. unfold qcltb. rewrite qcmp_mul. auto. Qed.
  Lemma sc_eq a b : veqb (sc a) (sc b) = veqb a b.
  Proof. vc. unfold qceqb. rewrite qcmp_mul. auto. Qed.
  Lemma sc_lt0 a : vltb (sc a) (Fin 0%Qc) = vltb a (Fin 0%Qc). Proof. rewrite <- sc_0 at 1. apply sc_lt. Qed.
  Lemma sc_0lt a : vltb (Fin 0%Qc) (sc a) = vltb (Fin 0%Qc) a. Proof. rewrite <- sc_0 at 1. apply sc_lt. Qed.
  Lemma sc_eq0 a : veqb (sc a) (Fin 0%Qc) = veqb a (Fin 0%Qc). Proof. rewrite <- sc_0 at 1. apply sc_eq. Qed.
  Lemma sc_nan0 a : nan0 (sc a) = sc (nan0 a).
  Proof. unfold nan0. rewrite sc_nan. destruct (isnan a); auto. rewrite sc_0. auto. Qed.
  Lemma sc_abs a : vabs (sc a) = sc (vabs a).
  Proof.
    vc. f_equal. assert (E : qcltb (c * q) 0 = qcltb q 0).
    { unfold qcltb. replace 0%Qc with (c * 0)%Qc at 1 by ring. rewrite qcmp_mul. auto. }
    rewrite E. destruct (qcltb q 0); ring.
  Qed.
  Lemma sc_sum l : vsum (map sc l) = sc (vsum l).
  Proof. unfold vsum. induction l as [|v l IH]; cbn [map fold_right]; [symmetry; apply sc_0|]. rewrite IH. apply sc_add. Qed.
  Lemma sc_skip l : skipsum (map sc l) = sc (skipsum l).
  Proof.
    induction l as [|v l IH]; cbn [map skipsum]; [symmetry; apply sc_0|]. rewrite sc_nan, IH. destruct (isnan v); auto.
    apply sc_add.
  Qed.
  Lemma sc_mean l : vmean (map sc l) = sc (vmean l).
  Proof. unfold vmean. rewrite sc_sum, map_length. apply sc_div_l. Qed.
End Sc.

(** *** The simulation *)
Definition srow (c : Qc) (r : simrow) : simrow :=
  mkS (b_sim r) (b_o r) (b_d r) (b_fc r) (vmul (Fin c) (b_inc r)) (vmul (Fin c) (b_cum r)).
Notation srec := rec_units.

Lemma filter_map {A B} (f : A -> B) (p : B -> bool) (q : A -> bool) l : (forall x, p (f x) = q x) ->
  filter p (map f l) = map f (filter q l).
Proof. intro H. induction l as [|x l IH]; cbn [map filter]; auto. rewrite H. destruct (q x); cbn [map]; rewrite IH; auto. Qed.
Lemma sins_map {A B} (ca : A -> A -> comparison) (cb : B -> B -> comparison) (f : A -> B) :
  (forall x y, cb (f x) (f y) = ca x y) -> forall x l, sins cb (f x) (map f l) = map f (sins ca x l).
Proof.
  intros H x l. induction l as [|y l IH]; cbn [map sins]; auto. rewrite H. destruct (ca x y); cbn [map]; rewrite ?IH; auto.
Qed.
Lemma ssort_map {A B} (ca : A -> A -> comparison) (cb : B -> B -> comparison) (f : A -> B) :
  (forall x y, cb (f x) (f y) = ca x y) -> forall l, ssort cb (map f l) = map f (ssort ca l).
Proof.
  intros H l. unfold ssort. induction l as [|y l IH]; cbn [map fold_right]; auto. rewrite IH. apply sins_map. auto.
Qed.

Section Sim.
  Variables (k : Qc).
  Hypothesis Kp : (0 < k)%Qc.
  Let c : Qc := (k * k)%Qc.
  Notation sc := (vmul (Fin c)).
  Let Cp : (0 < c)%Qc. Proof. apply qc_mul_pos; auto. Qed.

  Lemma kk a b : vmul (vmul (Fin k) a) (vmul (Fin k) b) = sc (vmul a b).
  Proof.
    rewrite (sc_mul_l k Kp), (sc_mul_r k Kp). generalize (vmul a b). intro v.
    assert (E := qsgn_c _ Cp). assert (E' := qsgn_c _ Kp).
    destruct v; cbn; rewrite ?E, ?E'; cbn; rewrite ?E'; auto. f_equal. unfold c. ring.
  Qed.

  Variables (m m' fit fit' : lmat) (rt : val -> val) (resid resid' : nat -> val).
  Hypothesis Ei : m_idx m' = m_idx m.
  Hypothesis Ec : m_cols m' = m_cols m.
  Hypothesis Hf : forall i j, i < nrows m -> j < ncols m -> cell (m_cells fit') i j = sc (cell (m_cells fit) i j).
  Hypothesis Hp : forall i, i < nrows m -> vltb (cell (m_cells fit) i 0) (Fin 0%Qc) = false.
  Hypothesis Hr : forall i j, i < nrows m -> j < ncols m ->
    rt (sc (cell (m_cells fit) i j)) = vmul (Fin k) (rt (cell (m_cells fit) i j)).
  Hypothesis Hd : forall j, resid' j = vmul (Fin k) (resid j).

  Let En : nrows m' = nrows m. Proof. unfold nrows. rewrite Ei. auto. Qed.
  Let Em : ncols m' = ncols m. Proof. unfold ncols. rewrite Ec. auto. Qed.

  Lemma cum_from_sc l : forall a, cum_from vadd (sc a) (map sc l) = map sc (cum_from vadd a l).
  Proof.
    induction l as [|v l IH]; intro a; cbn [map cum_from]; auto. rewrite (sc_nan c Cp). destruct (isnan v); cbn [map].
    - rewrite IH. auto.
    - rewrite (sc_add c Cp), IH. auto.
  Qed.
  Lemma cumsum_sc l : cumsum (map sc l) = map sc (cumsum l).
  Proof. unfold cumsum. rewrite <- (sc_0 c) at 1. apply cum_from_sc. Qed.
  Lemma at1_sc l j : at1 (map sc l) j = sc (at1 l j).
  Proof. unfold at1. change NaN with (sc NaN) at 1. apply map_nth. Qed.

  Lemma group_sc s i : i < nrows m -> sample_group rt m' fit' resid' s i = map (srow c) (sample_group rt m fit resid s i).
  Proof.
    intro Hi. unfold sample_group. rewrite En, Em, Ei, Ec.
    set (incr := map (fun j => first_fix j (cell (m_cells fit) i j)) (seq 0 (ncols m))).
    assert (E0 : forall j, j < ncols m -> at1 incr j = cell (m_cells fit) i j).
    { intros j Hj. unfold at1, incr. rewrite (nth_map_seq (fun j => first_fix j (cell (m_cells fit) i j))) by auto.
      unfold first_fix. destruct j as [|j]; auto. cbn [Nat.eqb andb]. rewrite Hp by auto. auto. }
    assert (E1 : map (fun j => first_fix j (cell (m_cells fit') i j)) (seq 0 (ncols m)) = map sc incr).
    { unfold incr. rewrite map_map. apply map_seq_ext. intros j Hj. rewrite Hf by lia. unfold first_fix.
      rewrite (sc_lt0 c Cp). destruct j as [|j]; auto. cbn [Nat.eqb andb]. rewrite Hp by auto. auto. }
    rewrite E1.
    set (inc := map (fun j => if isnan (at1 incr j) then NaN else vadd (at1 incr j)
                  (vmul (resid (s * (nrows m * ncols m) + i * ncols m + j)) (rt (at1 incr j)))) (seq 0 (ncols m))).
    assert (E2 : map (fun j => if isnan (at1 (map sc incr) j) then NaN else vadd (at1 (map sc incr) j)
                  (vmul (resid' (s * (nrows m * ncols m) + i * ncols m + j)) (rt (at1 (map sc incr) j)))) (seq 0 (ncols m))
                 = map sc inc).
    { unfold inc. rewrite map_map. apply map_seq_ext. intros j Hj. rewrite at1_sc, (sc_nan c Cp). destruct (isnan (at1 incr j)); auto.
      rewrite E0 by lia. rewrite Hr by lia. rewrite Hd, kk, (sc_add c Cp). auto. }
    rewrite E2, cumsum_sc, map_map. apply map_seq_ext. intros j Hj. unfold srow. cbn [b_sim b_o b_d b_fc b_inc b_cum].
    rewrite !at1_sc, (sc_nan c Cp). auto.
  Qed.
  Lemma samples_sc sims : Boot.samples rt m' fit' sims resid' = map (map (srow c)) (Boot.samples rt m fit sims resid).
  Proof.
    unfold Boot.samples. rewrite En. generalize (seq 0 sims). intro l. induction l as [|s l IH]; cbn [flat_map map]; auto.
    rewrite map_app, IH. f_equal. rewrite map_map. apply map_seq_ext. intros i Hi. apply group_sc. lia.
  Qed.

  Lemma agg_sc cl sims tab : agg_rows m' cl sims (map (map (srow c)) tab)
    = map (fun r => let '(s, d, a, b) := r in (s, d, sc a, sc b)) (agg_rows m cl sims tab).
  Proof.
    unfold agg_rows. rewrite Ei, Ec, Em. rewrite <- concat_map.
    generalize (seq 0 sims). intro l. induction l as [|s l IH]; cbn [flat_map map]; auto. rewrite map_app, IH. f_equal. clear IH l.
    generalize (seq 0 (ncols m)). intro l. induction l as [|j l IH]; cbn [flat_map map]; auto. rewrite map_app, IH. f_equal. clear IH l.
    cbv zeta. set (p := fun r => (b_sim r =? s) && (b_d r =? nth j (m_cols m) 0%Z)%Z && negb (isnan (b_cum r))).
    rewrite (filter_map (srow c) p p) by (intro r; unfold p; cbn [srow b_sim b_d b_cum]; rewrite (sc_nan c Cp); auto).
    destruct (filter p (List.concat tab)) as [|r g]; auto.
    assert (E1 : skipsum (map b_cum (map (srow c) (r :: g))) = sc (skipsum (map b_cum (r :: g)))).
    { rewrite <- (sc_skip c Cp), !map_map. auto. }
    assert (E2 : skipsum (map (fun r => if (b_o r =? nth (nth j cl O) (m_idx m) 0%Z)%Z then Fin 0%Qc else b_cum r) (map (srow c) (r :: g)))
               = sc (skipsum (map (fun r => if (b_o r =? nth (nth j cl O) (m_idx m) 0%Z)%Z then Fin 0%Qc else b_cum r) (r :: g)))).
    { rewrite <- (sc_skip c Cp), !map_map. f_equal. apply map_ext. intro x. cbn [srow b_o b_cum].
      destruct (b_o x =? nth (nth j cl O) (m_idx m) 0%Z)%Z; auto. rewrite (sc_0 c). auto. }
    cbn [map] in E1, E2 |- *. rewrite E1, E2. auto.
  Qed.
  Lemma ldf_rows_sc l : forall prev prev',
    match prev, prev' with None, None => True | Some (d, a), Some (d', a') => d' = d /\ a' = sc a | _, _ => False end ->
    ldf_rows prev' (map (fun r => let '(s, d, a, b) := r in (s, d, sc a, sc b)) l) = ldf_rows prev l.
  Proof.
    induction l as [|(((s, d), a1), a2) l IH]; intros prev prev' H; cbn [map ldf_rows]; auto. f_equal.
    - destruct prev as [(d0, a0)|], prev' as [(d0', a0')|]; try contradiction; auto. destruct H as (-> & ->).
      rewrite (sc_eq0 c Cp), !(sc_nan c Cp), (sc_div c Cp). auto.
    - apply IH. auto.
  Qed.
  Lemma ldfs_sc cl sims tab : bs_ldfs m' cl sims (map (map (srow c)) tab) = bs_ldfs m cl sims tab.
  Proof. unfold bs_ldfs. rewrite agg_sc. apply ldf_rows_sc. auto. Qed.

  Lemma fc_sc ladev g : fc_part ladev (map (srow c) g) = map (srow c) (fc_part ladev g).
  Proof. apply filter_map. auto. Qed.
  Lemma act_sc ladev g : act_part ladev (map (srow c) g) = map (srow c) (act_part ladev g).
  Proof. apply filter_map. auto. Qed.
  Lemma lact_sc ladev g : l_act_cum ladev (map (srow c) g) = sc (l_act_cum ladev g).
  Proof. unfold l_act_cum. rewrite fc_sc. destruct (fc_part ladev g); auto. Qed.
  Lemma cumldf_sc ladev lt g : cum_ldfs ladev lt (map (srow c) g) = cum_ldfs ladev lt g.
  Proof. unfold cum_ldfs. rewrite fc_sc, map_map. auto. Qed.
  Lemma first_sc g : is_first m' (map (srow c) g) = is_first m g.
  Proof. unfold is_first. rewrite Ei. destruct g; auto. Qed.
  Lemma incr_sc l : forall p, incr_from (sc p) (map (fun q => (fst q, sc (snd q))) l) = map sc (incr_from p l).
  Proof.
    induction l as [|(d, x) l IH]; intro p; cbn [map incr_from fst snd]; auto. rewrite IH. f_equal.
    rewrite (sc_sub c Cp), (sc_nan0 c Cp), (sc_mul_r c Cp), (sc_add c Cp). auto.
  Qed.
  Lemma combine_sc {A B} (f : A -> A) (g : B -> B) a b : combine (map f a) (map g b) = map (fun p => (f (fst p), g (snd p))) (combine a b).
  Proof. revert b. induction a as [|x a IH]; intros [|y b]; cbn [map combine]; auto. rewrite IH. auto. Qed.
  Lemma set_sc g cums : set_cum_inc (map (srow c) g) (map sc cums) = map (srow c) (set_cum_inc g cums).
  Proof.
    unfold set_cum_inc. rewrite map_map. cbn [srow b_d].
    assert (E : combine (map (fun x => b_d x) g) (map sc cums) = map (fun q => (fst q, sc (snd q))) (combine (map b_d g) cums)).
    { change (map (fun x => b_d x) g) with (map b_d g). rewrite <- (map_id (map b_d g)) at 1. exact (combine_sc (fun x => x) sc (map b_d g) cums). }
    rewrite E. change (incr_from NaN) with (incr_from (sc NaN)) at 1. rewrite incr_sc, combine_sc.
    change (fun p => (sc (fst p), sc (snd p))) with (fun p : val * val => (sc (fst p), sc (snd p))).
    rewrite combine_sc, !map_map. apply map_ext. intros (r, (x, y)). reflexivity.
  Qed.
  Definition sg (e : val * list simrow) : val * list simrow := (sc (fst e), map (srow c) (snd e)).
  Lemma forecasts_sc ladev lt tab : forall prev,
    forecasts m' ladev lt prev (map (map (srow c)) tab) = map sg (forecasts m ladev lt prev tab).
  Proof.
    induction tab as [|g tab IH]; intro prev; cbn [map forecasts]; auto. rewrite first_sc.
    destruct (is_first m g) eqn:Fg; cbn [map].
    - rewrite IH. f_equal. unfold sg. cbn [fst snd]. f_equal. rewrite <- set_sc. f_equal. rewrite !map_map. auto.
    - rewrite lact_sc, cumldf_sc, fc_sc, act_sc, IH. f_equal. unfold sg. cbn [fst snd]. f_equal.
      rewrite <- set_sc, <- map_app. f_equal. rewrite map_app. f_equal; [rewrite !map_map; auto|].
      rewrite <- (map_id (removelast _)) at 1. rewrite (combine_sc (srow c) (fun x => x)), !map_map. apply map_ext. intros (r, x).
      unfold cum_final. cbn [fst snd srow b_cum]. rewrite (sc_mul_l c Cp), !(sc_nan0 c Cp), (sc_add c Cp). auto.
  Qed.

  Lemma gparams_sc scale fcs : gparams (sc scale) (map sg fcs) = map (fun p => (fst p, sc (snd p))) (gparams scale fcs).
  Proof.
    unfold gparams. rewrite map_map. cbn [sg snd].
    replace (map (fun x => map (srow c) (snd x)) fcs) with (map (map (srow c)) (map snd fcs)) by (rewrite map_map; auto).
    rewrite <- concat_map, !map_map. apply map_ext. intro r. cbn [srow b_inc fst snd]. rewrite (sc_div c Cp). auto.
  Qed.

  Lemma final_sc gd gd' fcs : (forall j, gd' j = sc (gd j)) -> forall pos,
    final_groups gd' pos (map sg fcs) = map (fun e => (sg (fst e), map sc (snd e))) (final_groups gd pos fcs).
  Proof.
    intro H. induction fcs as [|(la, g) fcs IH]; intro pos; cbn [map final_groups sg fst snd]; auto.
    rewrite map_length, IH. f_equal. f_equal. rewrite <- cumsum_sc. f_equal. rewrite map_map.
    rewrite <- (map_id (seq pos (List.length g))) at 1. rewrite (combine_sc (fun x => x) (srow c)), !map_map. apply map_ext. intros (q, r). cbn [fst snd].
    unfold final_incr. cbn [srow b_fc b_inc]. rewrite H, (sc_0lt c Cp), (sc_mul_l c Cp). destruct (b_fc r); auto.
  Qed.

  Lemma recs_sc fin : reserve_recs m' (map (fun e => (sg (fst e), map sc (snd e))) fin) = map (srec c) (reserve_recs m fin).
  Proof.
    unfold reserve_recs. rewrite Ec. induction fin as [|((la, g), us) fin IH]; cbn [map flat_map]; auto.
    rewrite map_app, <- IH. f_equal. cbn [fst snd sg]. rewrite combine_sc. generalize (combine g us). clear IH.
    intro l. induction l as [|(r, u) l IH]; cbn [map flat_map fst snd]; auto. rewrite map_app, <- IH. f_equal.
    cbn [srow b_d b_sim b_o]. destruct (b_d r =? zmax (m_cols m))%Z; cbn [map]; auto.
    unfold rec_units. cbn [v_sim v_o v_latest v_ultimate v_reserve]. rewrite (sc_nan c Cp), (sc_sub c Cp), (sc_nan0 c Cp).
    destruct (isnan la); auto.
  Qed.

  Variables (gam gam' : list (val * val) -> nat -> val).
  Hypothesis Hg : forall ps j, gam' (map (fun p => (fst p, sc (snd p))) ps) j = sc (gam ps j).

  Lemma simulate_sc cl rl scale sims :
    simulate rt m' cl rl fit' (sc scale) sims resid' gam' = map (srec c) (simulate rt m cl rl fit scale sims resid gam).
  Proof.
    unfold simulate, bs_reserves, process_error. rewrite samples_sc, ldfs_sc.
    rewrite <- (ssort_map rrec_cmp rrec_cmp (srec c)) by auto. f_equal. rewrite Ei, Ec, forecasts_sc, gparams_sc.
    rewrite (final_sc (gam (gparams scale (forecasts m (fun o : Z => match zfind o (m_idx m) with
        | Some i => nth (nth i rl 0) (m_cols m) 0%Z | None => 0%Z end) (bs_ldfs m cl sims (Boot.samples rt m fit sims resid)) NaN
        (Boot.samples rt m fit sims resid))))) by (intro; apply Hg).
    apply recs_sc.
  Qed.
End Sim.
