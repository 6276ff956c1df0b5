(** Proofs about the table of simulated records (C75). *)

From Coq Require Import String QArith Qcanon ZArith List Bool Lia Permutation Sorting.Sorted.
From Verif Require Import Val Frame Triangle A2A Base Mack Boot Sims ListLib QcLib Spec Spec2 SpecSim TblFacts ConvFacts FillFacts
  TriClaims4 RegFacts AvgFacts MackFacts BuildFacts BaseClaims BootFit BootLib BootSim BootClaims BootNoise BootClaims2 BootForm
  BootIndep BootIndepClaims SimClaims.
Import ListNotations.
Open Scope string_scope.
Open Scope list_scope.
Open Scope nat_scope.

(** ** Every triangle *)

(** Key and type of a record. *)
Definition fkey (r : simrow) : nat * Z * Z * bool := (b_sim r, b_o r, b_d r, b_fc r).
Definition dkey (r : sdrec) : nat * Z * Z * bool := (d_sim r, d_o r, d_d r, d_fc r).
Lemma set_cum_inc_fkey g cs : length cs = length g -> map fkey (set_cum_inc g cs) = map fkey g.
Proof.
  intro L. rewrite set_cum_inc_spec by auto. rewrite map_map. unfold fkey. cbn [b_sim b_o b_d b_fc].
  etransitivity; [|apply (f_equal (map _) (list_map_nth g (mkS 0 0 0 false NaN NaN)))]. rewrite map_map. auto.
Qed.
Lemma forecasts_fkeys m ladev lt tab : (forall g, In g tab -> gsorted g) -> forall prev,
  Forall2 (fun g e => map fkey (snd e) = map fkey g) tab (forecasts m ladev lt prev tab).
Proof.
  induction tab as [|g tab IH]; intros S0 prev; [constructor|]. cbn [forecasts].
  destruct (is_first m g) eqn:E; (constructor; [|apply IH; intros; apply S0; right; auto]); cbn [fst snd].
  - apply set_cum_inc_fkey, map_length.
  - assert (G : gsorted g) by (apply S0; left; auto).
    rewrite act_fc by auto. apply set_cum_inc_fkey. apply fc_cums_length; auto.
    rewrite removelast_length. apply cum_ldfs_length.
Qed.
Lemma final_groups_keys gd tab fcs : Forall2 (fun g e => map fkey (snd e) = map fkey g) tab fcs -> forall pos,
  Forall2 (fun g e => map fkey (snd (fst e)) = map fkey g /\ List.length (snd e) = List.length (snd (fst e))) tab (final_groups gd pos fcs).
Proof.
  induction 1 as [|g [la h] tab fcs E F IH]; intro pos; cbn [final_groups]; constructor.
  - cbn [fst snd] in *. split; auto. apply final_incr_length.
  - apply IH.
Qed.
Lemma sims_group_key m rl sc e : List.length (snd e) = List.length (snd (fst e)) ->
  map dkey (sims_group m rl sc e) = map fkey (snd (fst e)).
Proof.
  intro L. unfold sims_group. rewrite map_map. destruct e as [[la g] us]. cbn [fst snd] in *.
  revert us L. induction g as [|r g IH]; intros [|u us] L; try discriminate; auto. cbn [combine map]. f_equal. apply IH. auto.
Qed.

(** The last observed period of every origin is a period. *)
Lemma last_dev_in m rl o : rlvi m = Ok rl -> In o (m_idx m) -> In (last_dev m rl o) (m_cols m).
Proof.
  intros E H. unfold last_dev. destruct (zfind o (m_idx m)) as [i|] eqn:F.
  - apply nth_In. apply zfind_some in F as (Li & _).
    assert (Q := mapM_nth _ _ _ i 0 0 E). rewrite seq_length, seq_nth in Q by auto. specialize (Q Li). cbn [Nat.add] in Q.
    destruct (last_valid _) as [k|] eqn:V; [|discriminate]. injection Q as <-.
    apply last_valid_some in V as (V & _). unfold mrow in V. rewrite map_length, seq_length in V. exact V.
  - exfalso. apply zfind_none in F. auto.
Qed.

(** The record of reserve_dist made from a record of the table. *)
Definition final_rec (r : sdrec) : rrec :=
  mkR (d_sim r) (d_o r) (if isnan (d_latest r) then d_ultimate r else d_latest r) (d_ultimate r) (nan0 (d_reserve r)).
Lemma group_final m rl sc e : rlvi m = Ok rl -> (forall r, In r (snd (fst e)) -> In (b_o r) (m_idx m)) ->
  flat_map (fun p => let r := fst p in let u := snd p in
         if (b_d r =? zmax (m_cols m))%Z
         then [mkR (b_sim r) (b_o r) (if isnan (fst (fst e)) then u else fst (fst e)) u (nan0 (vsub u (fst (fst e))))] else [])
      (combine (snd (fst e)) (snd e))
  = map final_rec (filter (fun r => (d_d r =? zmax (m_cols m))%Z) (sims_group m rl sc e)).
Proof.
  destruct e as [[la g] us]. cbn [fst snd]. intros E H. unfold sims_group. cbn [fst snd].
  revert us. induction g as [|r g IH]; intros [|u us]; auto. cbn [combine flat_map map filter]. cbn [fst snd d_d].
  rewrite IH by (intros; apply H; right; auto). destruct (Z.eqb_spec (b_d r) (zmax (m_cols m))) as [Q|Q]; auto.
  cbn [map app]. f_equal. unfold final_rec. cbn [d_sim d_o d_latest d_ultimate d_reserve].
  assert (W := last_dev_in m rl (b_o r) E (H r (or_introl eq_refl))). apply BaseClaims.zmax_ge in W. rewrite <- Q in W.
  apply Z.leb_le in W. rewrite W. auto.
Qed.

Section Table.
  Variables (rt : val -> val) (m : lmat) (cl rl : list nat) (fit : lmat) (scale : val) (sims : nat)
    (resid : nat -> val) (gam : list (val * val) -> nat -> val).
  Hypothesis So : zsorted (m_idx m).
  Hypothesis Sd : zsorted (m_cols m).
  Let tab := samples rt m fit sims resid.
  Let fcs := forecasts m (last_dev m rl) (bs_ldfs m cl sims tab) NaN tab.
  Let fin := process_error scale gam fcs.

  Lemma tab_gsorted g : In g tab -> gsorted g.
  Proof.
    intro Hg. unfold tab, samples in Hg. apply in_cube in Hg as (s & i & Hs & Hi & ->).
    eapply group_sorted; [exact Sd|apply group_key].
  Qed.
  Lemma fin_keys : Forall2 (fun g e => map fkey (snd (fst e)) = map fkey g /\ List.length (snd e) = List.length (snd (fst e))) tab fin.
  Proof.
    unfold fin, process_error. apply final_groups_keys. apply forecasts_fkeys. apply tab_gsorted.
  Qed.
  Lemma group_fkey s i : i < nrows m -> map fkey (sample_group rt m fit resid s i)
    = map (fun j => (s, nth i (m_idx m) 0%Z, nth j (m_cols m) 0%Z, isnan (cell (m_cells fit) i j))) (seq 0 (ncols m)).
  Proof.
    intro Hi. unfold sample_group. rewrite map_map. apply map_seq_ext. intros j Hj. unfold fkey. cbn [b_sim b_o b_d b_fc]. f_equal.
    unfold at1. rewrite nth_map_seq by lia. cbn [Nat.add]. unfold first_fix. destruct (cell (m_cells fit) i j) ; destruct (j =? 0); cbn [andb]; auto.
    all: try (destruct (vltb _ _); auto).
  Qed.
  Lemma table_keys : map dkey (sims_table rt m cl rl fit scale sims resid gam)
    = flat_map (fun s => flat_map (fun i => map (fun j =>
        (s, nth i (m_idx m) 0%Z, nth j (m_cols m) 0%Z, isnan (cell (m_cells fit) i j))) (seq 0 (ncols m))) (seq 0 (nrows m))) (seq 0 sims).
  Proof.
    unfold sims_table. fold tab fcs fin.
    transitivity (flat_map (map fkey) tab).
    - assert (F := fin_keys). clear -F. induction F as [|g e t f [H1 H2] F IH]; auto. cbn [flat_map]. rewrite map_app, sims_group_key, IH by auto.
      congruence.
    - unfold tab, samples. change (flat_map (map fkey) (cube sims (nrows m) (sample_group rt m fit resid)) =
        flat_map (fun s => flat_map (fun i => map (fun j =>
        (s, nth i (m_idx m) 0%Z, nth j (m_cols m) 0%Z, isnan (cell (m_cells fit) i j))) (seq 0 (ncols m))) (seq 0 (nrows m))) (seq 0 sims)).
      rewrite flat_map_cube. apply flat_map_seq_ext. intros s _. apply flat_map_seq_ext. intros i Hi. apply group_fkey. lia.
  Qed.
  Lemma table_final : rlvi m = Ok rl ->
    simulate rt m cl rl fit scale sims resid gam
    = ssort rrec_cmp (map final_rec (filter (fun r => (d_d r =? zmax (m_cols m))%Z) (sims_table rt m cl rl fit scale sims resid gam))).
  Proof.
    intro E. unfold sims_table, simulate. fold tab. change (fun o : Z => match zfind o (m_idx m) with Some i => nth (nth i rl 0) (m_cols m) 0%Z | None => 0%Z end) with (last_dev m rl).
    fold fcs. fold fin. unfold bs_reserves. f_equal. unfold reserve_recs.
    assert (Q : forall e, In e fin -> forall r, In r (snd (fst e)) -> In (b_o r) (m_idx m)).
    { intros e He r Hr. assert (F := fin_keys). assert (exists g, In g tab /\ map fkey (snd (fst e)) = map fkey g) as (g & Hg & K).
      { clear -F He. induction F as [|g e' t f [H1 H2] F IH]; [destruct He|]. destruct He as [->|He].
        - exists g. split; auto. left; auto.
        - destruct (IH He) as (g' & A & B). exists g'. split; auto. right; auto. }
      unfold tab, samples in Hg. apply in_cube in Hg as (s & i & Hs & Hi & ->). rewrite group_fkey in K by auto.
      assert (W : In (fkey r) (map fkey (snd (fst e)))) by (apply in_map; auto). rewrite K in W. apply in_map_iff in W as (d & W & _).
      injection W as _ W _ _. rewrite <- W. apply nth_In. exact Hi. }
    clearbody fin. induction fin as [|e l IH]; auto. cbn [flat_map]. rewrite filter_app, map_app. f_equal.
    - apply group_final; auto. intros r. apply Q. left; auto.
    - apply IH. intros e' He'. apply Q. right; auto.
  Qed.
End Table.
