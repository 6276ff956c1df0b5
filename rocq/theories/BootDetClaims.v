(** Proofs about [origin_dist] and [residuals_detail]. *)

From Coq Require Import String QArith Qcanon Qreals Reals ZArith List Bool Lia Lra Permutation Sorting.Sorted.
From Verif Require Import Val Frame Triangle A2A Base Mack Diag Boot Quant Dist QcLib ListLib Spec Spec2 BuildFacts MackFacts
  CyFacts QuantFacts BootLib BootSim BootClaims BootClaims2 BootSumClaims BootDet SpecBootDet.
Import ListNotations.
Open Scope list_scope.
Open Scope nat_scope.

(** ** [origin_dist] *)

Lemma dkey_eq x y : dkey_cmp x y = Eq <-> x = y.
Proof.
  destruct x as [s o], y as [s' o']. unfold dkey_cmp. cbn [fst snd].
  destruct (Nat.compare_spec s s') as [->|H|H].
  - destruct o as [x|], o' as [y|]; try (split; [discriminate|intro Q; congruence]); try tauto.
    rewrite Z.compare_eq_iff. split; congruence.
  - split; [discriminate|]. intro Q. injection Q as -> _. lia.
  - split; [discriminate|]. intro Q. injection Q as -> _. lia.
Qed.
Lemma dkey_opp x y : dkey_cmp y x = CompOpp (dkey_cmp x y).
Proof.
  destruct x as [s o], y as [s' o']. unfold dkey_cmp. cbn [fst snd]. rewrite (Nat.compare_antisym s s').
  destruct (Nat.compare s s'); auto. cbn [CompOpp]. destruct o, o'; auto. apply Z.compare_antisym.
Qed.
Lemma dkey_lt x y : dkey_cmp x y = Lt <-> fst x < fst y \/ (fst x = fst y /\
  match snd x, snd y with Some a, Some b => (a < b)%Z | Some _, None => True | None, _ => False end).
Proof.
  destruct x as [s o], y as [s' o']. unfold dkey_cmp. cbn [fst snd].
  destruct (Nat.compare_spec s s') as [->|H|H].
  - destruct o as [x|], o' as [y|]; rewrite ?Z.compare_lt_iff; intuition (try lia; try discriminate).
  - intuition.
  - split; [discriminate|]. intros [?|[? _]]; lia.
Qed.
Lemma dkey_trans x y z : dkey_cmp x y = Lt -> dkey_cmp y z = Lt -> dkey_cmp x z = Lt.
Proof.
  rewrite !dkey_lt. destruct x as [s [x|]], y as [s' [y|]], z as [s'' [z|]]; cbn [fst snd]; lia.
Qed.

Definition dkey (r : drec) : nat * option Z := (d_sim r, d_o r).
Lemma filter_key t r : NoDup (map dkey t) -> In r t ->
  filter (fun x => match dkey_cmp (d_sim x, d_o x) (dkey r) with Eq => true | _ => false end) t = [r].
Proof.
  induction t as [|a t IH]; intros N H; [contradiction|]. cbn [map] in N. inversion N as [|? ? N1 N2]; subst.
  assert (F : forall y, In y t -> dkey y <> dkey a).
  { intros y Hy Q. apply N1. rewrite <- Q. apply in_map. auto. }
  cbn [filter]. fold (dkey a). destruct H as [->|H].
  - assert (E : dkey_cmp (dkey r) (dkey r) = Eq) by (apply dkey_eq; auto). rewrite E. f_equal. apply filter_false. intros y Hy.
    destruct (dkey_cmp (d_sim y, d_o y) (dkey r)) eqn:Q; auto. apply dkey_eq in Q. exfalso. apply (F y); auto.
  - destruct (dkey_cmp (dkey a) (dkey r)) eqn:Q; auto. apply dkey_eq in Q. exfalso. apply (F r); auto.
Qed.

Definition of_r (r : rrec) : drec := mkD (v_sim r) (Some (v_o r)) (v_latest r) (v_ultimate r) (v_reserve r).
Definition shown_r (r : drec) : drec := mkD (d_sim r) (d_o r) (nan0 (d_latest r)) (nan0 (d_ultimate r)) (nan0 (d_reserve r)).
Definition tot_r (R : nat -> nat -> rrec) (n s : nat) : drec :=
  mkD s None (skipsum (map (fun i => v_latest (R s i)) (seq 0 n))) (skipsum (map (fun i => v_ultimate (R s i)) (seq 0 n)))
      (skipsum (map (fun i => v_reserve (R s i)) (seq 0 n))).
Lemma skipsum_one v : skipsum [v] = nan0 v.
Proof. destruct v; cbn; auto. f_equal. ring. Qed.

Lemma ss_app {A} (lt : A -> A -> Prop) l1 l2 : StronglySorted lt l1 -> StronglySorted lt l2 ->
  (forall x y, In x l1 -> In y l2 -> lt x y) -> StronglySorted lt (l1 ++ l2).
Proof.
  induction 1 as [|a l1 H IH F]; intros H2 C; auto. cbn [app]. constructor.
  - apply IH; auto. intros. apply C; simpl; auto.
  - apply Forall_app. split; auto. apply Forall_forall. intros. apply C; simpl; auto.
Qed.
Lemma ss_nodup_key l : StronglySorted (slt dkey_cmp) l -> NoDup l.
Proof. apply (ssorted_nodup dkey_cmp). apply dkey_eq. Qed.

Lemma origin_dist_rows n sims (R : nat -> nat -> rrec) os : zsorted os -> List.length os = n -> 0 < n ->
  (forall s i, s < sims -> i < n -> v_o (R s i) = nth i os 0%Z /\ v_sim (R s i) = s) ->
  origin_dist (flat_map (fun i => map (fun s => R s i) (seq 0 sims)) (seq 0 n))
  = map shown_r (flat_map (fun s => map (fun i => of_r (R s i)) (seq 0 n) ++ [tot_r R n s]) (seq 0 sims)).
Proof.
  intros So Lo Hn H.
  set (rs := flat_map (fun i => map (fun s => R s i) (seq 0 sims)) (seq 0 n)).
  set (L := flat_map (fun s => map (fun i => of_r (R s i)) (seq 0 n) ++ [tot_r R n s]) (seq 0 sims)).
  assert (T : reserve_table rs = map of_r rs ++ map (tot_r R n) (seq 0 sims)).
  { unfold reserve_table. f_equal. unfold rs at 1 2 3. unfold rs. rewrite uniq_sims; [|auto|intros; apply H; auto].
    apply map_ext_in. intros s Hs. apply in_seq in Hs. rewrite by_sim; [|lia|intros; apply H; auto]. rewrite !map_map. auto. }
  assert (IL : forall x, In x (reserve_table rs) <-> In x L).
  { intro x. rewrite T, in_app_iff. unfold L. rewrite in_flat_map. split.
    - intros [Hx|Hx].
      + apply in_map_iff in Hx as (r & <- & Hr). unfold rs in Hr. apply in_flat_map in Hr as (i & Hi & Hr).
        apply in_map_iff in Hr as (s & <- & Hs). exists s. split; auto. apply in_app_iff. left. apply in_map_iff. exists i. auto.
      + apply in_map_iff in Hx as (s & <- & Hs). exists s. split; auto. apply in_app_iff. right. left. auto.
    - intros (s & Hs & Hx). apply in_app_iff in Hx as [Hx|[<-|[]]].
      + left. apply in_map_iff in Hx as (i & <- & Hi). apply in_map. unfold rs. apply in_flat_map. exists i. split; auto.
        apply in_map_iff. eauto.
      + right. apply in_map. auto. }
  assert (SL : StronglySorted (slt dkey_cmp) (map dkey L)).
  { unfold L. clear L IL T rs.
    assert (G : forall k a, a + k <= sims -> StronglySorted (slt dkey_cmp)
              (map dkey (flat_map (fun s => map (fun i => of_r (R s i)) (seq 0 n) ++ [tot_r R n s]) (seq a k))) /\
              forall x, In x (map dkey (flat_map (fun s => map (fun i => of_r (R s i)) (seq 0 n) ++ [tot_r R n s]) (seq a k))) -> a <= fst x).
    { induction k as [|k IH]; intros a Ha; [split; [constructor|contradiction]|]. cbn [seq flat_map]. rewrite map_app.
      destruct (IH (S a) ltac:(lia)) as (S1 & S2).
      assert (K : map dkey (map (fun i => of_r (R a i)) (seq 0 n) ++ [tot_r R n a]) = map (fun o => (a, Some o)) os ++ [(a, None)]).
      { rewrite map_app, map_map. f_equal. rewrite <- (list_map_nth os 0%Z), Lo, map_map. apply map_ext_in. intros i Hi. apply in_seq in Hi.
        unfold dkey, of_r. cbn. destruct (H a i ltac:(lia) ltac:(lia)) as (-> & ->). auto. }
      rewrite K. split.
      - apply ss_app; auto.
        + apply ss_app; [|repeat constructor|].
          * clear -So. apply zsorted_slt in So. induction So as [|x l S' IH F]; cbn [map]; constructor; auto.
            apply Forall_forall. intros y Hy. apply in_map_iff in Hy as (o & <- & Hy). rewrite Forall_forall in F.
            apply dkey_lt. cbn [fst snd]. right. split; [auto|]. apply F in Hy. apply Z.compare_lt_iff. exact Hy.
          * intros x y Hx [<-|[]]. apply in_map_iff in Hx as (o & <- & _). apply dkey_lt. cbn. auto.
        + intros x y Hx Hy. apply dkey_lt. left. apply S2 in Hy.
          assert (fst x = a); [|lia]. apply in_app_iff in Hx as [Hx|[<-|[]]]; auto. apply in_map_iff in Hx as (o & <- & _). auto.
      - intros x Hx. apply in_app_iff in Hx as [Hx|Hx]; [|apply S2 in Hx; lia].
        apply in_app_iff in Hx as [Hx|[<-|[]]]; auto. apply in_map_iff in Hx as (o & <- & _). auto. }
    apply (G sims 0). lia. }
  assert (ND : NoDup (map dkey (reserve_table rs))).
  { apply (Permutation_NoDup (l := map dkey L)); [|apply ss_nodup_key; auto]. apply Permutation_map.
    assert (NL : NoDup L) by (apply (NoDup_map_inv dkey), ss_nodup_key; auto).
    apply NoDup_Permutation_bis; auto.
    - rewrite T. unfold L. rewrite app_length, !map_length, seq_length. unfold rs.
      assert (A : forall k a, List.length (flat_map (fun s => map (fun i => of_r (R s i)) (seq 0 n) ++ [tot_r R n s]) (seq a k)) = k * n + k).
      { induction k as [|k IH]; intro a; cbn [seq flat_map]; auto. rewrite !app_length, IH, map_length, seq_length. simpl. lia. }
      assert (A2 : forall k a, List.length (flat_map (fun i => map (fun s => R s i) (seq 0 sims)) (seq a k)) = k * sims).
      { induction k as [|k IH]; intro a; cbn [seq flat_map]; auto. rewrite !app_length, IH, map_length, seq_length. simpl. lia. }
      rewrite A, A2. lia.
    - intros x Hx. apply IL. auto. }
  unfold origin_dist.
  assert (U : uniq dkey_cmp (map (fun r => (d_sim r, d_o r)) (reserve_table rs)) = map dkey L).
  { apply (ssorted_ext dkey_cmp dkey_eq dkey_trans); auto.
    - apply uniq_sorted; auto using dkey_eq, dkey_opp. apply dkey_trans.
    - intro x. rewrite (uniq_in dkey_cmp dkey_eq). rewrite !in_map_iff. split; intros (r & E & Hr); exists r; split; auto; apply IL; auto. }
  rewrite U, map_map. apply map_ext_in. intros r Hr. rewrite filter_key; auto; [|apply IL; auto].
  cbn [map]. rewrite !skipsum_one. unfold shown_r, dkey. auto.
Qed.

(** The call, for any triangle with increasing labels. *)
Lemma boot_rows gm rt m v cl rl ind sims par rng b :
  increasing (m_idx m) -> increasing (m_cols m) -> m_cols m <> [] ->
  boot_cl gm rt (mkTri m "origin" "dev" v) cl rl ind sims par rng = Ok b ->
  exists R : nat -> nat -> rrec,
    o_reserves b = flat_map (fun i => map (fun s => R s i) (seq 0 sims)) (seq 0 (List.length (m_idx m))) /\
    forall s i, s < sims -> i < List.length (m_idx m) -> v_o (R s i) = nth i (m_idx m) 0%Z /\ v_sim (R s i) = s.
Proof.
  intros So Sd Nd B.
  assert (Ex : exists fi sc resid gam, o_reserves b = simulate rt m cl rl fi sc sims resid gam).
  { unfold boot_cl in B. cbn [t_mat t_v] in B.
    destruct (ldfs_of_label _ _ _ _ _); [|discriminate]. cbn [bind] in B.
    destruct (latest_by_origin _); [|discriminate]. cbn [bind] in B.
    destruct (tri_fit_cum _ _); [|discriminate]. cbn [bind] in B.
    destruct (resid_us _ _ _); [|discriminate]. cbn [bind] in B.
    destruct (negb _); [discriminate|]. destruct (negb par && _ && _); [discriminate|]. injection B as <-. cbn. eauto. }
  destruct Ex as (fi & sc & resid & gam & ->).
  destruct (c43_gen rt m cl rl fi sc sims resid gam So Sd Nd) as (F & E & H).
  exists F. split; [exact E|]. intros s i Hs Hi. destruct (H s i Hs Hi) as (la & u & -> & _). auto.
Qed.

Theorem c65_rows gm rt m v cl rl ind sims par rng b :
  increasing (m_idx m) -> increasing (m_cols m) -> m_cols m <> [] -> m_idx m <> [] ->
  boot_cl gm rt (mkTri m "origin" "dev" v) cl rl ind sims par rng = Ok b ->
  map (fun d => (d_sim d, d_o d)) (origin_dist (o_reserves b))
    = flat_map (fun s => map (fun o => (s, Some o)) (m_idx m) ++ [(s, None)]) (seq 0 sims) /\
  (forall r, In r (o_reserves b) ->
     let shown x := match x with NaN => Fin 0%Qc | _ => x end in
     In (mkD (v_sim r) (Some (v_o r)) (shown (v_latest r)) (shown (v_ultimate r)) (shown (v_reserve r)))
        (origin_dist (o_reserves b))).
Proof.
  intros So Sd Nd Ne B. destruct (boot_rows _ _ _ _ _ _ _ _ _ _ _ So Sd Nd B) as (R & E & H).
  assert (Hn : 0 < List.length (m_idx m)) by (destruct (m_idx m); [congruence|simpl; lia]).
  rewrite E. rewrite (origin_dist_rows (List.length (m_idx m)) sims R (m_idx m)); auto. split.
  - rewrite map_map. rewrite !flat_map_concat_map, concat_map, map_map. f_equal. apply map_ext_in. intros s Hs. apply in_seq in Hs.
    rewrite map_app. cbn [map]. f_equal. rewrite map_map.
    rewrite <- (list_map_nth (m_idx m) 0%Z) at 2. rewrite map_map. apply map_ext_in. intros i Hi. apply in_seq in Hi. cbn.
    destruct (H s i ltac:(lia) ltac:(lia)) as (-> & ->). auto.
  - intros r Hr shown. assert (Q : forall x, shown x = nan0 x) by (intros [| | |q]; auto). rewrite !Q.
    apply in_flat_map in Hr as (i & Hi & Hr). apply in_map_iff in Hr as (s & <- & Hs).
    apply in_map_iff. exists (of_r (R s i)). split; auto. apply in_flat_map. exists s. split; auto. apply in_app_iff. left.
    apply in_map_iff. eauto.
Qed.

Theorem c65 gm rt m v cl rl ind sims par rng b (u l : nat -> nat -> Qc) :
  increasing (m_idx m) -> increasing (m_cols m) -> m_cols m <> [] -> m_idx m <> [] ->
  boot_cl gm rt (mkTri m "origin" "dev" v) cl rl ind sims par rng = Ok b ->
  let n := List.length (m_idx m) in
  (forall i s, i < n -> s < sims -> exists r, In r (o_reserves b) /\ v_o r = nth i (m_idx m) 0%Z /\ v_sim r = s /\
     v_ultimate r = Fin (u i s) /\ v_latest r = Fin (l i s)) ->
  origin_dist (o_reserves b) = flat_map (fun s =>
      map (fun i => mkD s (Some (nth i (m_idx m) 0%Z)) (Fin (l i s)) (Fin (u i s)) (Fin (u i s - l i s)%Qc)) (seq 0 n) ++
      [mkD s None (Fin (sumf 0 n (fun i => l i s))) (Fin (sumf 0 n (fun i => u i s)))
           (Fin (sumf 0 n (fun i => u i s) - sumf 0 n (fun i => l i s))%Qc)]) (seq 0 sims).
Proof.
  intros So Sd Nd Ne B n X. destruct (boot_rows _ _ _ _ _ _ _ _ _ _ _ So Sd Nd B) as (R & E & H). fold n in E, H.
  destruct (c43 _ _ _ _ _ _ _ _ _ _ _ So Sd Nd B) as (_ & Hr & _).
  assert (Hn : 0 < n) by (unfold n; destruct (m_idx m); [congruence|simpl; lia]).
  assert (V : forall s i, s < sims -> i < n -> v_ultimate (R s i) = Fin (u i s) /\ v_latest (R s i) = Fin (l i s) /\
      v_reserve (R s i) = Fin (u i s - l i s)%Qc).
  { intros s i Hs Hi. destruct (X i s Hi Hs) as (r & Ir & Eo & Es & Eu & El).
    assert (r = R s i) as <-; [|split; [|split]; auto].
    rewrite E in Ir. apply in_flat_map in Ir as (i' & Hi' & Ir). apply in_map_iff in Ir as (s' & <- & Hs'). apply in_seq in Hi', Hs'.
    destruct (H s' i' ltac:(lia) ltac:(lia)) as (A1 & A2). rewrite A1 in Eo. rewrite A2 in Es. subst s'.
    apply (NoDup_nth (m_idx m) 0%Z) in Eo; [congruence|apply zsorted_nodup; auto|unfold n in *; lia|unfold n in *; lia]. }
  rewrite E, (origin_dist_rows n sims R (m_idx m)); auto.
  rewrite !flat_map_concat_map, concat_map, map_map. f_equal. apply map_ext_in. intros s Hs. apply in_seq in Hs.
  rewrite map_app, map_map. f_equal.
  - apply map_ext_in. intros i Hi. apply in_seq in Hi. unfold shown_r, of_r. cbn [d_sim d_o d_latest d_ultimate d_reserve].
    destruct (H s i ltac:(lia) ltac:(lia)) as (-> & ->). destruct (V s i ltac:(lia) ltac:(lia)) as (-> & -> & ->). auto.
  - cbn [map]. unfold shown_r, tot_r. cbn [d_sim d_o d_latest d_ultimate d_reserve].
    assert (G : forall (p : rrec -> val) (f : nat -> Qc), (forall i, i < n -> p (R s i) = Fin (f i)) ->
      skipsum (map (fun i => p (R s i)) (seq 0 n)) = Fin (sumf 0 n f)).
    { intros p f Hp. unfold sumf. rewrite <- skipsum_fin, map_map. f_equal. apply map_ext_in. intros i Hi. apply in_seq in Hi. apply Hp. lia. }
    rewrite (G v_latest (fun i => l i s)), (G v_ultimate (fun i => u i s)), (G v_reserve (fun i => u i s - l i s)%Qc)
      by (intros; apply V; lia).
    rewrite sumf_sub. auto.
Qed.

(** ** [residuals_detail] *)

Lemma total_qsum l : total l = qsum l.
Proof. unfold total. induction l; simpl; congruence. Qed.
Ltac tq := repeat match goal with |- context [total ?l] => rewrite (total_qsum l) end.
Lemma sort_qle l : StronglySorted Qcle (ssort Qccompare l).
Proof.
  assert (H : StronglySorted (fun a b => Qccompare a b <> Gt) (ssort Qccompare l)).
  { apply ssort_sorted; [apply QuantFacts.qcmp_opp|]. intros x y z A B. apply QuantFacts.qcmp_le in A, B. apply QuantFacts.qcmp_le. apply (Qcle_trans _ y); auto. }
  remember (ssort Qccompare l) as s eqn:Es. clear Es. induction H as [|a s S1 IH F]; constructor; auto.
Qed.
Lemma qleast_spec l : l <> [] -> In (qleast l) l /\ forall x, In x l -> (qleast l <= x)%Qc.
Proof.
  intro N. assert (S' := sort_qle l). assert (P := ssort_perm Qccompare l). unfold qleast.
  destruct (ssort Qccompare l) as [|y s].
  { exfalso. apply N. apply Permutation_nil. auto. }
  cbn [nth]. split; [apply (Permutation_in y P); left; auto|]. intros x Hx.
  apply (Permutation_in x (Permutation_sym P)) in Hx. inversion S' as [|? ? _ F]; subst. rewrite Forall_forall in F.
  destruct Hx as [->|Hx]; [qlra|apply F; auto].
Qed.
Lemma sorted_last s : StronglySorted Qcle s -> s <> [] -> In (last s 0%Qc) s /\ forall x, In x s -> (x <= last s 0)%Qc.
Proof.
  induction 1 as [|a s S' IH F]; intro N; [congruence|]. destruct s as [|b s].
  - cbn. split; auto. intros x [->|[]]. qlra.
  - destruct (IH ltac:(discriminate)) as (I1 & I2). change (last (a :: b :: s) 0%Qc) with (last (b :: s) 0%Qc).
    split; [right; auto|]. intros x [->|Hx]; [|apply I2; auto]. rewrite Forall_forall in F. apply F, I1.
Qed.
Lemma qmost_spec l : l <> [] -> In (qmost l) l /\ forall x, In x l -> (x <= qmost l)%Qc.
Proof.
  intro N. assert (P := ssort_perm Qccompare l). unfold qmost.
  destruct (sorted_last (ssort Qccompare l) (sort_qle l)) as (A & B).
  { intro Q. rewrite Q in P. apply N. apply Permutation_nil. auto. }
  split; [apply (Permutation_in _ P); auto|]. intros x Hx. apply B. apply (Permutation_in x (Permutation_sym P)); auto.
Qed.
Lemma sq_pow (x : Qc) : (x ^ 2 = x * x)%Qc.
Proof. cbn. ring. Qed.
Lemma variance_list l : 2 <= List.length l ->
  variance1 (map Fin l) = Fin (dev_power 2 (total l / qn (List.length l)) l / qn (List.length l - 1))%Qc.
Proof.
  intro H. unfold variance1. rewrite vmean_fin by (intro Q; subst; simpl in H; lia).
  rewrite map_map, map_length. unfold dev_power. tq.
  set (c := (qsum l / qn (List.length l))%Qc).
  rewrite (map_ext _ (fun x => Fin ((x - c) ^ 2)%Qc)) by (intro; rewrite vsub_fin, sq_pow; auto).
  rewrite <- (map_map (fun x => (x - c) ^ 2)%Qc Fin), vsum_fin.
  unfold vz. replace (qz (Z.of_nat (List.length l) - 1)) with (qn (List.length l - 1)) by (unfold qn; f_equal; lia).
  rewrite vdiv_fin; auto. apply qc_pos_neq, qn_pos. lia.
Qed.
Lemma moment_spec k l : moment k l = (dev_power k (total l / qn (List.length l)) l / qn (List.length l))%Qc.
Proof. unfold moment, dev_power, qmean. tq; rewrite map_length. auto. Qed.
Lemma dev2_nonneg c l : (0 <= dev_power 2 c l)%Qc.
Proof.
  unfold dev_power. tq. apply qsum_nonneg. intros x Hx. apply in_map_iff in Hx as (y & <- & _). rewrite sq_pow.
  apply qc_sq_nonneg.
Qed.

Lemma stats_describe mode0 m xs md : finite (nonzero m) = Some xs -> xs <> [] -> mode0 xs = Ok md ->
  exists s, residual_stats mode0 m = Ok s /\ describes s xs /\ r_mode s = md.
Proof.
  intros E N M. unfold residual_stats. rewrite E. destruct (Nat.eqb_spec (List.length xs) 0) as [Q|Q].
  { destruct xs; [congruence|discriminate]. }
  rewrite M. cbn [bind]. eexists. split; [reflexivity|]. split; [|reflexivity].
  assert (Hn : 0 < List.length xs) by lia. assert (Pn : (0 < qn (List.length xs))%Qc) by (apply qn_pos; auto).
  unfold describes. cbn [r_size r_sum r_ssqr r_min r_max r_mean r_skew r_cov r_kurt r_var r_std r_med].
  rewrite !moment_spec.
  assert (Nn : (0 <= dev_power 2 (total xs / qn (List.length xs)) xs / qn (List.length xs))%Qc)
    by (apply qc_div_nonneg; auto; apply dev2_nonneg).
  split; [auto|]. split; [tq; auto|]. split.
  { tq. f_equal. apply map_ext. intro. apply sq_pow. }
  split; [apply qleast_spec; auto|]. split; [apply qmost_spec; auto|].
  split; [unfold qmean; tq; auto|].
  split; [exists (qmedian xs); split; [apply vmedian_fin; auto|apply qmedian_spec; auto]|].
  split; [|split; [|split; [|split]]].
  - intro L1. destruct xs as [|x [|? ?]]; try discriminate. cbn [map]. rewrite variance_one. auto.
  - intro L2. eexists. split; [apply variance_list; auto|]. split; [reflexivity|].
    assert (P : (0 <= dev_power 2 (total xs / qn (List.length xs)) xs / qn (List.length xs - 1))%Qc)
      by (apply qc_div_nonneg; [apply dev2_nonneg|apply qn_pos; lia]).
    split; auto. rewrite variance_list by auto. apply fsqrt_fin; auto.
  - intro Z. rewrite Z. rewrite qceqb_refl. auto.
  - intro Z. destruct (qceqb_spec (dev_power 2 (total xs / qn (List.length xs)) xs / qn (List.length xs)) 0) as [Z'|_]; [congruence|].
    split; auto. rewrite sq_pow. auto.
  - intro C. assert (F := fsqrt_fin _ Nn). cbn [of_val] in F. rewrite F. unfold qmean. tq; unfold fdiv.
    destruct (Req_EM_T _ 0) as [Q0|Q0]; auto. exfalso. apply C. tq. apply this_inj. apply eqR_Qeq. rewrite Q0. rewrite <- Q2R_zero. auto.
Qed.

(** Extraction of the numbers. *)
Lemma finite_nonzero l : (forall v, In v l -> v = NaN \/ exists q, v = Fin q) ->
  finite (filter (fun v => negb (veqb v (Fin 0%Qc))) (filter (fun v => negb (isnan v)) l)) = Some (nonzero_numbers l).
Proof.
  induction l as [|v l IH]; intro H; auto. specialize (IH (fun v Hv => H v (or_intror Hv))).
  destruct (H v (or_introl eq_refl)) as [->|(q & ->)]; cbn [filter isnan negb nonzero_numbers flat_map app]; [exact IH|].
  cbn [veqb]. destruct (qceqb q 0); cbn [negb]; [exact IH|]. cbn [finite]. rewrite IH. auto.
Qed.
Lemma nonzero_scale f l : f <> 0%Qc ->
  nonzero_numbers (map (vmul (Fin f)) l) = map (Qcmult f) (nonzero_numbers l) \/ exists v, In v l /\ (v = PInf \/ v = NInf).
Proof.
  intro Hf. induction l as [|v l [IH|(w & Hw & I)]]; [left; auto| |right; exists w; split; [right|]; auto].
  destruct v as [| | |q].
  - left. exact IH.
  - right. exists PInf. simpl. auto.
  - right. exists NInf. simpl. auto.
  - left. unfold nonzero_numbers in *. cbn [map flat_map vmul]. rewrite IH, map_app. f_equal.
    destruct (qceqb_spec q 0) as [->|D]; [replace (f * 0)%Qc with 0%Qc by ring; rewrite qceqb_refl; auto|].
    destruct (qceqb_spec (f * q) 0) as [D'|_]; auto. exfalso. apply Qcmult_integral in D'. tauto.
Qed.

Definition sqv (v : val) : Qc := match v with Fin q => (q * q)%Qc | _ => 0%Qc end.
Lemma ssq_numbers l : total (map (fun x => x * x)%Qc (nonzero_numbers l)) = qsum (map sqv l).
Proof.
  tq. induction l as [|v l IH]; auto. unfold nonzero_numbers in *. cbn [flat_map map qsum]. rewrite map_app, qsum_app, IH.
  destruct v as [| | |q]; cbn [map qsum sqv]; try ring. destruct (qceqb_spec q 0) as [->|D]; cbn [map qsum]; ring.
Qed.
Lemma qsum_swap {A B} (f : A -> B -> Qc) la lb :
  qsum (map (fun a => qsum (map (f a) lb)) la) = qsum (map (fun b => qsum (map (fun a => f a b) la)) lb).
Proof.
  induction la as [|a la IH]; cbn [map qsum].
  - symmetry. induction lb; cbn [map qsum]; auto. rewrite IHlb. ring.
  - rewrite IH, <- qsum_map_add. auto.
Qed.
Lemma qsum_concat l : qsum (List.concat l) = qsum (map qsum l).
Proof. induction l; cbn [List.concat map qsum]; auto. rewrite qsum_app, IHl. auto. Qed.
(** Sum of squares of a frame given by its labels. *)
Lemma colsums_frame os ds (g : Z -> Z -> val) :
  (forall o d, In o os -> In d ds -> g o d = NaN \/ exists q, g o d = Fin q) ->
  let m := mkMat os ds (map (fun o => map (g o) ds) os) in
  skipsum (colsums (fmap (fun v => vpow v 2) m)) = Fin (qsum (map sqv (List.concat (m_cells m)))).
Proof.
  intros H m. unfold colsums, fmap, ncols. cbn [m m_cols m_cells m_idx].
  assert (Ec : map (fun j => skipsum (mcol (mkMat os ds (map (map (fun v => vpow v 2)) (map (fun o => map (g o) ds) os))) j)) (seq 0 (List.length ds))
             = map (fun d => Fin (qsum (map (fun o => sqv (g o d)) os))) ds).
  { transitivity (map (fun d => Fin (qsum (map (fun o => sqv (g o d)) os))) (map (fun j => nth j ds 0%Z) (seq 0 (List.length ds))));
      [|rewrite list_map_nth; auto].
    rewrite (map_map (fun j => nth j ds 0%Z)). apply map_ext_in. intros j Hj. apply in_seq in Hj.
    unfold mcol, nrows, cell. cbn [m_idx m_cells].
    transitivity (Fin (qsum (map (fun o => sqv (g o (nth j ds 0%Z))) (map (fun i => nth i os 0%Z) (seq 0 (List.length os))))));
      [|rewrite list_map_nth; auto].
    rewrite (map_map (fun i => nth i os 0%Z)).
    apply (skipsum_gen (seq 0 (List.length os)) _ (fun i => sqv (g (nth i os 0%Z) (nth j ds 0%Z)))).
    intros i Hi. apply in_seq in Hi.
    rewrite map_map. rewrite (nth_map_in _ os i _ 0%Z) by lia. rewrite map_map. rewrite (nth_map_in _ ds j _ 0%Z) by lia.
    destruct (H (nth i os 0%Z) (nth j ds 0%Z)) as [->|(q & ->)]; [apply nth_In; lia|apply nth_In; lia|right; auto|left].
    cbn. f_equal. ring. }
  rewrite Ec. rewrite <- (map_map (fun d => qsum (map (fun o => sqv (g o d)) os)) Fin), skipsum_fin. f_equal.
  rewrite concat_map, qsum_concat, !map_map. rewrite <- qsum_swap. f_equal. apply map_ext. intro o. rewrite map_map. auto.
Qed.

Lemma pow_mul (f x : Qc) k : ((f * x) ^ k = f ^ k * x ^ k)%Qc.
Proof. induction k; cbn; [ring|]. rewrite IHk. ring. Qed.
Lemma dev_scale k f c l : dev_power k (f * c) (map (Qcmult f) l) = (f ^ k * dev_power k c l)%Qc.
Proof.
  unfold dev_power. tq. rewrite map_map, <- qsum_map_mulc. f_equal. apply map_ext. intro x. rewrite <- pow_mul. f_equal. ring.
Qed.
Lemma total_scale f l : total (map (Qcmult f) l) = (f * total l)%Qc.
Proof. tq. rewrite <- (map_id l) at 2. rewrite <- qsum_map_mulc. auto. Qed.

(** Statistics of the residuals multiplied by a positive number. *)
Lemma describes_scale u a f l : (0 < f)%Qc -> l <> [] -> describes u l -> describes a (map (Qcmult f) l) ->
  r_size a = r_size u /\ r_sum a = (f * r_sum u)%Qc /\ r_mean a = (f * r_mean u)%Qc /\ r_skew a = r_skew u /\ r_kurt a = r_kurt u /\
  (r_mean u <> 0%Qc -> r_cov a = r_cov u).
Proof.
  intros Hf N U A. unfold describes in *. rewrite map_length, total_scale in A.
  assert (Pn : qn (List.length l) <> 0%Qc) by (apply qc_pos_neq, qn_pos; destruct l; [congruence|simpl; lia]).
  assert (Hc : (f * total l / qn (List.length l) = f * (total l / qn (List.length l)))%Qc) by (field; auto).
  rewrite Hc in A. rewrite !dev_scale in A.
  destruct U as (U1 & U2 & _ & _ & _ & U6 & _ & _ & _ & U10 & U11 & U12).
  destruct A as (A1 & A2 & _ & _ & _ & A6 & _ & _ & _ & A10 & A11 & A12).
  set (c := (total l / qn (List.length l))%Qc) in *. set (n := qn (List.length l)) in *.
  assert (Fn : f <> 0%Qc) by (apply qc_pos_neq; auto).
  assert (M : forall k, (f ^ k * dev_power k c l / n = f ^ k * (dev_power k c l / n))%Qc) by (intro; field; auto).
  rewrite !M in *.
  assert (Z : (f ^ 2 * (dev_power 2 c l / n) = 0 <-> dev_power 2 c l / n = 0)%Qc).
  { rewrite sq_pow. split; [|intros ->; ring]. intro Q. apply Qcmult_integral in Q as [Q|Q]; auto. apply Qcmult_integral in Q. tauto. }
  assert (Nn : (0 <= dev_power 2 c l / n)%Qc) by (apply qc_div_nonneg; [apply dev2_nonneg|apply qn_pos; destruct l; [congruence|simpl; lia]]).
  assert (Sq : sqrt (Q2R (f ^ 2 * (dev_power 2 c l / n))%Qc) = (Q2R f * sqrt (Q2R (dev_power 2 c l / n)%Qc))%R).
  { rewrite sq_pow, Q2R_mul, Q2R_mul.
    assert (Pf : (0 < Q2R f)%R) by (apply Qreals.Qlt_Rlt in Hf; rewrite Q2R_zero in Hf; auto). apply Q2R_le in Nn. rewrite Q2R_zero in Nn.
    rewrite sqrt_mult by nra. rewrite sqrt_square by lra. auto. }
  assert (Pf : (0 < Q2R f)%R) by (apply Qreals.Qlt_Rlt in Hf; rewrite Q2R_zero in Hf; auto).
  split; [congruence|]. split; [congruence|]. split; [congruence|].
  assert (Cv : r_mean u <> 0%Qc -> r_cov a = r_cov u).
  { rewrite U6. intro Hm. assert (Hm' : (f * c)%Qc <> 0%Qc) by (intro Q; apply Qcmult_integral in Q; tauto).
    rewrite (A12 Hm'), (U12 Hm), Sq, Q2R_mul. f_equal. field. split; [|lra].
    intro Q. apply Hm. apply this_inj. apply eqR_Qeq. rewrite Q. symmetry. apply Q2R_zero. }
  destruct (Qc_eq_dec (dev_power 2 c l / n) 0) as [E|E].
  - destruct (U10 E) as (-> & ->). destruct (A10 (proj2 Z E)) as (-> & ->). auto.
  - destruct (U11 E) as (-> & ->). destruct (A11 (fun Q => E (proj1 Z Q))) as (-> & ->). split; [|split; auto].
    + f_equal. rewrite Sq. assert (Sn : sqrt (Q2R (dev_power 2 c l / n)%Qc) <> 0%R).
      { intro Q. apply E. apply sqrt_eq_0 in Q; [|apply Q2R_le in Nn; rewrite Q2R_zero in Nn; auto].
        apply this_inj. apply eqR_Qeq. rewrite Q. symmetry. apply Q2R_zero. }
      replace (f ^ 3 * (dev_power 3 c l / n))%Qc with (f * (f * (f * (dev_power 3 c l / n))))%Qc by (cbn; ring).
      rewrite !Q2R_mul. field. split; [auto|lra].
    + f_equal. replace (f ^ 4)%Qc with (f * f * (f * f))%Qc by (cbn; ring). rewrite sq_pow. field.
      repeat split; auto; intro Q; apply E; rewrite Q; unfold Qcdiv; ring.
Qed.

Theorem c66 gm rt t cl rl ind sims rng b mode0 f :
  boot_cl gm rt t cl rl ind sims false rng = Ok b ->
  let residuals := List.concat (m_cells (o_resid_us b)) in
  let R := nonzero_numbers residuals in
  let cells := Z.of_nat (nbr_cells (t_mat t)) in
  (forall v, In v residuals -> v = NaN \/ exists q, v = Fin q) -> R <> [] ->
  (0 < o_dof b)%Z -> rt (Fin (qz cells / qz (o_dof b))%Qc) = Fin f -> (0 < f)%Qc ->
  (forall l, exists md, mode0 l = Ok md) ->
  exists u a, residuals_detail mode0 false b = Ok (Some (u, a)) /\
    describes u R /\ describes a (map (Qcmult f) R) /\
    (r_size a = r_size u /\ r_sum a = (f * r_sum u)%Qc /\ r_mean a = (f * r_mean u)%Qc /\ r_skew a = r_skew u /\ r_kurt a = r_kurt u /\
     (r_mean u <> 0%Qc -> r_cov a = r_cov u)) /\
    exists phi, o_scale b = Fin phi /\ r_ssqr u = (phi * qz (o_dof b))%Qc /\ r_ssqr a = (f * f * (phi * qz (o_dof b)))%Qc /\
      ((f * f = qz cells / qz (o_dof b))%Qc -> r_ssqr a = (phi * qz cells)%Qc).
Proof.
  intros B res R cells Hres HR Hd Hrt Hf Hm.
  assert (Ex : o_resid_adj b = resid_adj rt (t_mat t) (o_resid_us b) /\ o_scale b = scale_param (t_mat t) (o_resid_us b) /\
               o_dof b = dof (t_mat t) /\ exists os ds g, o_resid_us b = mkMat os ds (map (fun o => map (g o) ds) os)).
  { unfold boot_cl in B.
    destruct (ldfs_of_label _ _ _ _ _); [|discriminate]. cbn [bind] in B.
    destruct (latest_by_origin _); [|discriminate]. cbn [bind] in B.
    destruct (tri_fit_cum _ _); [|discriminate]. cbn [bind] in B.
    destruct (resid_us _ _ _) as [ru|] eqn:Eru; [|discriminate]. cbn [bind] in B.
    destruct (negb _); [discriminate|]. destruct (negb false && _ && _); [discriminate|]. injection B as <-. cbn [o_resid_adj o_resid_us o_scale o_dof].
    split; auto. split; auto. split; auto. unfold resid_us in Eru. destruct (to_incr t); [|discriminate]. cbn [bind] in Eru.
    injection Eru as <-. unfold falign. do 3 eexists. reflexivity. }
  destruct Ex as (Ea & Es & Ed & os & ds & g & Eg).
  assert (Dn : qz (o_dof b) <> 0%Qc) by (apply qc_pos_neq; rewrite <- qz_0; apply qz_lt; auto).
  assert (Nu : finite (nonzero (o_resid_us b)) = Some R) by (apply finite_nonzero; auto).
  assert (Na : finite (nonzero (o_resid_adj b)) = Some (map (Qcmult f) R)).
  { rewrite Ea. unfold resid_adj. rewrite <- Ed. unfold vz. rewrite vdiv_fin by auto. fold cells. rewrite Hrt.
    unfold nonzero, fmap. cbn [m_cells]. rewrite <- concat_map. fold res.
    destruct (nonzero_scale f res (qc_pos_neq _ Hf)) as [Q|(v & Hv & I)].
    - unfold R. rewrite <- Q. apply finite_nonzero. intros v Hv. apply in_map_iff in Hv as (w & <- & Hw). destruct (Hres w Hw) as [->|(q & ->)]; cbn; eauto.
    - exfalso. destruct (Hres v Hv) as [->|(q & ->)]; destruct I; discriminate. }
  assert (HfR : map (Qcmult f) R <> []) by (destruct R; [congruence|discriminate]).
  destruct (Hm R) as (md & Em). destruct (Hm (map (Qcmult f) R)) as (md' & Em').
  destruct (stats_describe mode0 _ _ _ Nu HR Em) as (u & Eu & Du & _).
  destruct (stats_describe mode0 _ _ _ Na HfR Em') as (a & Ea' & Da & _).
  exists u, a. split; [unfold residuals_detail; rewrite Eu, Ea'; auto|]. split; auto. split; auto.
  split; [apply (describes_scale u a f R); auto|].
  assert (Ss : skipsum (colsums (fmap (fun v => vpow v 2) (o_resid_us b))) = Fin (r_ssqr u)).
  { assert (U3 : r_ssqr u = qsum (map sqv res)) by (rewrite <- ssq_numbers; apply Du). rewrite U3. unfold res. rewrite Eg. apply colsums_frame.
    intros o d Ho Hdd. apply Hres. unfold res. rewrite Eg. cbn [m_cells]. apply in_concat. exists (map (g o) ds). split; [|apply in_map; auto].
    apply in_map_iff. eauto. }
  exists (r_ssqr u / qz (o_dof b))%Qc. split; [|split].
  - rewrite Es. unfold scale_param. rewrite Ss, <- Ed. unfold vz. rewrite vdiv_fin by auto. auto.
  - rewrite qc_div_mul; auto.
  - assert (A3 : r_ssqr a = (f * f * r_ssqr u)%Qc).
    { destruct Du as (_ & _ & -> & _). destruct Da as (_ & _ & -> & _). rewrite map_map. tq. rewrite <- qsum_map_mulc. f_equal.
      apply map_ext. intro. ring. }
    rewrite qc_div_mul by auto. split; auto. intro Hff. rewrite A3, Hff. field. auto.
Qed.

Lemma c66_raises b : (forall v, In v (List.concat (m_cells (o_resid_us b))) -> v = NaN \/ exists q, v = Fin q) ->
  nonzero_numbers (List.concat (m_cells (o_resid_us b))) <> [] ->
  residuals_detail mode0_pinned false b = Err IndexError.
Proof.
  intros H N. unfold residuals_detail, residual_stats. unfold nonzero. rewrite finite_nonzero by auto.
  destruct (nonzero_numbers _); [congruence|]. auto.
Qed.
