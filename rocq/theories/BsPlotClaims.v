(** Proofs about the plot of a bootstrap result (C76). *)

From Coq Require Import String QArith Qcanon Qround ZArith List Bool Ascii Lia Lqa Sorting.Sorted Permutation.
From Verif Require Import Val QcLib Frame Triangle A2A Base Boot Quant Plot Sims BsPlot ListLib RegFacts BootLib BootSim BuildFacts
  Spec SpecQuant SpecPlot SpecBand QuantFacts QuantClaims BaseClaims PlotClaims SimsClaims.
Import ListNotations.
Open Scope string_scope.
Open Scope list_scope.
Open Scope nat_scope.

(** ** Quantiles of a group *)
Lemma linear_ok l q : l <> [] -> (0 <= q <= 1)%Qc ->
  exists v, percentile Linear l q = Ok v /\ linear_quantile l q v.
Proof.
  intros Hl Hq. destruct (h_range l Hl q Hq) as (A & B).
  assert (Hs : ssort Qccompare l <> []) by (apply s_ne; auto).
  destruct (floor_in (ssort Qccompare l) _ A B) as (F1 & F2).
  assert (Ls : List.length (ssort Qccompare l) = List.length l) by (symmetry; apply Permutation_length; apply (ssort_stats l)).
  set (h := (qn (List.length l - 1) * q)%Qc) in *. set (k := Z.to_nat (Qfloor h)).
  assert (Hk : k < List.length l).
  { unfold k. assert (0 < List.length l) by (destruct l; [congruence|simpl; lia]). lia. }
  assert (G : (qn k <= h <= qn (k + 1))%Qc).
  { destruct (floor_spec h) as (G1 & G2). unfold qn, k. rewrite Nat2Z.inj_add, Z2Nat.id by lia.
    split; [exact G1|apply Qclt_le_weak; exact G2]. }
  eexists. split; [apply (plin l Hl _ k q (ssort_stats l) Hk G)|].
  exists (ssort Qccompare l), k. split; [apply ssort_stats|]. split; [exact Hk|]. split; [exact G|reflexivity].
Qed.
Lemma finite_map xs : finite (map Fin xs) = Some xs.
Proof. induction xs as [|a xs IH]; simpl; [auto|]. rewrite IH. auto. Qed.
Lemma group_fin xs q : xs <> [] -> (0 <= q <= 1)%Qc ->
  exists v, group_quantile (map Fin xs) q = Ok (Fin v) /\ linear_quantile xs q v.
Proof.
  intros Hl Hq. destruct (linear_ok xs q Hl Hq) as (v & E & L). exists v. split; [|exact L].
  unfold group_quantile.
  replace (filter (fun w => negb (isnan w)) (map Fin xs)) with (map Fin xs) by (clear; induction xs; simpl; congruence).
  rewrite finite_map. destruct xs as [|x xs]; [congruence|]. rewrite E. reflexivity.
Qed.

(** ** Headers *)
Lemma pcthdr_not s : last (list_ascii_of_string s) "%"%char <> "%"%char -> forall x, pcthdr x <> s.
Proof.
  intros H x E. apply H. rewrite <- E. unfold pcthdr. rewrite list_ascii_of_string_of_list_ascii. apply last_last.
Qed.
Lemma hdr_actual x : String.eqb (pcthdr x) "actual" = false.
Proof. apply String.eqb_neq. apply pcthdr_not. discriminate. Qed.
Lemma hdr_forecast x : String.eqb (pcthdr x) "forecast" = false.
Proof. apply String.eqb_neq. apply pcthdr_not. discriminate. Qed.

(** ** The two quantiles of one two-sided request *)
Lemma sorted_two a b l : (a < b)%Qc -> StronglySorted Qclt l -> (forall x, In x l <-> x = a \/ x = b) -> l = [a; b].
Proof.
  intros Hab S H.
  assert (N := sorted_nodup l S).
  destruct S as [|x l S Hx]; [exfalso; apply (proj2 (H a)); auto|].
  destruct S as [|y l S Hy].
  - exfalso. assert (In a [x]) as [<-|[]] by (apply H; auto). assert (In b [x]) as [E|[]] by (apply H; auto).
    subst. apply (Qclt_not_le _ _ Hab). apply Qcle_refl.
  - assert (Hxy : (x < y)%Qc) by (inversion Hx; auto).
    assert (X := proj1 (H x) (or_introl eq_refl)). assert (Y := proj1 (H y) (or_intror (or_introl eq_refl))).
    assert (x = a /\ y = b) as (-> & ->).
    { destruct X as [->| ->], Y as [->| ->]; auto; exfalso.
      - apply (Qclt_not_le _ _ Hxy), Qcle_refl.
      - apply (Qclt_not_le _ _ Hxy), Qclt_le_weak, Hab.
      - apply (Qclt_not_le _ _ Hxy), Qcle_refl. }
    destruct l as [|z l]; [auto|]. exfalso.
    assert (Z := proj1 (H z) (or_intror (or_intror (or_introl eq_refl)))).
    inversion N as [|? ? N1 N2]; subst. inversion N2 as [|? ? N3 N4]; subst. simpl in N1, N3.
    destruct Z as [->| ->]; tauto.
Qed.
Lemma two_quantiles x : (1 / qz 10000000 < x)%Qc -> (x <= 1)%Qc ->
  let a := ((1 - x) / qz 2)%Qc in let b := ((1 + x) / qz 2)%Qc in
  qtls_formatter [Fin x] true = Ok ([a; b], [pcthdr a; pcthdr b]) /\ (0 <= a <= 1)%Qc /\ (0 <= b <= 1)%Qc /\
  pcthdr a <> pcthdr b.
Proof.
  intros H0 H1 a b.
  assert (P0 : (0 < 1 / qz 10000000)%Qc) by (vm_compute; reflexivity).
  assert (X0 : (0 <= x)%Qc) by (apply Qclt_le_weak; eapply Qclt_trans; eauto).
  destruct (half_unit x (conj X0 H1)) as (Ha & Hb). fold a in Ha. fold b in Hb.
  assert (Eab : b = (a + x)%Qc).
  { unfold a, b. assert (E1 : ((1 - x) / qz 2 = (1 - x) * (1 / qz 2))%Qc) by (field; discriminate).
    assert (E3 : ((1 + x) / qz 2 = (1 + x) * (1 / qz 2))%Qc) by (field; discriminate).
    assert (Hh : ((1 / qz 2) + (1 / qz 2) = 1)%Qc) by (apply Qc_is_canon; reflexivity).
    rewrite E1, E3. revert Hh. generalize (1 / qz 2)%Qc. intros hf Hh.
    replace ((1 - x) * hf + x)%Qc with (hf + (1 - hf) * x)%Qc by ring.
    assert (K : ((1 - hf) = hf)%Qc) by (rewrite <- Hh; ring). rewrite K. ring. }
  assert (Hab : (a < b)%Qc).
  { rewrite Eab. assert (0 < x)%Qc by (eapply Qclt_trans; eauto). clear -H. qlra. }
  assert (Q := c35 [Fin x] true). unfold qtls_formatter in *.
  assert (U : unit_all [Fin x] = true).
  { apply unit_all_true. intros v [<-|[]]. exists x. auto. }
  rewrite U in *. cbn [finite] in *. destruct Q as (_ & S & W & _).
  assert (E : sort_unique (map (fun x => (1 - x) / qz 2)%Qc [x] ++ map (fun x => (1 + x) / qz 2)%Qc [x]) = [a; b]).
  { apply sorted_two; auto. intro y. rewrite (W y). unfold wanted. split.
    - intros (r & [E|[]] & D). injection E as <-. exact D.
    - intro D. exists x. split; [left; auto|exact D]. }
  rewrite E. split; [reflexivity|]. split; [exact Ha|]. split; [exact Hb|].
  intro N. apply pcthdr_iff in N; [|apply Ha|apply Hb]. revert N. change (grain a <> grain b). apply grain_far.
  rewrite Eab. clear -H0. revert H0. generalize (1 / qz 10000000)%Qc. intros e H0. qlra.
Qed.

(** ** Lookup in the table of quantiles *)
Lemma mapM_all {A B} (f : A -> res B) l : (forall x, In x l -> exists y, f x = Ok y) -> exists ys, mapM f l = Ok ys.
Proof.
  induction l as [|a l IH]; intro H; simpl; [eauto|].
  destruct (H a (or_introl eq_refl)) as (y & ->). cbn [bind].
  destruct IH as (ys & ->); [intros; apply H; right; auto|]. eexists. reflexivity.
Qed.
Lemma find_key {B} (f : Frame.key -> res (Frame.key * B)) ks ys k y :
  (forall x z, f x = Ok z -> fst z = x) -> mapM f ks = Ok ys -> In k ks -> f k = Ok y ->
  find (fun e => keqb (fst e) k) ys = Some y.
Proof.
  intros F. revert ys. induction ks as [|a ks IH]; simpl; intros ys M Hk E; [contradiction|].
  destruct (f a) as [z|e] eqn:Ea; [|discriminate]. cbn [bind] in M. destruct (mapM f ks) as [zs|e]; [|discriminate].
  injection M as <-. cbn [find]. rewrite (F _ _ Ea). destruct (keqb_spec a k) as [->|D].
  - rewrite Ea in E. injection E as ->. auto.
  - destruct Hk as [->|Hk]; [congruence|]. apply IH; auto.
Qed.

Lemma zmax_in l : l <> [] -> In (zmax l) l.
Proof.
  destruct l as [|a l]; [congruence|]. intros _. revert a.
  induction l as [|b l IH]; intro a; [left; auto|]. change (zmax (a :: b :: l)) with (Z.max a (zmax (b :: l))).
  destruct (Z.max_spec a (zmax (b :: l))) as [(_ & ->)|(_ & ->)]; [right; apply IH|left; auto].
Qed.

Lemma map_flat_map' {A B D} (g : B -> D) (h : A -> list B) l : map g (flat_map h l) = flat_map (fun x => map g (h x)) l.
Proof. induction l as [|a l IH]; simpl; [auto|]. rewrite map_app, IH. auto. Qed.

Lemma numbers_finite l : (forall v, In v l -> v = NaN \/ exists q, v = Fin q) ->
  finite (filter (fun v => negb (isnan v)) l) = Some (numbers l).
Proof.
  induction l as [|v l IH]; intro H; [reflexivity|]. specialize (IH (fun w Hw => H w (or_intror Hw))).
  destruct (H v (or_introl eq_refl)) as [->|[q ->]]; simpl; [exact IH|]. rewrite IH. reflexivity.
Qed.
Lemma numbers_fin l : numbers (map Fin l) = l.
Proof. induction l as [|v l IH]; simpl; [reflexivity|]. f_equal. exact IH. Qed.

Section Band.
  Variables (m : lmat) (n : nat) (C : nat -> nat -> Qc) (f : nat -> Qc) (sims : nat) (U : nat -> nat -> nat -> val) (tab : list sdrec).
  Hypothesis R : regular m n C.
  Hypothesis Hn : 1 < n.
  Hypothesis Hs : 0 < sims.
  Let o i := nth i (m_idx m) 0%Z.
  Let d j := nth j (m_cols m) 0%Z.
  Hypothesis Ht : map (fun e => (d_o e, d_d e, d_ultimate e)) tab
    = flat_map (fun s => flat_map (fun i => map (fun j => (o i, d j, U s i j)) (seq 0 n)) (seq 0 n)) (seq 0 sims).

  Hypothesis Hf : forall s i j, s < sims -> i < n -> j < n -> U s i j = NaN \/ exists q, U s i j = Fin q.
  Hypothesis Hx : forall i j, i < n -> j < n -> numbers (map (fun s => U s i j) (seq 0 sims)) <> [].

  Let T := flat_map (fun s => flat_map (fun i => map (fun j => (o i, d j, U s i j)) (seq 0 n)) (seq 0 n)) (seq 0 sims).

  Lemma lens : List.length (m_idx m) = n /\ List.length (m_cols m) = n /\ zsorted (m_idx m) /\ zsorted (m_cols m).
  Proof. destruct R as (So & Sd & Lo & Ld & _). auto. Qed.
  Lemma T_in a b v : In (a, b, v) T -> exists s i j, s < sims /\ i < n /\ j < n /\ a = o i /\ b = d j /\ v = U s i j.
  Proof.
    unfold T. intro H. apply in_flat_map in H as (s & A & H). apply in_flat_map in H as (i & B & H).
    apply in_map_iff in H as (j & E & D). apply in_seq in A, B, D. injection E as <- <- <-. exists s, i, j. repeat split; lia || auto.
  Qed.
  Lemma in_T s i j : s < sims -> i < n -> j < n -> In (o i, d j, U s i j) T.
  Proof.
    intros A B D. unfold T. apply in_flat_map. exists s. split; [apply in_seq; lia|]. apply in_flat_map. exists i.
    split; [apply in_seq; lia|]. apply in_map_iff. exists j. split; [auto|apply in_seq; lia].
  Qed.
  Lemma T_devs : zmax (map d_d tab) = d (n - 1).
  Proof.
    destruct lens as (Lo & Ld & So & Sd).
    replace (map d_d tab) with (map (fun t => snd (fst t)) T) by (unfold T; rewrite <- Ht, map_map; auto).
    apply Z.le_antisymm.
    - assert (H : In (zmax (map (fun t => snd (fst t)) T)) (map (fun t : Z * Z * val => snd (fst t)) T)).
      { apply zmax_in. intro E. assert (X := in_T 0 0 0 Hs ltac:(lia) ltac:(lia)). apply map_eq_nil in E. rewrite E in X. destruct X. }
      apply in_map_iff in H as ([[a b] v] & <- & H). apply T_in in H as (s & i & j & _ & _ & Hj & _ & -> & _). cbn [fst snd].
      destruct (Nat.eq_dec j (n - 1)) as [->|]; [lia|]. apply Z.lt_le_incl. apply (zsorted_nth (m_cols m)); auto; lia.
    - apply zmax_ge. apply in_map_iff. exists (o 0, d (n - 1), U 0 0 (n - 1)). split; auto. apply in_T; lia.
  Qed.
  Lemma sim_rows_T D : sim_rows D tab
    = map (fun t => (fst t, snd t)) T ++ map (fun t => ((fst (fst t), D), snd t)) (filter (fun t => (snd (fst t) =? d (n - 1))%Z) T).
  Proof.
    unfold sim_rows. rewrite T_devs. unfold T. rewrite <- Ht. rewrite filter_map_comm, !map_map. cbn [fst snd]. reflexivity.
  Qed.
  Lemma T_cell i j : i < n -> j < n -> 
    map snd (filter (fun t => keqb (fst t) (o i, d j)) T) = map (fun s => U s i j) (seq 0 sims).
  Proof.
    intros Hi Hj. unfold T. rewrite filter_flat_map, map_flat_map'.
    rewrite <- (flat_map_single (fun s => U s i j)). apply flat_map_seq_ext. intros s Hs'.
    rewrite filter_flat_map, (flat_map_one _ n i Hi).
    - rewrite filter_map_comm. cbn [fst]. rewrite (filter_seq_one _ 0 n j).
      + rewrite keqb_refl. reflexivity.
      + lia.
      + intros k Hk D. destruct (keqb_spec (o i, d k) (o i, d j)) as [E|]; auto. injection E as E.
        exfalso. apply D. apply (d_inj m n C R); auto; lia.
    - intros i' Hi' D. rewrite filter_map_comm. cbn [fst].
      rewrite (filter_ext_in _ (fun _ => false)).
      + clear. induction (seq 0 n); auto.
      + intros k Hk. destruct (keqb_spec (o i', d k) (o i, d j)) as [E|]; auto. injection E as E _.
        exfalso. apply D. apply (o_inj m n C R); auto; lia.
  Qed.
  Variable D : Z.
  Hypothesis HD : forall x, In x (m_cols m) -> (x < D)%Z.
  Lemma d_D j : j < n -> d j <> D.
  Proof. intros Hj E. assert (d j < D)%Z; [|lia]. apply HD. apply nth_In. destruct lens as (_ & -> & _). auto. Qed.
  Lemma rows_cell i j : i < n -> j < n ->
    map snd (filter (fun r => keqb (fst r) (o i, d j)) (sim_rows D tab)) = map (fun s => U s i j) (seq 0 sims).
  Proof.
    intros Hi Hj. rewrite sim_rows_T, filter_app, map_app, !filter_map_comm, !map_map. cbn [fst snd].
    rewrite (filter_ext_in _ (fun _ => false) (filter _ T)).
    - assert (E : forall l : list (Z * Z * val), filter (fun _ => false) l = []) by (intro l; induction l; auto).
      rewrite E. cbn [map]. rewrite app_nil_r, <- (T_cell i j Hi Hj). reflexivity.
    - intros t _. destruct (keqb_spec (fst (fst t), D) (o i, d j)) as [E|]; auto. injection E as _ E. exfalso. apply (d_D j Hj). auto.
  Qed.
  Lemma rows_ult i : i < n ->
    map snd (filter (fun r => keqb (fst r) (o i, D)) (sim_rows D tab)) = map (fun s => U s i (n - 1)) (seq 0 sims).
  Proof.
    intros Hi. rewrite sim_rows_T, filter_app, map_app, !filter_map_comm, !map_map. cbn [fst snd].
    rewrite (filter_ext_in _ (fun _ => false) T).
    - assert (E : forall l : list (Z * Z * val), filter (fun _ => false) l = []) by (intro l; induction l; auto).
      rewrite E. cbn [map app]. rewrite <- (T_cell i (n - 1) Hi ltac:(lia)). f_equal.
      rewrite filter_filter. apply filter_ext. intros [[a b] v]. unfold keqb. cbn [fst snd]. rewrite Z.eqb_refl, andb_true_r. apply andb_comm.
    - intros [[a b] v] H. apply T_in in H as (s & i' & j & _ & _ & Hj & -> & -> & _). cbn [fst].
      destruct (keqb_spec (o i', d j) (o i, D)) as [E|]; auto. injection E as _ E. exfalso. apply (d_D j Hj). auto.
  Qed.
  Lemma rows_keys k : In k (map fst (sim_rows D tab)) ->
    exists i, i < n /\ ((exists j, j < n /\ k = (o i, d j)) \/ k = (o i, D)).
  Proof.
    rewrite sim_rows_T, map_app, !map_map. cbn [fst]. rewrite in_app_iff, !in_map_iff. intros [(t & <- & H)|(t & <- & H)].
    - destruct t as [[a b] v]. apply T_in in H as (s & i & j & _ & Hi & Hj & -> & -> & _). exists i. split; auto. left. exists j. auto.
    - apply filter_In in H as (H & _). destruct t as [[a b] v]. apply T_in in H as (s & i & j & _ & Hi & _ & -> & _). exists i. auto.
  Qed.
  Lemma keys_cell i j : i < n -> j < n -> In (o i, d j) (map fst (sim_rows D tab)).
  Proof.
    intros Hi Hj. rewrite sim_rows_T, map_app, map_map. apply in_app_iff. left. apply in_map_iff.
    exists (o i, d j, U 0 i j). split; auto. apply in_T; auto.
  Qed.
  Lemma keys_ult i : i < n -> In (o i, D) (map fst (sim_rows D tab)).
  Proof.
    intros Hi. rewrite sim_rows_T, map_app, !map_map. apply in_app_iff. right. apply in_map_iff.
    exists (o i, d (n - 1), U 0 i (n - 1)). split; auto. apply filter_In. split; [apply in_T; lia|]. cbn [fst snd]. apply Z.eqb_refl.
  Qed.

  Definition qv (i j : nat) (q : Qc) : Qc :=
    match percentile Linear (numbers (map (fun s => U s i j) (seq 0 sims))) q with Ok v => v | Err _ => 0%Qc end.
  Lemma qv_linear i j q : i < n -> j < n -> (0 <= q <= 1)%Qc -> linear_quantile (numbers (map (fun s => U s i j) (seq 0 sims))) q (qv i j q).
  Proof.
    intros Hi Hj Hq. destruct (linear_ok _ q (Hx i j Hi Hj) Hq) as (v & E & L). unfold qv. rewrite E. exact L.
  Qed.
  Lemma group_qv i j q : i < n -> j < n -> (0 <= q <= 1)%Qc ->
    group_quantile (map (fun s => U s i j) (seq 0 sims)) q = Ok (Fin (qv i j q)).
  Proof.
    intros Hi Hj Hq. unfold qv, group_quantile. rewrite numbers_finite.
    2:{ intros v Hv. apply in_map_iff in Hv as (s & <- & Hv). apply in_seq in Hv. apply Hf; auto; lia. }
    destruct (linear_ok _ q (Hx i j Hi Hj) Hq) as (v & E & _).
    destruct (numbers (map (fun s => U s i j) (seq 0 sims))) as [|x xs] eqn:Ex; [exfalso; apply (Hx i j Hi Hj); auto|].
    rewrite E. reflexivity.
  Qed.

  Lemma quantiles_ok inc qs : increment (m_cols m) = Ok inc -> D = (zmax (m_cols m) + inc)%Z ->
    (forall q, In q qs -> (0 <= q <= 1)%Qc) ->
    exists qt, quantiles_by_devp true tab (m_cols m) qs = Ok qt /\
      forall i, i < n ->
        (forall j, j < n -> find (fun e => keqb (fst e) (o i, d j)) qt = Some ((o i, d j), map (fun q => Fin (qv i j q)) qs)) /\
        find (fun e => keqb (fst e) (o i, D)) qt = Some ((o i, D), map (fun q => Fin (qv i (n - 1) q)) qs).
  Proof.
    intros Ei ED Hq. unfold quantiles_by_devp. rewrite Ei. cbn [bind]. rewrite <- ED. cbn [negb andb].
    set (F := fun k => do vs <- mapM (group_quantile (map snd (filter (fun r => keqb (fst r) k) (sim_rows D tab)))) qs ; Ok (k, vs)).
    assert (F1 : forall i j, i < n -> j < n -> F (o i, d j) = Ok ((o i, d j), map (fun q => Fin (qv i j q)) qs)).
    { intros i j Hi Hj. unfold F. rewrite rows_cell by auto. rewrite (mapM_ok _ (fun q => Fin (qv i j q))); [reflexivity|].
      intros q Hq'. apply group_qv; auto; lia. }
    assert (F2 : forall i, i < n -> F (o i, D) = Ok ((o i, D), map (fun q => Fin (qv i (n - 1) q)) qs)).
    { intros i Hi. unfold F. rewrite rows_ult by auto. rewrite (mapM_ok _ (fun q => Fin (qv i (n - 1) q))); [reflexivity|].
      intros q Hq'. apply group_qv; auto; lia. }
    assert (F0 : forall x z, F x = Ok z -> fst z = x).
    { intros x z. unfold F. destruct (mapM _ qs); cbn [bind]; intro E; [|discriminate]. injection E as <-. reflexivity. }
    destruct (mapM_all F (uniq kcmp (map fst (sim_rows D tab)))) as (qt & Eq).
    { intros k Hk. apply (proj1 (uniq_in kcmp kcmp_eq _ _)) in Hk. apply rows_keys in Hk as (i & Hi & [(j & Hj & ->)| ->]); eexists; auto. }
    exists qt. split; [exact Eq|]. intros i Hi. split.
    - intros j Hj. apply (find_key F _ _ _ _ F0 Eq); auto. apply (proj2 (uniq_in kcmp kcmp_eq _ _)). apply keys_cell; auto.
    - apply (find_key F _ _ _ _ F0 Eq); auto. apply (proj2 (uniq_in kcmp kcmp_eq _ _)). apply keys_ult; auto.
  Qed.
End Band.

(** ** Lines *)
Lemma points_app a b x nm : points (a ++ b) x nm = points a x nm ++ points b x nm.
Proof. unfold points. rewrite filter_app, map_app. auto. Qed.
Lemma points_drop a x nm : points (filter (fun e => negb (isnan (e_loss e))) a) x nm
  = filter (fun t => negb (isnan (snd t))) (points a x nm).
Proof. unfold points. rewrite filter_map_comm, !filter_filter. cbn [snd]. f_equal. apply filter_ext. intro e. apply andb_comm. Qed.

Definition kept (l0 : list plotrec) : list (Z * plotrec) :=
  flat_map (fun p => match q_origin p with Some o => [(o, p)] | None => [] end) l0.
Lemma sel_data x (P : plotrec -> bool) l0 :
  filter (fun p => (fst p =? x)%Z && P (snd p)) (kept l0)
  = map (fun p => (x, p)) (filter (fun p => same_origin (q_origin p) (Some x) && P p) l0).
Proof.
  induction l0 as [|a l0 IH]; cbn [kept flat_map filter map]; [auto|]. unfold kept in *. rewrite filter_app, IH.
  destruct (q_origin a) as [z|]; cbn [filter fst snd same_origin app]; [|reflexivity].
  destruct (Z.eqb_spec z x) as [->|]; cbn [andb]; [destruct (P a)|]; reflexivity.
Qed.
Lemma points_named (h : Z * plotrec -> string) (g : Z * plotrec -> val) l x nm :
  points (map (fun p => mkB (fst p) (q_dev (snd p)) (h p) (g p)) l) x nm
  = map (fun p => (q_dev (snd p), g p)) (filter (fun p => (fst p =? x)%Z && String.eqb (h p) nm) l).
Proof. unfold points. rewrite filter_map_comm, map_map. cbn [e_dev e_loss e_origin e_line]. reflexivity. Qed.
Lemma points_type l0 x b :
  points (map (fun p => mkB (fst p) (q_dev (snd p)) (if q_actual (snd p) then "actual" else "forecast") (q_loss (snd p))) (kept l0)) x
    (if b : bool then "actual" else "forecast")
  = map (fun p => (q_dev p, q_loss p)) (drawn l0 (Some x) b).
Proof.
  rewrite (points_named (fun p => if q_actual (snd p) then "actual" else "forecast") (fun p => q_loss (snd p))).
  rewrite (filter_ext _ (fun p => (fst p =? x)%Z && (fun q => Bool.eqb (q_actual q) b) (snd p))).
  - rewrite (sel_data x (fun q => Bool.eqb (q_actual q) b)), map_map. reflexivity.
  - intro p. destruct (q_actual (snd p)), b; reflexivity.
Qed.
Lemma points_type_not l0 x nm : nm <> "actual" -> nm <> "forecast" ->
  points (map (fun p => mkB (fst p) (q_dev (snd p)) (if q_actual (snd p) then "actual" else "forecast") (q_loss (snd p))) (kept l0)) x nm = [].
Proof.
  intros A B. rewrite (points_named (fun p => if q_actual (snd p) then "actual" else "forecast") (fun p => q_loss (snd p))).
  rewrite (filter_ext _ (fun _ => false)).
  - generalize (kept l0). intro l. induction l; auto.
  - intro p. apply andb_false_iff. right. apply String.eqb_neq. destruct (q_actual (snd p)); congruence.
Qed.
Lemma points_const h (g : Z * plotrec -> val) l0 x nm :
  (forall p, q_actual (snd p) = true -> g p = NaN) ->
  filter (fun t => negb (isnan (snd t))) (points (map (fun p => mkB (fst p) (q_dev (snd p)) h (g p)) (kept l0)) x nm)
  = if String.eqb h nm
    then filter (fun t => negb (isnan (snd t))) (map (fun p => (q_dev p, g (x, p))) (drawn l0 (Some x) false))
    else [].
Proof.
  intro G. rewrite (points_named (fun _ => h) g). destruct (String.eqb h nm).
  - assert (Sx := sel_data x (fun _ => true) l0). cbn beta in Sx. rewrite Sx, map_map. cbn [fst snd]. unfold drawn. rewrite !filter_map_comm, !filter_filter. cbn [snd].
    f_equal. apply filter_ext. intro p. destruct (q_actual p) eqn:E.
    + rewrite (G (x, p)) by exact E. cbn [isnan negb Bool.eqb]. rewrite !andb_false_r. reflexivity.
    + cbn [Bool.eqb]. reflexivity.
  - generalize (kept l0). intro l. induction l as [|a l IH]; [auto|]. cbn [filter]. rewrite andb_false_r. exact IH.
Qed.
Lemma all_fin {A} (g : A -> Z * Qc) l :
  filter (fun t => negb (isnan (snd t))) (map (fun a => (fst (g a), Fin (snd (g a)))) l) = map (fun a => (fst (g a), Fin (snd (g a)))) l.
Proof. induction l as [|a l IH]; simpl; [auto|]. rewrite IH. auto. Qed.

Lemma nodup4 {A} (a b c e : A) : a <> b -> a <> c -> a <> e -> b <> c -> b <> e -> c <> e -> NoDup [a; b; c; e].
Proof. intros. repeat (apply NoDup_cons; [simpl; intuition congruence|]). apply NoDup_nil. Qed.

(** C76. *)
Theorem c76_band_missing gm m n C v cl ind sel tail sel' r f tab sims U x :
  regular m n C -> 1 < n -> clvi m = Ok cl ->
  base_cl gm (mkTri m "origin" "dev" v) cl ind sel tail = (sel', Ok r) ->
  c_ldfs r = map (fun j => (nth j (m_cols m) 0%Z, Fin (f j))) (seq 0 n) ->
  let o i := nth i (m_idx m) 0%Z in
  let d j := nth j (m_cols m) 0%Z in
  0 < sims ->
  map (fun e => (d_o e, d_d e, d_ultimate e)) tab
  = flat_map (fun s => flat_map (fun i => map (fun j => (o i, d j, U s i j)) (seq 0 n)) (seq 0 n)) (seq 0 sims) ->
  (forall s i j, s < sims -> i < n -> j < n -> U s i j = NaN \/ exists q, U s i j = Fin q) ->
  (forall i j, i < n -> j < n -> numbers (map (fun s => U s i j) (seq 0 sims)) <> []) ->
  (1 / qz 10000000 < x)%Qc -> (x <= 1)%Qc ->
  let a := ((1 - x) / qz 2)%Qc in let b := ((1 + x) / qz 2)%Qc in
  let latest i := C i (n - 1 - i) in
  let proj i j := (latest i * prodf (n - 1 - i) (j - (n - 1 - i)) f)%Qc in
  let ult i := (latest i * prodf (n - 1 - i) (S i) f)%Qc in
  exists l D ha hb lo hi, boot_plot true true m cl r tab [Fin x] = Ok l /\
    (forall y, In y (m_cols m) -> (y < D)%Z) /\
    qtls_formatter [Fin x] true = Ok ([a; b], [ha; hb]) /\ NoDup ["actual"; "forecast"; ha; hb] /\
    (forall i j, i < n -> j < n ->
       linear_quantile (numbers (map (fun s => U s i j) (seq 0 sims))) a (lo i j) /\
       linear_quantile (numbers (map (fun s => U s i j) (seq 0 sims))) b (hi i j)) /\
    (forall i, i < n ->
       points l (o i) "actual" = map (fun j => (d j, Fin (C i j))) (seq 0 (n - i)) /\
       points l (o i) "forecast" = map (fun j => (d j, Fin (proj i j))) (seq (n - 1 - i) (S i)) ++ [(D, Fin (ult i))] /\
       points l (o i) ha = (d (n - 1 - i), Fin (latest i)) :: map (fun j => (d j, Fin (lo i j))) (seq (n - i) i) ++ [(D, Fin (lo i (n - 1)))] /\
       points l (o i) hb = (d (n - 1 - i), Fin (latest i)) :: map (fun j => (d j, Fin (hi i j))) (seq (n - i) i) ++ [(D, Fin (hi i (n - 1)))]).
Proof.
  intros R Hn Cl B Lf o d Hs Ht Hf Hx X0 X1 a b latest proj ult.
  assert (Lens := lens m n C R). destruct Lens as (Lo & Ld & So & Sd).
  destruct (increment_pos (m_cols m) Sd ltac:(lia)) as (inc & Ei & Pi).
  assert (E0 := data_at m n C f R Hn gm v cl ind sel tail sel' r inc Cl B Lf Ei). cbv zeta in E0.
  set (D := (zmax (m_cols m) + inc)%Z) in *.
  assert (HD : forall y, In y (m_cols m) -> (y < D)%Z) by (intros y Hy; apply zmax_ge in Hy; unfold D; lia).
  destruct (drawn_all m n C f R Hn D) as (A1 & A2 & _ & _ & _). 
  set (l0 := map _ _) in E0. fold l0 in A1, A2. clearbody l0.
  destruct (two_quantiles x X0 X1) as (Ef & Ha & Hb & Hd). fold a b in Ef, Ha, Hb, Hd.
  assert (El : map fst (c_ldfs r) = m_cols m).
  { rewrite Lf, map_map. cbn [fst]. rewrite <- Ld at 1. apply map_nth_seq_fst. }
  assert (Hq : forall q, In q [a; b] -> (0 <= q <= 1)%Qc) by (intros q [<-|[<-|[]]]; auto).
  destruct (quantiles_ok m n C sims U tab R Hn Hs Ht Hf Hx D HD inc [a; b] Ei eq_refl Hq) as (qt & Eq & Q).
  set (lo := fun i j => qv sims U i j a). set (hi := fun i j => qv sims U i j b).
  set (ff := fun p : Z * plotrec => if q_actual (snd p) then (zmax (map (fun p => q_dev (snd p)) (kept l0)) + inc)%Z else q_dev (snd p)).
  set (minf := fun z => zmin (map ff (filter (fun p => (fst p =? z)%Z) (kept l0)))).
  set (quantile := fun k (p : Z * plotrec) =>
      if q_actual (snd p) then NaN
      else if (minf (fst p) =? q_dev (snd p))%Z then q_loss (snd p)
      else match find (fun e => keqb (fst e) (fst p, q_dev (snd p))) qt with
           | Some e => nth k (snd e) NaN
           | None => NaN
           end).
  set (blk := fun k h => map (fun p => mkB (fst p) (q_dev (snd p)) h (quantile k p)) (kept l0)).
  set (A := map (fun p => mkB (fst p) (q_dev (snd p)) (if q_actual (snd p) then "actual" else "forecast") (q_loss (snd p))) (kept l0)).
  exists (filter (fun e => negb (isnan (e_loss e))) (A ++ blk 0 (pcthdr a) ++ blk 1 (pcthdr b))), D, (pcthdr a), (pcthdr b), lo, hi.
  split.
  { unfold boot_plot. cbn [negb]. rewrite Ef. cbn [bind fst snd]. unfold bs_data_transform. rewrite E0. cbn [bind]. rewrite El, Eq. cbn [bind].
    rewrite Ei. cbn [bind List.length Nat.eqb].
    replace (List.length (uniq String.compare [pcthdr a; pcthdr b])) with 2; [reflexivity|].
    unfold uniq. cbn [fold_right]. unfold uins. destruct (String.compare (pcthdr a) (pcthdr b)) eqn:Ec; try reflexivity.
    apply String.compare_eq_iff in Ec. contradiction. }
  split; [exact HD|]. split; [exact Ef|]. split.
  { apply nodup4; auto; try discriminate; try (apply not_eq_sym, pcthdr_not; discriminate). }
  split. { intros i j Hi Hj. split; eapply qv_linear; eauto. }
  intros i Hi. specialize (A1 i Hi). specialize (A2 i Hi). fold (o i) in A1, A2.
  assert (Mf : minf (o i) = d (n - 1 - i)).
  { set (L := filter (fun p => (fst p =? o i)%Z) (kept l0)).
    assert (InF : In (d (n - 1 - i)) (map ff L)).
    { apply in_map_iff.
      exists (o i, mkQ i (Some (o i)) (d (n - 1 - i)) (Fin (pj n C f i (n - 1 - i))) (Fin (pj n C f i (n - 1 - i) - latest i)%Qc) false).
      split; [reflexivity|].
      assert (In (mkQ i (Some (o i)) (d (n - 1 - i)) (Fin (pj n C f i (n - 1 - i))) (Fin (pj n C f i (n - 1 - i) - latest i)%Qc) false) (drawn l0 (Some (o i)) false)) as H.
      { rewrite A2. apply in_app_iff. left. apply in_map_iff. exists (n - 1 - i). split; [reflexivity|apply in_seq; lia]. }
      unfold L. apply filter_In. cbn [fst]. split; [|apply Z.eqb_refl]. unfold kept. apply in_flat_map. eexists.
      split; [apply filter_In in H as (H & _); exact H|]. left. reflexivity. }
    assert (Low : forall z, In z (map ff L) -> (d (n - 1 - i)%nat <= z)%Z).
    { intros z Hz. apply in_map_iff in Hz as (p & <- & Hp).
      assert (Hk : In p (kept l0)) by (apply filter_In in Hp; apply Hp).
      unfold ff. destruct (q_actual (snd p)) eqn:Ea.
      - assert ((d (n - 1 - i)%nat <= zmax (map (fun p => q_dev (snd p)) (kept l0)))%Z); [|lia].
        apply zmax_ge.
        assert (X : In (mkQ i (Some (o i)) (d (n - 1 - i)) (Fin (pj n C f i (n - 1 - i))) (Fin (pj n C f i (n - 1 - i) - latest i)%Qc) false) (drawn l0 (Some (o i)) false)).
        { rewrite A2. apply in_app_iff. left. apply in_map_iff. exists (n - 1 - i). split; [reflexivity|apply in_seq; lia]. }
        apply in_map_iff. eexists (o i, _). split; [|unfold kept; apply in_flat_map; eexists; split; [apply filter_In in X as (X & _); exact X|left; reflexivity]].
        reflexivity.
      - unfold L in Hp. apply filter_In in Hp as (_ & Hp). apply Z.eqb_eq in Hp.
        assert (X : In (snd p) (drawn l0 (Some (o i)) false)).
        { unfold kept in Hk. apply in_flat_map in Hk as (q & Hq0 & Hk). destruct (q_origin q) as [z|] eqn:Eo; [|destruct Hk].
          destruct Hk as [<-|[]]. cbn [fst snd] in *. subst z. unfold drawn. apply filter_In. split; [auto|]. rewrite Eo, Ea. cbn [same_origin].
          rewrite Z.eqb_refl. reflexivity. }
        rewrite A2 in X. apply in_app_iff in X as [X|[<-|[]]].
        + apply in_map_iff in X as (j & <- & Hj). apply in_seq in Hj. cbn [q_dev].
          destruct (Nat.eq_dec j (n - 1 - i)) as [->|]; [apply Z.le_refl|]. apply Z.lt_le_incl. apply (zsorted_nth (m_cols m)); auto; lia.
        + cbn [q_dev]. apply Z.lt_le_incl. apply HD. apply nth_In. lia. }
    unfold minf. fold L. apply Z.le_antisymm; [apply zmin_le; exact InF|]. apply Low. apply BuildFacts.zmin_in.
    intro E. rewrite E in InF. destruct InF. }
  assert (Blk : forall k h (lk : nat -> nat -> Qc),
     (forall j, j < n -> nth k (map (fun q => Fin (qv sims U i j q)) [a; b]) NaN = Fin (lk i j)) ->
     filter (fun t => negb (isnan (snd t))) (points (blk k h) (o i) h)
     = (d (n - 1 - i), Fin (latest i)) :: map (fun j => (d j, Fin (lk i j))) (seq (n - i) i) ++ [(D, Fin (lk i (n - 1)))]).
  { intros k h lk Hk. unfold blk. rewrite (points_const h (quantile k)) by (intros p Ep; unfold quantile; rewrite Ep; reflexivity).
    rewrite String.eqb_refl, A2, map_app, map_map. cbn [q_dev map].
    replace (S i) with (1 + i) by lia. rewrite seq_app. cbn [seq]. replace (n - 1 - i + 1) with (n - i) by lia. cbn [app map].
    replace (quantile k _) with (Fin (latest i)).
    2:{ unfold quantile. cbn [fst snd q_actual q_dev q_loss]. rewrite Mf. fold (d (n - 1 - i)). rewrite Z.eqb_refl. unfold pj, latest.
        rewrite Nat.sub_diag. f_equal. cbn [prodf]. unfold prodf. cbn. ring. }
    cbn [filter snd isnan negb]. f_equal. rewrite filter_app. f_equal.
    - rewrite (map_ext_in _ (fun j => (d j, Fin (lk i j)))).
      + apply (all_fin (fun j => (d j, lk i j))).
      + intros j Hj. apply in_seq in Hj. f_equal. unfold quantile. cbn [fst snd q_actual q_dev q_loss]. rewrite Mf. fold (d j).
        destruct (Z.eqb_spec (d (n - 1 - i)) (d j)) as [E|E]; [exfalso; apply (d_inj m n C R) in E; lia|].
        destruct (Q i Hi) as (Q1 & _). specialize (Q1 j ltac:(lia)). fold (o i) (d j) in Q1. rewrite Q1. cbn [snd]. apply Hk. lia.
    - replace (quantile k _) with (Fin (lk i (n - 1))); [reflexivity|].
      unfold quantile. cbn [fst snd q_actual q_dev q_loss]. rewrite Mf.
      destruct (Z.eqb_spec (d (n - 1 - i)) D) as [E|E].
      { exfalso. assert (d (n - 1 - i)%nat < D)%Z; [|lia]. apply HD. apply nth_In. lia. }
      destruct (Q i Hi) as (_ & Q2). fold (o i) in Q2. rewrite Q2. cbn [snd]. symmetry. apply Hk. lia. }
  assert (Blk0 : forall k h nm, h <> nm -> filter (fun t => negb (isnan (snd t))) (points (blk k h) (o i) nm) = []).
  { intros k h nm Hh. unfold blk. rewrite (points_const h (quantile k)) by (intros p Ep; unfold quantile; rewrite Ep; reflexivity).
    rewrite (proj2 (String.eqb_neq _ _) Hh). reflexivity. }
  rewrite !points_drop, !points_app, !filter_app.
  split; [|split; [|split]].
  - rewrite !Blk0 by (apply pcthdr_not; discriminate). unfold A. rewrite (points_type l0 (o i) true), A1, map_map. cbn [q_dev q_loss].
    rewrite (all_fin (fun j => (d j, C i j))), !app_nil_r. reflexivity.
  - rewrite !Blk0 by (apply pcthdr_not; discriminate). unfold A. rewrite (points_type l0 (o i) false), A2, map_app, map_map. cbn [q_dev q_loss map].
    rewrite !app_nil_r, filter_app, (all_fin (fun j => (d j, pj n C f i j))). cbn [filter snd isnan negb].
    f_equal. unfold ult, ul, latest. replace (n - (n - 1 - i)) with (S i) by lia. reflexivity.
  - unfold A. rewrite points_type_not by (apply pcthdr_not; discriminate). rewrite (Blk 0 (pcthdr a) lo) by reflexivity.
    rewrite (Blk0 1 (pcthdr b) (pcthdr a)) by auto. rewrite app_nil_r. reflexivity.
  - unfold A. rewrite points_type_not by (apply pcthdr_not; discriminate). rewrite (Blk 1 (pcthdr b) hi) by reflexivity.
    rewrite (Blk0 0 (pcthdr a) (pcthdr b)) by auto. reflexivity.
Qed.

(** C76. *)
Theorem c76_band gm m n C v cl ind sel tail sel' r f tab sims U x :
  regular m n C -> 1 < n -> clvi m = Ok cl ->
  base_cl gm (mkTri m "origin" "dev" v) cl ind sel tail = (sel', Ok r) ->
  c_ldfs r = map (fun j => (nth j (m_cols m) 0%Z, Fin (f j))) (seq 0 n) ->
  let o i := nth i (m_idx m) 0%Z in
  let d j := nth j (m_cols m) 0%Z in
  0 < sims ->
  map (fun e => (d_o e, d_d e, d_ultimate e)) tab
  = flat_map (fun s => flat_map (fun i => map (fun j => (o i, d j, Fin (U s i j))) (seq 0 n)) (seq 0 n)) (seq 0 sims) ->
  (1 / qz 10000000 < x)%Qc -> (x <= 1)%Qc ->
  let a := ((1 - x) / qz 2)%Qc in let b := ((1 + x) / qz 2)%Qc in
  let latest i := C i (n - 1 - i) in
  let proj i j := (latest i * prodf (n - 1 - i) (j - (n - 1 - i)) f)%Qc in
  let ult i := (latest i * prodf (n - 1 - i) (S i) f)%Qc in
  exists l D ha hb lo hi, boot_plot true true m cl r tab [Fin x] = Ok l /\
    (forall y, In y (m_cols m) -> (y < D)%Z) /\
    qtls_formatter [Fin x] true = Ok ([a; b], [ha; hb]) /\ NoDup ["actual"; "forecast"; ha; hb] /\
    (forall i j, i < n -> j < n ->
       linear_quantile (map (fun s => U s i j) (seq 0 sims)) a (lo i j) /\
       linear_quantile (map (fun s => U s i j) (seq 0 sims)) b (hi i j)) /\
    (forall i, i < n ->
       points l (o i) "actual" = map (fun j => (d j, Fin (C i j))) (seq 0 (n - i)) /\
       points l (o i) "forecast" = map (fun j => (d j, Fin (proj i j))) (seq (n - 1 - i) (S i)) ++ [(D, Fin (ult i))] /\
       points l (o i) ha = (d (n - 1 - i), Fin (latest i)) :: map (fun j => (d j, Fin (lo i j))) (seq (n - i) i) ++ [(D, Fin (lo i (n - 1)))] /\
       points l (o i) hb = (d (n - 1 - i), Fin (latest i)) :: map (fun j => (d j, Fin (hi i j))) (seq (n - i) i) ++ [(D, Fin (hi i (n - 1)))]).
Proof.
  intros R Hn Cl B Lf o d Hs Ht X0 X1 a b latest proj ult.
  assert (Nm : forall i j, numbers (map (fun s => Fin (U s i j)) (seq 0 sims)) = map (fun s => U s i j) (seq 0 sims)).
  { intros i j. rewrite <- (map_map (fun s => U s i j) Fin). apply numbers_fin. }
  destruct (c76_band_missing gm m n C v cl ind sel tail sel' r f tab sims (fun s i j => Fin (U s i j)) x R Hn Cl B Lf Hs Ht) as
    (l & D & ha & hb & lo & hi & E1 & E2 & E3 & E4 & E5 & E6); auto.
  { intros. right. eexists. reflexivity. }
  { intros i j Hi Hj. rewrite Nm. destruct sims; [lia|]. discriminate. }
  exists l, D, ha, hb, lo, hi. split; [exact E1|]. split; [exact E2|]. split; [exact E3|]. split; [exact E4|]. split; [|exact E6].
  intros i j Hi Hj. specialize (E5 i j Hi Hj). rewrite Nm in E5. exact E5.
Qed.

(** The program as it is. *)
Theorem c76_refuted m cl r tab q : boot_plot_code m cl r tab q = Err TypeError.
Proof. reflexivity. Qed.
Theorem c76_quantiles_refuted m cl r tab qs hs l0 inc :
  data_transform m cl r = Ok l0 -> increment (map fst (c_ldfs r)) = Ok inc -> qs <> [] ->
  bs_data_transform false m cl r tab qs hs = Err TypeError.
Proof.
  intros E Ei Hq. unfold bs_data_transform. rewrite E. cbn [bind]. unfold quantiles_by_devp. rewrite Ei. cbn [bind].
  destruct qs; [congruence|]. reflexivity.
Qed.
