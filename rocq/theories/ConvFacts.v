(** Proofs about conversions between incremental and cumulative triangles. *)

From Coq Require Import String Ascii QArith Qcanon ZArith List Bool Lia Permutation Sorting.Sorted.
From Verif Require Import Val Frame Triangle QcLib ListLib Spec BuildFacts CumFacts FillFacts
  TotriFacts TblFacts TriClaims.
Import ListNotations.
Open Scope list_scope.
Open Scope nat_scope.

Lemma recs_frame_table o d v l : o <> d -> o <> v -> d <> v ->
  table_in (recs_frame o d v l) o d v l.
Proof.
  intros. repeat split; simpl; auto. repeat constructor; simpl; intuition.
Qed.

Lemma nan_sum_app a b : nan_sum (a ++ b) = vadd (nan_sum a) (nan_sum b).
Proof.
  induction a as [|x a IH]; simpl.
  - destruct (nan_sum b); simpl; auto. rewrite Qcplus_0_l. auto.
  - rewrite IH, vadd_assoc. auto.
Qed.

Lemma adjusted_id l : (forall r, In r l -> is_first_dev l r = true -> vleb (r_v r) (Fin 0%Qc) = false) ->
  adjusted l = l.
Proof.
  intro H. unfold adjusted. rewrite <- (map_id l) at 2. apply map_ext_in.
  intros [k x] Hr. destruct (is_first_dev l (k, x)) eqn:E; simpl; auto.
  specialize (H _ Hr E). cbn in H |- *. rewrite H. auto.
Qed.

Lemma tbl_os os ds g : zsorted os -> (forall o, In o os -> exists d, In d ds /\ g o d <> NaN) ->
  zuniq (map r_o (tbl os ds g)) = os.
Proof.
  intros So H. apply zsorted_ext; auto using zuniq_sorted. intro x. rewrite zuniq_in, in_map_iff. split.
  - intros (r & <- & Hr). apply in_tbl in Hr. tauto.
  - intro Hx. destruct (H x Hx) as (d & Hd & N). exists (mkrec x d (g x d)). split; auto.
    apply in_tbl. cbn. auto.
Qed.
Lemma tbl_ds os ds g : zsorted ds -> (forall d, In d ds -> exists o, In o os /\ g o d <> NaN) ->
  zuniq (map r_d (tbl os ds g)) = ds.
Proof.
  intros So H. apply zsorted_ext; auto using zuniq_sorted. intro x. rewrite zuniq_in, in_map_iff. split.
  - intros (r & <- & Hr). apply in_tbl in Hr. tauto.
  - intro Hx. destruct (H x Hx) as (d & Hd & N). exists (mkrec d x (g d x)). split; auto.
    apply in_tbl. cbn. auto.
Qed.

Lemma cell_total_tbl os ds g o d : zsorted os -> zsorted ds -> In o os -> In d ds ->
  cell_total (tbl os ds g) o d = g o d.
Proof.
  intros So Sd Ho Hd. unfold cell_total. destruct (isnan (g o d)) eqn:E.
  - apply isnan_true in E. rewrite E.
    assert (Q : values_at (tbl os ds g) o d = []).
    { apply values_at_nil. intro R. apply tbl_recorded in R. tauto. }
    rewrite Q. auto.
  - rewrite tbl_values; auto; [|apply isnan_false; auto]. simpl. rewrite E. apply vadd_0_r.
Qed.

Lemma build_tbl os ds g : zsorted os -> zsorted ds -> covered os ds g ->
  holds (build (tbl os ds g)) os ds g.
Proof.
  intros So Sd [Co Cd]. assert (H := build_holds (tbl os ds g)).
  rewrite tbl_os, tbl_ds in H by auto. destruct H as (A & B & C & D & E). repeat split; auto.
  intros i j Hi Hj. rewrite E by auto. apply cell_total_tbl; auto using nth_In.
Qed.

Lemma vltb_0 x : vltb (Fin 0%Qc) x = true -> vleb x (Fin 0%Qc) = false.
Proof.
  destruct x; simpl; auto; try discriminate. intro H. apply qcltb_lt in H.
  apply not_true_is_false. intro Q. apply qcleb_le in Q. qlra.
Qed.

Lemma tbl_first os ds g r : In r (tbl os ds g) -> covered os ds g ->
  first_devb (tbl os ds g) (r_d r) = true -> forall d, In d ds -> (r_d r <= d)%Z.
Proof.
  intros Hr [_ Cd] F d Hd. destruct (Cd d Hd) as (o & Ho & N).
  unfold first_devb in F. rewrite forallb_forall in F.
  specialize (F (mkrec o d (g o d))). apply Z.leb_le. apply F. apply in_tbl. cbn. auto.
Qed.

Lemma adjusted_tbl os ds g : covered os ds g -> positive_first os ds g ->
  adjusted (tbl os ds g) = tbl os ds g.
Proof.
  intros C P. apply adjusted_id. intros r Hr F. apply vltb_0.
  assert (Hr' := Hr). apply in_tbl in Hr as (A & B & D & N).
  destruct (P (r_o r) (r_d r) A B) as [Q|Q]; [|congruence|congruence].
  apply (tbl_first os ds g r); auto.
Qed.

Lemma first_in_pos ds j : zsorted ds -> j < length ds ->
  (forall d, In d ds -> (nth j ds 0 <= d)%Z) -> j = 0.
Proof.
  intros S Hj H. specialize (H (nth 0 ds 0%Z)).
  assert (Q : In (nth 0 ds 0%Z) ds) by (apply nth_In; lia). apply H in Q.
  apply zsorted_nth_le in Q; auto; lia.
Qed.

(** ** Running totals of a table *)

Lemma filter_flat_map {A B} (p : B -> bool) (f : A -> list B) l :
  filter p (flat_map f l) = flat_map (fun a => filter p (f a)) l.
Proof. induction l; simpl; auto. rewrite filter_app, IHl. auto. Qed.
Lemma flat_map_nil {A B} (f : A -> list B) l : (forall x, In x l -> f x = []) -> flat_map f l = [].
Proof. induction l; simpl; intro H; auto. rewrite H, IHl; auto. Qed.
Lemma flat_map_single {B} (f : Z -> list B) l o : NoDup l -> In o l ->
  (forall x, In x l -> x <> o -> f x = []) -> flat_map f l = f o.
Proof.
  induction 1 as [|y l Hy N IH]; simpl; intros Ho H; [contradiction|]. destruct Ho as [->|Ho].
  - rewrite flat_map_nil, app_nil_r; auto. intros x Hx. apply H; auto. congruence.
  - rewrite H; auto. congruence.
Qed.

Lemma running_total_tbl os ds g o d : zsorted os -> In o os ->
  running_total (tbl os ds g) o d = nan_sum (map (g o) (filter (fun x => (x <=? d)%Z) ds)).
Proof.
  intros So Ho. unfold running_total, tbl. rewrite filter_flat_map.
  rewrite (flat_map_single _ os o); auto using zsorted_nodup.
  - unfold row_tbl. induction ds as [|x ds IH]; simpl; auto.
    unfold r_o, r_d, r_v, mkrec in *. cbn [fst snd] in *.
    destruct (isnan (g o x)) eqn:E; cbn [negb].
    + destruct (x <=? d)%Z; auto. cbn [map nan_sum fold_right]. rewrite E, IH.
      fold (nan_sum (map (g o) (filter (fun x => (x <=? d)%Z) ds))).
      symmetry. apply vadd_0_l.
    + cbn [filter fst snd]. rewrite Z.eqb_refl. cbn [andb]. destruct (x <=? d)%Z; auto.
      cbn [map snd nan_sum fold_right]. f_equal. exact IH.
  - intros x Hx Nx. apply filter_none. intros r Hr. apply in_row_tbl in Hr as (-> & _).
    apply andb_false_iff. left. apply Z.eqb_neq. auto.
Qed.

Lemma filter_le_sorted ds j : zsorted ds -> j < length ds ->
  filter (fun x => (x <=? nth j ds 0)%Z) ds = map (fun k => nth k ds 0%Z) (seq 0 (S j)).
Proof.
  intros Sd Hj.
  assert (E : ds = map (fun k => nth k ds 0%Z) (seq 0 (length ds))) by (symmetry; apply list_map_nth).
  transitivity (filter (fun x => (x <=? nth j ds 0)%Z) (map (fun k => nth k ds 0%Z) (seq 0 (length ds)))).
  { f_equal. exact E. }
  replace (length ds) with (S j + (length ds - S j)) by lia.
  rewrite seq_app, map_app, filter_app. rewrite (filter_none _ (map _ (seq (0 + S j) _))), app_nil_r.
  - assert (G : forall a n, a + n <= S j -> filter (fun x => (x <=? nth j ds 0)%Z) (map (fun k => nth k ds 0%Z) (seq a n))
        = map (fun k => nth k ds 0%Z) (seq a n)).
    { intros a n. revert a. induction n; intros a Ha; auto. simpl.
      assert (Q : (nth a ds 0 <=? nth j ds 0)%Z = true) by (apply Z.leb_le, zsorted_nth_le; auto; lia).
      rewrite Q. f_equal. apply IHn. lia. }
    apply G. lia.
  - intros x Hx. apply in_map_iff in Hx as (k & <- & Hk). apply in_seq in Hk.
    apply Z.leb_gt. apply zsorted_nth_lt; auto; lia.
Qed.

Lemma running_total_pos os ds g o j : zsorted os -> zsorted ds -> In o os -> j < length ds ->
  running_total (tbl os ds g) o (nth j ds 0%Z) = nan_sum (map (fun k => g o (nth k ds 0%Z)) (seq 0 (S j))).
Proof.
  intros. rewrite running_total_tbl by auto. rewrite filter_le_sorted by auto. rewrite map_map. auto.
Qed.

(** ** Differences *)

Definition dif (ds : list Z) (f : Z -> Z -> val) (o d : Z) : val :=
  match zfind d ds with
  | Some (S k) => vsub (f o d) (f o (nth k ds 0%Z))
  | _ => f o d
  end.

Lemma dif_0 ds f o : NoDup ds -> 0 < length ds -> dif ds f o (nth 0 ds 0%Z) = f o (nth 0 ds 0%Z).
Proof. intros N H. unfold dif. rewrite zfind_nth by auto. auto. Qed.
Lemma dif_S ds f o j : NoDup ds -> S j < length ds ->
  dif ds f o (nth (S j) ds 0%Z) = vsub (f o (nth (S j) ds 0%Z)) (f o (nth j ds 0%Z)).
Proof. intros N H. unfold dif. rewrite zfind_nth by auto. auto. Qed.

Lemma diff_holds m os ds f : holds m os ds f -> NoDup ds ->
  holds (mkMat (m_idx m) (m_cols m) (diff_cells m)) os ds (dif ds f).
Proof.
  intros H N. assert (E := fun i j => holds_cell m os ds f i j H). destruct H as (A & B & C & D & F).
  unfold diff_cells, nrows, ncols. rewrite A, B. apply mk_holds. intros i j Hi Hj.
  destruct j.
  - rewrite dif_0 by auto. apply E; auto.
  - rewrite dif_S by auto. rewrite !E; auto. lia.
Qed.

Lemma vsub_nan_l x : vsub NaN x = NaN. Proof. reflexivity. Qed.
Lemma vsub_nan_r x : vsub x NaN = NaN. Proof. destruct x; reflexivity. Qed.

Section Shape.
  Variables (os ds : list Z).
  Hypothesis So : zsorted os.
  Hypothesis Sd : zsorted ds.

  Lemma gap_pos f i j k : gap_free os ds f -> i < length os -> j < length ds -> k <= j ->
    f (nth i os 0%Z) (nth j ds 0%Z) <> NaN -> f (nth i os 0%Z) (nth k ds 0%Z) <> NaN.
  Proof.
    intros G Hi Hj Hk N. destruct (Nat.eq_dec k j); [subst; auto|].
    apply (G _ _ (nth j ds 0%Z)); auto using nth_In; [apply nth_In; lia|].
    apply zsorted_nth_lt; auto; lia.
  Qed.

  Lemma fin_pos f i j : finite_cells os ds f -> i < length os -> j < length ds ->
    f (nth i os 0%Z) (nth j ds 0%Z) <> NaN -> exists q, f (nth i os 0%Z) (nth j ds 0%Z) = Fin q.
  Proof. intros F Hi Hj N. destruct (F (nth i os 0%Z) (nth j ds 0%Z)); auto using nth_In. contradiction. Qed.

  (** Differences of a gap-free triangle are missing exactly where the cells are. *)
  Lemma dif_nan f i j : gap_free os ds f -> finite_cells os ds f -> i < length os -> j < length ds ->
    (dif ds f (nth i os 0%Z) (nth j ds 0%Z) = NaN <-> f (nth i os 0%Z) (nth j ds 0%Z) = NaN).
  Proof.
    intros G F Hi Hj. assert (N := zsorted_nodup _ Sd). destruct j.
    - rewrite dif_0 by auto. tauto.
    - rewrite dif_S by auto. split; intro H.
      + destruct (isnan (f (nth i os 0%Z) (nth (S j) ds 0%Z))) eqn:E; [apply isnan_true; auto|].
        apply isnan_false in E. destruct (fin_pos f i (S j)) as [q Q]; auto.
        destruct (fin_pos f i j) as [p P]; auto; try lia.
        { apply (gap_pos f i (S j) j); auto. }
        rewrite Q, P in H. discriminate.
      + rewrite H. apply vsub_nan_l.
  Qed.

  Lemma dif_covered f : gap_free os ds f -> finite_cells os ds f -> covered os ds f ->
    covered os ds (dif ds f).
  Proof.
    intros G F [Co Cd]. split.
    - intros o Ho. destruct (Co o Ho) as (d & Hd & N). exists d. split; auto.
      destruct (label_pos _ _ Ho) as (i & Hi & ->). destruct (label_pos _ _ Hd) as (j & Hj & ->).
      rewrite dif_nan; auto.
    - intros d Hd. destruct (Cd d Hd) as (o & Ho & N). exists o. split; auto.
      destruct (label_pos _ _ Ho) as (i & Hi & ->). destruct (label_pos _ _ Hd) as (j & Hj & ->).
      rewrite dif_nan; auto.
  Qed.
  Lemma dif_positive f : positive_first os ds f -> positive_first os ds (dif ds f).
  Proof.
    intros P o d Ho Hd H. destruct (label_pos _ _ Hd) as (j & Hj & ->).
    assert (j = 0) by (apply (first_in_pos ds); auto). subst.
    rewrite dif_0; auto using zsorted_nodup.
  Qed.
  Lemma dif_finite f : gap_free os ds f -> finite_cells os ds f -> finite_cells os ds (dif ds f).
  Proof.
    intros G F o d Ho Hd. destruct (label_pos _ _ Ho) as (i & Hi & ->).
    destruct (label_pos _ _ Hd) as (j & Hj & ->). assert (N := zsorted_nodup _ Sd).
    destruct (isnan (f (nth i os 0%Z) (nth j ds 0%Z))) eqn:E.
    - left. apply isnan_true in E. apply dif_nan; auto.
    - right. apply isnan_false in E. destruct (fin_pos f i j) as [q Q]; auto. destruct j.
      + rewrite dif_0 by auto. eauto.
      + rewrite dif_S by auto. destruct (fin_pos f i j) as [p P]; auto; try lia.
        { apply (gap_pos f i (S j) j); auto. }
        rewrite Q, P. simpl. eauto.
  Qed.
  Lemma dif_gap f : gap_free os ds f -> finite_cells os ds f -> gap_free os ds (dif ds f).
  Proof.
    intros G F o d d' Ho Hd Hd' L N.
    destruct (label_pos _ _ Ho) as (i & Hi & ->). destruct (label_pos _ _ Hd) as (j & Hj & ->).
    destruct (label_pos _ _ Hd') as (j' & Hj' & ->).
    rewrite dif_nan by auto. rewrite dif_nan in N by auto. eapply G; eauto using nth_In.
  Qed.

  (** Summing the differences gives the cells back. *)
  Lemma dif_sum f i j : gap_free os ds f -> finite_cells os ds f -> i < length os -> j < length ds ->
    f (nth i os 0%Z) (nth j ds 0%Z) <> NaN ->
    nan_sum (map (fun k => dif ds f (nth i os 0%Z) (nth k ds 0%Z)) (seq 0 (S j)))
    = f (nth i os 0%Z) (nth j ds 0%Z).
  Proof.
    intros G F Hi. assert (N := zsorted_nodup _ Sd). induction j as [|j IH]; intros Hj Nn.
    - simpl. rewrite dif_0 by auto. apply isnan_false in Nn. rewrite Nn. apply vadd_0_r.
    - rewrite seq_S, map_app, nan_sum_app. rewrite IH; [|lia|apply (gap_pos f i (S j) j); auto].
      simpl map. rewrite dif_S by auto.
      destruct (fin_pos f i (S j)) as [q Q]; auto.
      destruct (fin_pos f i j) as [p P]; auto; try lia. { apply (gap_pos f i (S j) j); auto. }
      rewrite Q, P. simpl. f_equal. ring.
  Qed.

  (** Cumulated cells. *)
  Definition cumc (g : Z -> Z -> val) (o d : Z) : val :=
    if isnan (g o d) then NaN else running_total (tbl os ds g) o d.

  Lemma tbl_finite g : finite_cells os ds g -> all_finite (tbl os ds g).
  Proof.
    intros F r Hr. apply in_tbl in Hr as (A & B & C & N). destruct (F _ _ A B) as [Q|[q Q]].
    - congruence.
    - exists q. congruence.
  Qed.

  Lemma cum_build g : finite_cells os ds g -> covered os ds g -> positive_first os ds g ->
    holds (build (adjusted (cum_recs (tbl os ds g)))) os ds (cumc g).
  Proof.
    intros F C P. assert (C' := C). destruct C' as [Co Cd].
    rewrite build_cum_mk. unfold os_of, ds_of. rewrite tbl_os, tbl_ds by auto.
    apply mk_holds. intros i j Hi Hj. unfold ucell, cumc.
    assert (Ho : In (nth i os 0%Z) os) by (apply nth_In; auto).
    assert (Hd : In (nth j ds 0%Z) ds) by (apply nth_In; auto).
    destruct (isnan (g (nth i os 0%Z) (nth j ds 0%Z))) eqn:E.
    - apply isnan_true in E. apply cell_total_unrecorded. intro R. apply tbl_recorded in R. tauto.
    - apply isnan_false in E. rewrite cum_cell_sorted; auto using tbl_dev_sorted, tbl_finite.
      + unfold cum_cell. destruct (first_devb _ _) eqn:Fd; auto.
        assert (j = 0).
        { apply (first_in_pos ds); auto. intros d Hd'.
          apply (tbl_first os ds g (mkrec (nth i os 0%Z) (nth j ds 0%Z) (g (nth i os 0%Z) (nth j ds 0%Z)))); auto.
          apply in_tbl. cbn. auto. }
        subst. rewrite running_total_pos by auto. simpl map. simpl nan_sum.
        apply isnan_false in E. rewrite E, vadd_0_r.
        destruct (P (nth i os 0%Z) (nth 0 ds 0%Z)) as [Q|Q]; auto.
        * intros d' Hd'. destruct (label_pos _ _ Hd') as (k & Hk & ->). apply zsorted_nth_le; auto; lia.
        * rewrite Q in E. discriminate.
        * apply vltb_0 in Q. rewrite Q. auto.
      + apply tbl_recorded. auto.
  Qed.

  Lemma tbl_nonempty g : os <> [] -> covered os ds g -> tbl os ds g <> [].
  Proof.
    intros No [Co _] E. destruct os as [|o os']; [congruence|].
    destruct (Co o (or_introl eq_refl)) as (d & Hd & N).
    assert (Q : In (mkrec o d (g o d)) (tbl (o :: os') ds g)) by (apply in_tbl; cbn; auto).
    rewrite E in Q. contradiction.
  Qed.

  Lemma to_cum_holds m g : os <> [] -> holds m os ds g -> finite_cells os ds g -> covered os ds g ->
    positive_first os ds g ->
    exists m', to_cum (mkTri m "origin" "dev" "value") = Ok (mkTri m' "origin" "dev" "value") /\
      holds m' os ds (cumc g).
  Proof.
    intros No H F C P. eexists. split; [|apply (cum_build g); auto].
    unfold to_cum, to_tbl. cbn [t_o t_d t_v t_mat String.eqb Ascii.eqb Bool.eqb bind].
    rewrite (to_tbl_recs_tbl m os ds g) by auto. unfold halloc.
    rewrite (cum_ctor_table "origin" "dev" "value") with
      (f := recs_frame "origin" "dev" "value" (tbl os ds g)) (l := tbl os ds g); try discriminate; auto.
    - apply recs_frame_table; discriminate.
    - apply tbl_nonempty; auto.
  Qed.

  Lemma to_incr_holds m f : os <> [] -> holds m os ds f -> gap_free os ds f -> finite_cells os ds f ->
    covered os ds f -> positive_first os ds f -> forall a b c,
    exists m', to_incr (mkTri m a b c) = Ok (mkTri m' "origin" "dev" "value") /\ holds m' os ds (dif ds f).
  Proof.
    intros No H G F C P a b c. eexists. split.
    - unfold to_incr, incr_recs. cbn [t_mat].
      rewrite (sorted_melt _ os ds (dif ds f)); auto; [|apply diff_holds; auto using zsorted_nodup].
      unfold halloc, incr_ctor. cbn [dflt].
      rewrite (base_ctor_table "origin" "dev" "value") with
        (f := recs_frame "origin" "dev" "value" (tbl os ds (dif ds f))) (l := tbl os ds (dif ds f));
        try discriminate; auto; [reflexivity| |].
      + apply recs_frame_table; discriminate.
      + apply tbl_nonempty; auto using dif_covered.
    - rewrite adjusted_tbl; auto using dif_covered, dif_positive.
      apply build_tbl; auto using dif_covered.
  Qed.

  Lemma cumc_dif f i j : gap_free os ds f -> finite_cells os ds f -> i < length os -> j < length ds ->
    cumc (dif ds f) (nth i os 0%Z) (nth j ds 0%Z) = f (nth i os 0%Z) (nth j ds 0%Z).
  Proof.
    intros G F Hi Hj. unfold cumc. destruct (isnan (dif ds f _ _)) eqn:E.
    - apply isnan_true in E. symmetry. apply dif_nan; auto.
    - apply isnan_false in E. rewrite running_total_pos by (auto using nth_In).
      apply dif_sum; auto. intro Q. apply E. apply dif_nan; auto.
  Qed.

  Lemma cumc_fin g i j : gap_free os ds g -> finite_cells os ds g -> i < length os -> j < length ds ->
    g (nth i os 0%Z) (nth j ds 0%Z) <> NaN -> exists q, cumc g (nth i os 0%Z) (nth j ds 0%Z) = Fin q.
  Proof.
    intros G F Hi Hj N. unfold cumc. apply isnan_false in N. rewrite N.
    apply running_total_fin. apply tbl_finite; auto.
  Qed.
  Lemma cumc_nan g o d : isnan (g o d) = true -> cumc g o d = NaN.
  Proof. intro H. unfold cumc. rewrite H. auto. Qed.

  Lemma dif_cumc g i j : gap_free os ds g -> finite_cells os ds g -> i < length os -> j < length ds ->
    dif ds (cumc g) (nth i os 0%Z) (nth j ds 0%Z) = g (nth i os 0%Z) (nth j ds 0%Z).
  Proof.
    intros G F Hi Hj. assert (N := zsorted_nodup _ Sd).
    destruct (isnan (g (nth i os 0%Z) (nth j ds 0%Z))) eqn:E.
    - assert (E' := E). apply isnan_true in E'. rewrite E'. destruct j.
      + rewrite dif_0 by auto. apply cumc_nan; auto.
      + rewrite dif_S by auto. rewrite cumc_nan; auto.
    - assert (E' := E). apply isnan_false in E'. destruct j.
      + rewrite dif_0 by auto. unfold cumc. rewrite E, running_total_pos by (auto using nth_In).
        simpl. rewrite E. apply vadd_0_r.
      + rewrite dif_S by auto.
        assert (E2 : g (nth i os 0%Z) (nth j ds 0%Z) <> NaN) by (apply (gap_pos g i (S j) j); auto).
        unfold cumc. rewrite E. apply isnan_false in E2. rewrite E2.
        rewrite !running_total_pos by (auto using nth_In; lia).
        rewrite (seq_S (S j)), map_app, nan_sum_app.
        assert (Q : exists q, nan_sum (map (fun k => g (nth i os 0%Z) (nth k ds 0%Z)) (seq 0 (S j))) = Fin q).
        { apply nan_sum_fin. intros v Hv. apply in_map_iff in Hv as (k & <- & Hk). apply in_seq in Hk.
          apply fin_pos; auto; try lia. apply (gap_pos g i (S j) k); auto; lia. }
        destruct Q as [q ->]. destruct (fin_pos g i (S j)) as [p P]; auto.
        simpl nan_sum. cbn [map plus]. rewrite P. simpl. f_equal. ring.
  Qed.

  Lemma cumc_nan_iff g i j : gap_free os ds g -> finite_cells os ds g -> i < length os -> j < length ds ->
    (cumc g (nth i os 0%Z) (nth j ds 0%Z) = NaN <-> g (nth i os 0%Z) (nth j ds 0%Z) = NaN).
  Proof.
    intros G F Hi Hj. split; intro H.
    - destruct (isnan (g (nth i os 0%Z) (nth j ds 0%Z))) eqn:E; [apply isnan_true; auto|].
      apply isnan_false in E. destruct (cumc_fin g i j) as [q Q]; auto. congruence.
    - apply cumc_nan. rewrite H. auto.
  Qed.

  Lemma cumc_shape g : gap_free os ds g -> finite_cells os ds g -> covered os ds g ->
    positive_first os ds g ->
    gap_free os ds (cumc g) /\ finite_cells os ds (cumc g) /\ covered os ds (cumc g) /\
    positive_first os ds (cumc g).
  Proof.
    intros G F [Co Cd] P. repeat split.
    - intros o d d' Ho Hd Hd' L N.
      destruct (label_pos _ _ Ho) as (i & Hi & ->). destruct (label_pos _ _ Hd) as (j & Hj & ->).
      destruct (label_pos _ _ Hd') as (j' & Hj' & ->).
      rewrite cumc_nan_iff by auto. rewrite cumc_nan_iff in N by auto. eapply G; eauto using nth_In.
    - intros o d Ho Hd.
      destruct (label_pos _ _ Ho) as (i & Hi & ->). destruct (label_pos _ _ Hd) as (j & Hj & ->).
      destruct (isnan (g (nth i os 0%Z) (nth j ds 0%Z))) eqn:E.
      + left. apply cumc_nan; auto.
      + right. apply cumc_fin; auto. apply isnan_false; auto.
    - intros o Ho. destruct (Co o Ho) as (d & Hd & N). exists d. split; auto.
      destruct (label_pos _ _ Ho) as (i & Hi & ->). destruct (label_pos _ _ Hd) as (j & Hj & ->).
      rewrite cumc_nan_iff; auto.
    - intros d Hd. destruct (Cd d Hd) as (o & Ho & N). exists o. split; auto.
      destruct (label_pos _ _ Ho) as (i & Hi & ->). destruct (label_pos _ _ Hd) as (j & Hj & ->).
      rewrite cumc_nan_iff; auto.
    - intros o d Ho Hd H. destruct (label_pos _ _ Hd) as (j & Hj & ->).
      assert (j = 0) by (apply (first_in_pos ds); auto). subst.
      destruct (P o (nth 0 ds 0%Z) Ho Hd H) as [Q|Q].
      + left. apply cumc_nan. rewrite Q. auto.
      + right. unfold cumc. destruct (isnan (g o (nth 0 ds 0%Z))) eqn:E.
        { apply isnan_true in E. rewrite E in Q. discriminate. }
        rewrite running_total_pos by auto. simpl. rewrite E, vadd_0_r. auto.
  Qed.

  Lemma holds_ext_pos m f g : holds m os ds f ->
    (forall i j, i < length os -> j < length ds ->
       f (nth i os 0%Z) (nth j ds 0%Z) = g (nth i os 0%Z) (nth j ds 0%Z)) -> holds m os ds g.
  Proof.
    intros (A & B & C & D & E) H. repeat split; auto. intros. rewrite E by auto. auto.
  Qed.

  Lemma c07a m f : os <> [] -> holds m os ds f -> gap_free os ds f -> finite_cells os ds f ->
    covered os ds f -> positive_first os ds f -> exists mi,
    to_incr (mkTri m "origin" "dev" "value") = Ok (mkTri mi "origin" "dev" "value") /\
    holds mi os ds (dif ds f) /\
    to_cum (mkTri mi "origin" "dev" "value") = Ok (mkTri m "origin" "dev" "value").
  Proof.
    intros No H G F C P. destruct (to_incr_holds m f No H G F C P "origin" "dev" "value") as (mi & E & Hi).
    exists mi. split; auto. split; auto.
    destruct (to_cum_holds mi (dif ds f)) as (m' & E' & H'); auto using dif_covered, dif_positive, dif_finite.
    rewrite E'. f_equal. f_equal. apply (holds_unique _ _ os ds f); auto.
    eapply holds_ext_pos; [exact H'|]. intros. apply cumc_dif; auto.
  Qed.

  Lemma c07b m g : os <> [] -> holds m os ds g -> gap_free os ds g -> finite_cells os ds g ->
    covered os ds g -> positive_first os ds g -> exists mc,
    to_cum (mkTri m "origin" "dev" "value") = Ok (mkTri mc "origin" "dev" "value") /\
    holds mc os ds (cumc g) /\
    to_incr (mkTri mc "origin" "dev" "value") = Ok (mkTri m "origin" "dev" "value").
  Proof.
    intros No H G F C P. destruct (to_cum_holds m g No H F C P) as (mc & E & Hc).
    exists mc. split; auto. split; auto.
    destruct (cumc_shape g G F C P) as (G' & F' & C' & P').
    destruct (to_incr_holds mc (cumc g) No Hc G' F' C' P' "origin" "dev" "value") as (m' & E' & H').
    rewrite E'. f_equal. f_equal. apply (holds_unique _ _ os ds g); auto.
    eapply holds_ext_pos; [exact H'|]. intros. apply dif_cumc; auto.
  Qed.
End Shape.
