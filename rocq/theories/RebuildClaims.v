(** Rebuilding a triangle from its own table. *)

From Coq Require Import String QArith Qcanon ZArith List Bool Lia Sorting.Sorted.
From Verif Require Import Val Frame Triangle QcLib ListLib Spec SpecCum RegFacts FillFacts BuildFacts CumFacts TotriFacts TblFacts TriClaims TriClaims2 TriClaims3 ConvFacts CumExact.
Import ListNotations.
Open Scope list_scope.
Open Scope nat_scope.

Definition key_dec (a b : Z * Z) : {a = b} + {a <> b}.
Proof. decide equality; apply Z.eq_dec. Defined.

(** ** Filling twice is filling once *)
Lemma fillc_ext c ti ti' j : (forall k, 0 < k <= j -> ti k = ti' k) -> fillc c ti j = fillc c ti' j.
Proof.
  induction j as [|j IH]; intro H; [reflexivity|]. cbn [fillc]. rewrite (H (S j)) by lia. rewrite IH; auto.
  intros k Hk. apply H. lia.
Qed.
Lemma fillc_idem c ti j : fillc (fillc c ti) ti j = fillc c ti j.
Proof.
  induction j as [|j IH].
  - cbn. destruct (isnan (c 0)) eqn:E; cbn; [reflexivity|]. rewrite E. reflexivity.
  - change (fillc (fillc c ti) ti (S j)) with (if negb (ti (S j)) && isnan (fillc c ti (S j)) then fillc (fillc c ti) ti j else fillc c ti (S j)).
    destruct (negb (ti (S j)) && isnan (fillc c ti (S j))) eqn:B; auto.
    apply andb_prop in B as [B1 B2]. apply negb_true_iff in B1. rewrite IH.
    destruct (isnan (c (S j))) eqn:N.
    + symmetry. apply fillc_step; auto. apply isnan_true. auto.
    + rewrite fillc_keep in B2 by (apply isnan_false; auto). congruence.
Qed.

Section Fill.
  Variables (os ds : list Z) (c : nat -> nat -> val) (cl : nat -> nat).
  Hypotheses (So : zsorted os) (Sd : zsorted ds) (No : os <> []) (Nds : ds <> []).
  Hypothesis L : forall j, j < length ds -> col_last (length os) c cl j.
  Hypothesis Fi : forall i j, i < length os -> j < length ds -> c i j = NaN \/ exists q, c i j = Fin q.
  Hypothesis P : forall i, i < length os -> c i 0 = NaN \/ vltb (Fin 0%Qc) (c i 0) = true.
  Definition flld i j := fillc (c i) (fun j => cl j <? i) j.
  Definition fmat := mkMat os ds (mk (length os) (length ds) flld).
  Definition ffun o d := match cell_at fmat o d with Some v => v | None => NaN end.

  Lemma ffun_at i j : i < length os -> j < length ds -> ffun (nth i os 0%Z) (nth j ds 0%Z) = flld i j.
  Proof. intros. unfold ffun, fmat. rewrite cell_at_mk; auto using zsorted_nodup. Qed.
  Lemma fmat_holds : holds fmat os ds ffun.
  Proof.
    split; [reflexivity|]. split; [reflexivity|]. split; [apply mk_length|]. split; [apply mk_wfm|].
    intros i j Hi Hj. rewrite ffun_at by auto. apply (cell_mk (length os) (length ds) flld i j); auto.
  Qed.
  Lemma flld_0 i : flld i 0 <> NaN.
  Proof. unfold flld. rewrite fillc_nan. intros (k & Hk & _). lia. Qed.
  Lemma flld_last j : j < length ds -> flld (cl j) j <> NaN.
  Proof. intro Hj. destruct (L j Hj) as (A & B & _). unfold flld. rewrite fillc_keep; auto. Qed.
  Lemma flld_below i j : 0 < j < length ds -> i < length os -> cl j < i -> flld i j = NaN.
  Proof. intros Hj Hi H. destruct (L j) as (_ & _ & C); [lia|]. unfold flld. rewrite fillc_below; auto; [lia|apply Nat.ltb_lt; auto]. Qed.
  Lemma ds0 : 0 < length ds. Proof. destruct ds; [congruence|simpl; lia]. Qed.
  Lemma os0 : 0 < length os. Proof. destruct os; [congruence|simpl; lia]. Qed.
  Lemma ffun_covered : covered os ds ffun.
  Proof.
    assert (D := ds0). split.
    - intros o Ho. destruct (label_pos _ _ Ho) as (i & Hi & ->). exists (nth 0 ds 0%Z). split; [apply nth_In; auto|].
      rewrite ffun_at by auto. apply flld_0.
    - intros d Hd. destruct (label_pos _ _ Hd) as (j & Hj & ->). destruct (L j Hj) as (A & _).
      exists (nth (cl j) os 0%Z). split; [apply nth_In; auto|]. rewrite ffun_at by auto. apply flld_last; auto.
  Qed.
  Lemma ffun_positive : positive_first os ds ffun.
  Proof.
    intros o d Ho Hd Hf. destruct (label_pos _ _ Ho) as (i & Hi & ->). destruct (label_pos _ _ Hd) as (j & Hj & ->).
    assert (j = 0).
    { destruct j; auto. exfalso. assert (Q := Hf (nth 0 ds 0%Z) (nth_In _ _ ds0)).
      apply zsorted_nth_le in Q; auto; [lia|apply ds0]. }
    subst j. rewrite ffun_at by auto. right. unfold flld. cbn [fillc]. destruct (P i Hi) as [-> | Q]; [reflexivity|].
    destruct (isnan (c i 0)) eqn:E; auto.
  Qed.
  Lemma flld_finite i j : i < length os -> j < length ds -> flld i j = NaN \/ exists q, flld i j = Fin q.
  Proof.
    intros Hi Hj. unfold flld. induction j as [|j IH].
    - cbn. destruct (isnan (c i 0)) eqn:E; [right; eexists; reflexivity|apply Fi; auto].
    - cbn [fillc]. destruct (_ && _); [apply IH; lia|apply Fi; auto].
  Qed.
  Lemma lastrow_cl j : 0 < j < length ds -> lastrow os ds ffun j = cl j.
  Proof.
    intro Hj. destruct (lastrow_spec os ds ffun j (proj2 ffun_covered)) as (A & B & C); [lia|].
    cbv beta in B, C. rewrite ffun_at in B by (auto; lia). destruct (L j) as (A' & _ & _); [lia|].
    destruct (lt_eq_lt_dec (lastrow os ds ffun j) (cl j)) as [[H|H]|H]; auto; exfalso.
    - apply (flld_last j); [lia|]. specialize (C (cl j)). rewrite ffun_at in C by (auto; lia). apply C. lia.
    - apply B. apply flld_below; auto.
  Qed.
  Lemma rebuild_fill : exists fr ob, to_tbl (mkTri fmat "origin" "dev" "value") true = Ok fr /\
    totri fr "cum" "cum" "tabular" "origin" "dev" "value" = Ok ob /\ ob_tri ob = mkTri fmat "origin" "dev" "value".
  Proof.
    assert (H := fmat_holds). assert (Cv := ffun_covered). assert (Po := ffun_positive).
    eexists.
    destruct (fill_mk os ds "origin" "dev" "value" (fun i j => ffun (nth i os 0%Z) (nth j ds 0%Z)) (lastrow os ds ffun)) as (cc & E & _).
    { apply os0. } { apply ds0. } { intros j Hj. apply lastrow_spec; auto. apply Cv. }
    eexists. split; [reflexivity|]. cbn [t_o t_d t_v t_mat]. rewrite (to_tbl_recs_tbl fmat os ds ffun) by auto.
    rewrite (totri_cumcum "origin" "dev" "value") with (l := tbl os ds ffun); try discriminate.
    - rewrite adjusted_tbl by auto. rewrite (holds_unique _ _ _ _ _ (build_tbl os ds ffun So Sd Cv) H).
      rewrite (holds_mk _ _ _ _ H). split; [exact E|]. cbn [ob_tri]. f_equal. f_equal.
      apply map_ext_in. intros i Hi. apply in_seq in Hi. apply map_ext_in. intros j Hj. apply in_seq in Hj.
      rewrite (fillc_ext _ _ (fun j => cl j <? i)).
      + transitivity (fillc (flld i) (fun j => cl j <? i) j).
        * clear E. assert (Hj' : j < length ds) by lia. clear Hj. induction j as [|j IH].
          -- cbn [fillc]. rewrite ffun_at by lia. reflexivity.
          -- cbn [fillc]. rewrite ffun_at, IH by lia. reflexivity.
        * rewrite ffun_at by lia. apply fillc_idem.
      + intros k Hk. rewrite lastrow_cl by lia. reflexivity.
    - apply recs_frame_table; discriminate.
    - right. cbn. intuition discriminate.
    - apply tbl_nonempty; auto.
    - intros r Hr. apply in_tbl in Hr as (A & B & D & N). rewrite D in *. destruct (label_pos _ _ A) as (i & Hi & Ei).
      destruct (label_pos _ _ B) as (j & Hj & Ej). rewrite Ei, Ej in *. rewrite ffun_at in * by auto.
      destruct (flld_finite i j Hi Hj); [congruence|auto].
  Qed.
End Fill.

(** ** Positive first cells *)
Lemma nan_sum_pos l : l <> [] -> (forall v, In v l -> exists q, v = Fin q /\ (0 < q)%Qc) -> exists q, nan_sum l = Fin q /\ (0 < q)%Qc.
Proof.
  induction l as [|v l IH]; intros N H; [congruence|]. destruct (H v (or_introl eq_refl)) as (q & -> & Hq).
  destruct l as [|w l].
  - exists (q + 0)%Qc. split; [reflexivity|]. replace (q + 0)%Qc with q by ring. auto.
  - destruct IH as (p & E & Hp); [discriminate|intros; apply H; right; auto|]. exists (q + p)%Qc. split.
    + unfold nan_sum in *. cbn [fold_right isnan] in *. rewrite E. reflexivity.
    + revert Hq Hp. clear. intros. qlra.
Qed.
Lemma first_total_pos L o d : all_finite L -> recorded L o d -> first_dev L d -> exists q, cell_total (adjusted L) o d = Fin q /\ (0 < q)%Qc.
Proof.
  intros F R (_ & D). unfold cell_total.
  assert (N : values_at (adjusted L) o d <> []) by (intro Q; apply values_at_nil in Q; rewrite adjusted_keys in Q; contradiction).
  destruct (nan_sum_pos (values_at (adjusted L) o d) N) as (q & E & Hq).
  - intros v Hv. unfold values_at in Hv. apply in_map_iff in Hv as (r & <- & Hr). apply filter_In in Hr as (Hr & K).
    apply andb_prop in K as (_ & K). apply Z.eqb_eq in K. unfold adjusted in Hr. apply in_map_iff in Hr as (r0 & <- & Hr0).
    cbn [r_v snd]. change (r_d r0 = d) in K.
    assert (Fd : is_first_dev L r0 = true).
    { unfold is_first_dev. apply forallb_forall. intros r' Hr'. apply Z.leb_le. rewrite K. apply D. apply in_map; auto. }
    rewrite Fd. destruct (F r0 Hr0) as (x & Ex). change (snd r0 = Fin x) in Ex. unfold r_v. rewrite Ex. cbn [andb].
    destruct (vleb (Fin x) (Fin 0%Qc)) eqn:B.
    + exists 1%Qc. split; [reflexivity|reflexivity].
    + exists x. split; [reflexivity|]. cbn in B. apply Qcnot_le_lt. intro Q. apply qcleb_le in Q. congruence.
  - destruct (values_at (adjusted L) o d); [congruence|]. eauto.
Qed.
Lemma cum_recs_finite l : all_finite l -> all_finite (cum_recs l).
Proof.
  intros F r Hr. assert (Hv : In (r_v r) (cum_vals l)) by (rewrite <- cum_recs_v; apply in_map; auto).
  rewrite cum_vals_rows in Hv. apply in_map_iff in Hv as (k & E & Hk). apply in_seq in Hk. rewrite <- E.
  unfold row_total. destruct (F (row l k)) as (q & Eq); [apply nth_In; lia|]. rewrite Eq. cbn [isnan].
  apply nan_sum_fin. intros v Hv. apply in_map_iff in Hv as (x & <- & Hx). apply filter_In in Hx as (Hx & _).
  apply F. rewrite <- (firstn_skipn (S k) l). apply in_app_iff. auto.
Qed.
Lemma first_pos_label L : L <> [] -> first_dev L (nth 0 (ds_of L) 0%Z).
Proof.
  intro N. assert (D := ds_nonempty _ N). split.
  - rewrite <- zuniq_in. apply nth_In. exact D.
  - intros d' Hd'. rewrite <- zuniq_in in Hd'. change (In d' (ds_of L)) in Hd'. destruct (label_pos _ _ Hd') as (k & Hk & ->).
    apply zsorted_nth_le; auto using ds_sorted; lia.
Qed.
Lemma fin_pos v q : v = Fin q -> (0 < q)%Qc -> vltb (Fin 0%Qc) v = true.
Proof. intros -> H. cbn. apply qcltb_lt. auto. Qed.

Theorem rebuild_cum f l df : df = "incr"%string \/ df = "cum"%string ->
  table_in f "origin" "dev" "value" l -> ~ In "cum"%string (map fst f) -> l <> [] -> all_finite l ->
  exists ob fr ob', totri f "cum" df "tabular" "origin" "dev" "value" = Ok ob /\
    to_tbl (ob_tri ob) true = Ok fr /\ totri fr "cum" "cum" "tabular" "origin" "dev" "value" = Ok ob' /\
    ob_tri ob' = ob_tri ob.
Proof.
  intros Hdf T Hc Hl F. assert (NI : no_inf l) by (apply all_finite_noinf; auto).
  assert (Nd : ds_of l <> []) by (intro Q; assert (D := ds_nonempty _ Hl); rewrite Q in D; simpl in D; lia).
  assert (Nos : os_of l <> []) by (intro Q; assert (D := os_nonempty _ Hl); rewrite Q in D; simpl in D; lia).
  destruct Hdf as [-> | ->].
  - destruct (totri_cum_mk "origin" "dev" "value" f l) as (c & E & _); try discriminate; auto.
    destruct (rebuild_fill (os_of l) (ds_of l) (fun i j => ucell l (nth i (os_of l) 0%Z) (nth j (ds_of l) 0%Z)) (lastpos l)) as (fr & ob' & E1 & E2 & E3);
      auto using os_sorted, ds_sorted.
    + intros j Hj. apply lastpos_spec; auto.
    + intros i j Hi Hj. destruct (in_dec key_dec (nth i (os_of l) 0%Z, nth j (ds_of l) 0%Z) (map fst l)) as [R|R].
      * right. apply ucell_recorded; auto.
      * left. apply ucell_unrecorded. exact R.
    + intros i Hi. destruct (in_dec key_dec (nth i (os_of l) 0%Z, nth 0 (ds_of l) 0%Z) (map fst l)) as [R|R].
      * right. destruct (first_total_pos (cum_recs l) (nth i (os_of l) 0%Z) (nth 0 (ds_of l) 0%Z)) as (q & Eq & Hq).
        -- apply cum_recs_finite; auto.
        -- unfold recorded. rewrite cum_recs_keys. exact R.
        -- destruct (first_pos_label l Hl) as (A & B). split; rewrite cum_recs_d; auto.
        -- eapply fin_pos; eauto.
      * left. apply ucell_unrecorded. exact R.
    + exists (mkObj (mkTri (fmat (os_of l) (ds_of l) (fun i j => ucell l (nth i (os_of l) 0%Z) (nth j (ds_of l) 0%Z)) (lastpos l)) "origin" "dev" "value") c), fr, ob'.
      split; [exact E|]. split; [exact E1|]. split; [exact E2|exact E3].
  - assert (NIa : no_inf (adjusted l)) by (apply adjusted_noinf; auto).
    assert (Rc : forall og dv, recorded (adjusted l) og dv <-> recorded l og dv) by (intros; unfold recorded; rewrite adjusted_keys; tauto).
    assert (CT : forall og dv, ~ recorded l og dv -> cell_total (adjusted l) og dv = NaN).
    { intros og dv R. unfold cell_total. destruct (values_at (adjusted l) og dv) eqn:Q; auto. exfalso. apply R. apply Rc.
      unfold recorded. destruct (in_dec key_dec (og, dv) (map fst (adjusted l))) as [|n]; auto.
      apply values_at_nil in n. congruence. }
    assert (Cd : forall dv, In dv (ds_of l) -> exists og, In og (os_of l) /\ cell_total (adjusted l) og dv <> NaN).
    { intros dv Hdv. destruct (ds_recorded _ _ Hdv) as (og & R). exists og. split; [eapply recorded_os; eauto|].
      destruct (cell_total_fin (adjusted l) og dv NIa) as [q ->]; [apply Rc; auto|discriminate]. }
    assert (H := build_holds (adjusted l)). rewrite adjusted_o, adjusted_d in H. fold (os_of l) (ds_of l) in H.
    destruct (fill_mk (os_of l) (ds_of l) "origin" "dev" "value"
       (fun i j => cell_total (adjusted l) (nth i (os_of l) 0%Z) (nth j (ds_of l) 0%Z))
       (lastrow (os_of l) (ds_of l) (cell_total (adjusted l)))) as (c & E & _).
    { apply os_nonempty; auto. } { apply ds_nonempty; auto. } { intros. apply lastrow_spec; auto. }
    destruct (rebuild_fill (os_of l) (ds_of l) (fun i j => cell_total (adjusted l) (nth i (os_of l) 0%Z) (nth j (ds_of l) 0%Z))
       (lastrow (os_of l) (ds_of l) (cell_total (adjusted l)))) as (fr & ob' & E1 & E2 & E3); auto using os_sorted, ds_sorted.
    + intros. apply lastrow_spec; auto.
    + intros i j Hi Hj. destruct (in_dec key_dec (nth i (os_of l) 0%Z, nth j (ds_of l) 0%Z) (map fst l)) as [R|R].
      * right. apply cell_total_fin; auto. apply Rc. exact R.
      * left. apply CT. exact R.
    + intros i Hi. destruct (in_dec key_dec (nth i (os_of l) 0%Z, nth 0 (ds_of l) 0%Z) (map fst l)) as [R|R].
      * right. destruct (first_total_pos l (nth i (os_of l) 0%Z) (nth 0 (ds_of l) 0%Z)) as (q & Eq & Hq); auto.
        -- apply first_pos_label; auto.
        -- eapply fin_pos; eauto.
      * left. apply CT. exact R.
    + exists (mkObj (mkTri (fmat (os_of l) (ds_of l) (fun i j => cell_total (adjusted l) (nth i (os_of l) 0%Z) (nth j (ds_of l) 0%Z))
         (lastrow (os_of l) (ds_of l) (cell_total (adjusted l)))) "origin" "dev" "value") c), fr, ob'.
      split; [|split; [exact E1|split; [exact E2|exact E3]]].
      rewrite (totri_cumcum "origin" "dev" "value") with (l := l); try discriminate; auto.
      rewrite (holds_mk _ _ _ _ H). exact E.
Qed.

(** ** Incremental *)
Lemma vadd_0_r' v : v <> NaN -> nan_sum [v] = v.
Proof. intro N. unfold nan_sum. cbn [fold_right]. destruct v; try reflexivity; [congruence|]. cbn. f_equal. ring. Qed.

Theorem rebuild_incr m os ds f : zsorted os -> zsorted ds -> holds m os ds f ->
  (exists o d, In o os /\ In d ds /\ f o d <> NaN) ->
  exists fr ob os' ds', to_tbl (mkTri m "origin" "dev" "value") true = Ok fr /\
    totri fr "incr" "incr" "tabular" "origin" "dev" "value" = Ok ob /\
    m_idx (t_mat (ob_tri ob)) = os' /\ m_cols (t_mat (ob_tri ob)) = ds' /\ zsorted os' /\ zsorted ds' /\
    (forall o, In o os' <-> In o os /\ exists d, In d ds /\ f o d <> NaN) /\
    (forall d, In d ds' <-> In d ds /\ exists o, In o os /\ f o d <> NaN) /\
    (forall o d, In o os' -> In d ds' ->
       (first_in ds' d -> vleb (f o d) (Fin 0%Qc) = true -> cell_at (t_mat (ob_tri ob)) o d = Some (Fin 1%Qc)) /\
       (~ (first_in ds' d /\ vleb (f o d) (Fin 0%Qc) = true) -> cell_at (t_mat (ob_tri ob)) o d = Some (f o d))).
Proof.
  intros So Sd H (o0 & d0 & Ho0 & Hd0 & N0). set (l := tbl os ds f).
  assert (Hl : l <> []).
  { intro Q. assert (Q' : In (mkrec o0 d0 (f o0 d0)) l) by (apply in_tbl; cbn; auto). rewrite Q in Q'. contradiction. }
  exists (recs_frame "origin" "dev" "value" l), (mkObj (mkTri (build (adjusted l)) "origin" "dev" "value") None), (os_of l), (ds_of l).
  split; [cbn [to_tbl]; unfold to_tbl; cbn [t_o t_d t_v t_mat]; rewrite (to_tbl_recs_tbl m os ds f) by auto; reflexivity|].
  split.
  { apply totri_incr_table; try discriminate; auto. apply recs_frame_table; discriminate. }
  assert (B := build_holds (adjusted l)). rewrite adjusted_o, adjusted_d in B. fold (os_of l) (ds_of l) in B.
  assert (B' := B). destruct B' as (Bi & Bc & _). cbn [ob_tri t_mat]. split; [exact Bi|]. split; [exact Bc|].
  split; [apply os_sorted|]. split; [apply ds_sorted|].
  assert (Mo : forall o, In o (os_of l) <-> In o os /\ exists d, In d ds /\ f o d <> NaN).
  { intro o. unfold os_of. rewrite zuniq_in. rewrite in_map_iff. split.
    - intros (r & <- & Hr). apply in_tbl in Hr as (A & C & D & E). split; auto. exists (r_d r). rewrite <- D. auto.
    - intros (A & d & C & D). exists (mkrec o d (f o d)). split; auto. apply in_tbl. cbn. auto. }
  assert (Md : forall d, In d (ds_of l) <-> In d ds /\ exists o, In o os /\ f o d <> NaN).
  { intro d. unfold ds_of. rewrite zuniq_in. rewrite in_map_iff. split.
    - intros (r & <- & Hr). apply in_tbl in Hr as (A & C & D & E). split; auto. exists (r_o r). rewrite <- D. auto.
    - intros (A & o & C & D). exists (mkrec o d (f o d)). split; auto. apply in_tbl. cbn. auto. }
  split; [exact Mo|]. split; [exact Md|].
  intros o d Ho Hd.
  assert (CA : cell_at (build (adjusted l)) o d = Some (cell_total (adjusted l) o d)).
  { rewrite (holds_mk _ _ _ _ B). destruct (label_pos _ _ Ho) as (i & Hi & ->). destruct (label_pos _ _ Hd) as (j & Hj & ->).
    rewrite cell_at_mk; auto using zsorted_nodup, os_sorted, ds_sorted. }
  rewrite CA. destruct (isnan (f o d)) eqn:N.
  - apply isnan_true in N. rewrite N. split; [intros _ Q; discriminate Q|]. intros _. f_equal. unfold cell_total.
    destruct (values_at (adjusted l) o d) eqn:Q; auto. exfalso.
    assert (R : recorded l o d).
    { unfold recorded. destruct (in_dec key_dec (o, d) (map fst l)) as [|n]; auto. exfalso. rewrite <- adjusted_keys in n. apply values_at_nil in n. congruence. }
    apply tbl_recorded in R. tauto.
  - apply isnan_false in N.
    assert (Hr : In (mkrec o d (f o d)) l) by (apply in_tbl; cbn; apply Mo in Ho; apply Md in Hd; tauto).
    set (x := if is_first_dev l (mkrec o d (f o d)) && vleb (f o d) (Fin 0%Qc) then Fin 1%Qc else f o d).
    assert (V : cell_total (adjusted l) o d = x).
    { unfold cell_total. rewrite (values_at_nodup (adjusted l) o d x).
      - apply vadd_0_r'. unfold x. destruct (_ && _); [discriminate|auto].
      - rewrite adjusted_keys. apply tbl_keys_nodup; auto.
      - unfold adjusted. apply in_map_iff. exists (mkrec o d (f o d)). split; auto. }
    assert (Fd : is_first_dev l (mkrec o d (f o d)) = true <-> first_in (ds_of l) d).
    { unfold is_first_dev. rewrite forallb_forall. split.
      - intro A. split; auto. intros y Hy. unfold ds_of in Hy. rewrite zuniq_in in Hy. apply in_map_iff in Hy as (r & <- & Hy).
        apply A in Hy. apply Z.leb_le in Hy. exact Hy.
      - intros (_ & A) r Hr'. apply Z.leb_le. apply A. unfold ds_of. rewrite zuniq_in. apply in_map. auto. }
    rewrite V. unfold x. split.
    + intros Q1 Q2. apply Fd in Q1. rewrite Q1, Q2. reflexivity.
    + intro Q. f_equal. destruct (is_first_dev l (mkrec o d (f o d))) eqn:E1; [|reflexivity].
      destruct (vleb (f o d) (Fin 0%Qc)) eqn:E2; [|reflexivity]. exfalso. apply Q. split; [apply Fd; auto|auto].
Qed.

Theorem rebuild_incr_iff m os ds f : zsorted os -> zsorted ds -> holds m os ds f ->
  (exists o d, In o os /\ In d ds /\ f o d <> NaN) ->
  exists fr ob, to_tbl (mkTri m "origin" "dev" "value") true = Ok fr /\
    totri fr "incr" "incr" "tabular" "origin" "dev" "value" = Ok ob /\
    (t_mat (ob_tri ob) = m <-> covered os ds f /\ positive_first os ds f).
Proof.
  intros So Sd H Ex. destruct (rebuild_incr m os ds f So Sd H Ex) as (fr & ob & os' & ds' & E1 & E2 & Ei & Ec & _ & _ & Mo & Md & Cell).
  exists fr, ob. split; auto. split; auto. split.
  - intro Q. assert (H' := H). destruct H' as (Hi & Hc & _). rewrite Q, Hi in Ei. rewrite Q, Hc in Ec. subst os' ds'.
    assert (Cv : covered os ds f) by (split; [intros o Ho; apply Mo; auto|intros d Hd; apply Md; auto]).
    split; auto. intros o d Ho Hd Hf.
    destruct (isnan (f o d)) eqn:N; [left; apply isnan_true; auto|]. right. apply isnan_false in N.
    destruct (vleb (f o d) (Fin 0%Qc)) eqn:B.
    + exfalso. destruct (Cell o d Ho Hd) as (A & _). assert (Fi : first_in ds d) by (split; auto).
      specialize (A Fi B). rewrite Q, (holds_cell_at _ _ _ _ o d H Ho Hd) in A. injection A as A. rewrite A in B. discriminate B.
    + destruct (f o d); try congruence; try reflexivity; try discriminate B. cbn in *. apply qcltb_lt, Qcnot_le_lt. intro L. apply qcleb_le in L. congruence.
  - intros (Cv & P). destruct (c14_rebuild m os ds f) as (fr' & E1' & E2'); auto.
    { intro Q. destruct Ex as (o & d & Ho & _). rewrite Q in Ho. contradiction. }
    assert (fr' = fr) by congruence. subst. rewrite E2 in E2'. injection E2' as E. rewrite E. reflexivity.
Qed.
