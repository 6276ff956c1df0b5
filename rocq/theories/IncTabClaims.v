(** Incremental triangles of tables of cumulative losses (C82). *)

From Coq Require Import String Ascii QArith Qcanon ZArith List Bool Lia Permutation Sorting.Sorted.
From Verif Require Import Val Frame Triangle QcLib ListLib Spec SpecCum SpecCumTab SpecIncTab BuildFacts CumFacts FillFacts
  TotriFacts TblFacts TriClaims ConvFacts TriClaims2 TriClaims3 TriClaims5 CumExact CumTabClaims ConvIff.
Import ListNotations.
Open Scope list_scope.
Open Scope nat_scope.

Section Read.
  Variables (o d v : string).
  Hypothesis Hod : o <> d.
  Hypothesis Hov : o <> v.
  Hypothesis Hdv : d <> v.
  Hypothesis Ho1 : o <> "cum"%string.
  Hypothesis Hd1 : d <> "cum"%string.
  Hypothesis Ho2 : o <> "incr"%string.
  Hypothesis Hd2 : d <> "incr"%string.

  (** The frame handed to the constructor. *)
  Lemma totri_frame_cum f l : table_in f o d v l -> (v = "cum"%string \/ ~ In "cum"%string (map fst f)) ->
    exists h r, totri_frame [f] (DFrame 0) "cum" "tabular" o d v = (h, Ok r) /\ table_in (hget h r) o d v (inc_recs l).
  Proof.
    intros T Hc. destruct (rename_cum o d v Hov Hdv f l T Hc) as [T1 Hv].
    unfold totri_frame. cbn [String.eqb Ascii.eqb Bool.eqb].
    change (strip_starts "c" "cum") with true. cbv iota. unfold halloc.
    change (hget [f] 0) with f. set (f1 := frename f v "cum") in *.
    assert (T1' := T1). destruct T1' as (N1 & To & Td & Tv).
    rewrite (fint_in _ _ _ N1 To), (fval_in _ _ _ N1 Tv). rewrite combine_map_lr.
    change (map (fun x => (r_o x, r_v x)) l) with (map ov l).
    assert (Ei : map (fun p => if isnan (fst p) then snd p else fst p)
                   (combine (group_diff (map ov l)) (map r_v l)) = incs (map ov l)).
    { unfold incs. rewrite map_map. reflexivity. }
    rewrite Ei.
    assert (Hd : exists f2, fdrop (fset f1 "incr" (VC (incs (map ov l)))) "cum" = Ok f2).
    { unfold fdrop. assert (E : fhas (fset f1 "incr" (VC (incs (map ov l)))) "cum" = true).
      { apply fhas_in. apply (fset_in_other f1 "incr" (VC (incs (map ov l)))) in Tv; [|discriminate].
        change "cum"%string with (fst ("cum"%string, VC (map r_v l))). apply in_map; auto. }
      rewrite E. eauto. }
    destruct Hd as [f2 E2]. rewrite E2.
    assert (T3 := incr_frame o d v Hov Hdv Ho1 Hd1 Ho2 Hd2 f1 l (incs (map ov l)) f2 T1 Hv
                    (eq_trans (incs_length _) (map_length _ _)) E2).
    fold (inc_recs l) in T3. eexists _, _. split; [reflexivity|]. rewrite hget_last. exact T3.
  Qed.

  Lemma totri_incr_cum f l : table_in f o d v l -> (v = "cum"%string \/ ~ In "cum"%string (map fst f)) -> l <> [] ->
    totri f "incr" "cum" "tabular" o d v = Ok (mkObj (mkTri (build (adjusted (inc_recs l))) o d v) None).
  Proof.
    intros T Hc Hl. destruct (totri_frame_cum f l T Hc) as (h & r & E & T').
    unfold totri, totri_h. rewrite E. unfold halloc. change (starts "i" "incr") with true. cbv iota.
    unfold incr_ctor. cbn [dflt].
    rewrite (base_ctor_table o d v Hod Hov Hdv _ _ (hget h r) (inc_recs l)); auto.
    - rewrite hget_last. auto.
    - intro Q. apply Hl. apply length_zero_iff_nil. rewrite <- inc_length, Q. auto.
  Qed.
End Read.

Lemma diff_nth zs : forall seen k, k < length zs ->
  nth k (group_diff_from seen zs) NaN =
  vsub (snd (nth k zs (0%Z, NaN))) (last (vals_of (fst (nth k zs (0%Z, NaN))) (seen ++ firstn k zs)) NaN).
Proof.
  induction zs as [|[o v] zs IH]; intros seen k Hk; [simpl in Hk; lia|]. destruct k.
  - cbn [group_diff_from nth firstn fst snd]. rewrite app_nil_r, last_of_vals. auto.
  - cbn [group_diff_from nth firstn]. rewrite IH by (simpl in Hk; lia). rewrite <- app_assoc. reflexivity.
Qed.

Lemma inc_row_value l k : no_inf l -> k < length l -> r_v (row (inc_recs l) k) = increment l k.
Proof.
  intros NI Hk.
  assert (E : r_v (row (inc_recs l) k) = nth k (incs (map ov l)) NaN).
  { rewrite <- inc_recs_v. symmetry. exact (map_nth r_v (inc_recs l) ((0%Z, 0%Z), NaN) k). }
  refine (eq_trans E _). unfold incs.
  assert (L1 : length (group_diff (map ov l)) = length l) by (unfold group_diff; rewrite group_diff_from_length, map_length; auto).
  assert (N : nth k (map fixnan (combine (group_diff (map ov l)) (map snd (map ov l)))) NaN
    = fixnan (nth k (group_diff (map ov l)) NaN, nth k (map snd (map ov l)) NaN)).
  { change NaN with (fixnan (NaN, NaN)) at 1. rewrite map_nth. f_equal. apply combine_nth. rewrite !map_length. auto. }
  rewrite N. clear N E.
  assert (V : nth k (map snd (map ov l)) NaN = r_v (row l k)).
  { rewrite map_map. exact (map_nth r_v l ((0%Z, 0%Z), NaN) k). }
  assert (Q : nth k (map ov l) (0%Z, NaN) = ov (row l k)) by exact (map_nth ov l ((0%Z, 0%Z), NaN) k).
  unfold group_diff. rewrite diff_nth by (rewrite map_length; auto). rewrite Q, V. unfold ov at 1 2. cbn [fst snd app].
  assert (A : vals_of (r_o (row l k)) (firstn k (map ov l)) = above l k).
  { unfold vals_of, above. rewrite firstn_map. apply filter_ov. }
  rewrite A. unfold fixnan, increment. cbn [fst snd].
  assert (Iv : okv (r_v (row l k))) by (apply NI, nth_In; auto).
  assert (Ia : okv (last (above l k) NaN)).
  { assert (W : forall x, In x (above l k) -> okv x).
    { intros x Hx. unfold above in Hx. apply in_map_iff in Hx as (r & <- & Hr). apply filter_In in Hr as [Hr _].
      apply NI. rewrite <- (firstn_skipn k l). apply in_app_iff. auto. }
    destruct (above l k) as [|a s]; [split; discriminate|]. apply W.
    destruct (exists_last (l := a :: s)) as (q & z & Eq); [discriminate|]. rewrite Eq, last_last. apply in_app_iff. simpl. auto. }
  destruct (r_v (row l k)), (last (above l k) NaN); destruct Iv, Ia; try congruence; reflexivity.
Qed.

Lemma booked_inc_v l k : no_inf l -> k < length l ->
  r_v (row (adjusted (inc_recs l)) k) = booked_inc l k.
Proof.
  intros NI Hk.
  assert (E : row (adjusted (inc_recs l)) k = (fst (row (inc_recs l) k),
     if is_first_dev (inc_recs l) (row (inc_recs l) k) && vleb (r_v (row (inc_recs l) k)) (Fin 0%Qc)
     then Fin 1%Qc else r_v (row (inc_recs l) k))).
  { unfold row at 1, adjusted. rewrite nth_indep with (d' := (fun r => (fst r, if is_first_dev (inc_recs l) r && vleb (r_v r) (Fin 0%Qc)
       then Fin 1%Qc else r_v r)) ((0, 0)%Z, NaN)) by (rewrite map_length, inc_length; auto).
    exact (map_nth (fun r => (fst r, if is_first_dev (inc_recs l) r && vleb (r_v r) (Fin 0%Qc) then Fin 1%Qc else r_v r))
      (inc_recs l) ((0, 0)%Z, NaN) k). }
  rewrite E. unfold r_v at 1. cbn [snd]. unfold booked_inc. rewrite inc_row_value by auto.
  rewrite (first_dev_ext (inc_recs l) l (row (inc_recs l) k) (row l k)); auto using inc_recs_d.
  unfold r_d. rewrite inc_row_key. auto.
Qed.

(** Values of a cell by the positions of its rows. *)
Lemma values_rows l o d : values_at l o d =
  map (fun k => r_v (row l k)) (filter (fun k => (r_o (row l k) =? o)%Z && (r_d (row l k) =? d)%Z) (seq 0 (length l))).
Proof.
  unfold values_at. transitivity (map r_v (filter (fun r => (r_o r =? o)%Z && (r_d r =? d)%Z) (map (row l) (seq 0 (length l))))).
  - f_equal. f_equal. unfold row. clear. induction l as [|a l IH]; auto. cbn [length seq map nth]. f_equal.
    rewrite <- seq_shift, map_map. exact IH.
  - generalize (seq 0 (length l)). intro s. induction s as [|k s IH]; auto. cbn [map filter].
    destruct ((r_o (row l k) =? o)%Z && (r_d (row l k) =? d)%Z); cbn [map]; rewrite IH; auto.
Qed.

Lemma inc_total l o d : no_inf l -> recorded l o d -> cell_total (adjusted (inc_recs l)) o d = inc_at l o d.
Proof.
  intros NI R. unfold cell_total, inc_at.
  assert (V : values_at (adjusted (inc_recs l)) o d =
    map (booked_inc l) (filter (fun k => (r_o (row l k) =? o)%Z && (r_d (row l k) =? d)%Z) (seq 0 (length l)))).
  { rewrite values_rows.
    assert (L : length (adjusted (inc_recs l)) = length l) by (unfold adjusted; rewrite map_length; apply inc_length).
    rewrite L.
    assert (K : forall k, fst (row (adjusted (inc_recs l)) k) = fst (row l k)).
    { intro k. rewrite <- (inc_row_key l k).
      transitivity (nth k (map fst (adjusted (inc_recs l))) (0%Z, 0%Z)); [symmetry; exact (map_nth fst (adjusted (inc_recs l)) ((0%Z, 0%Z), NaN) k)|].
      rewrite adjusted_keys. exact (map_nth fst (inc_recs l) ((0%Z, 0%Z), NaN) k). }
    rewrite (filter_ext _ (fun k => (r_o (row l k) =? o)%Z && (r_d (row l k) =? d)%Z)).
    - apply map_ext_in. intros k Hk. apply filter_In in Hk as [Hk _]. apply in_seq in Hk. apply booked_inc_v; auto. lia.
    - intro k. unfold r_o, r_d. rewrite K. auto. }
  rewrite V.
  destruct (map (booked_inc l) _) as [|a w] eqn:E; auto. exfalso.
  assert (R' : values_at (adjusted (inc_recs l)) o d <> []).
  { unfold values_at. unfold recorded in R. rewrite <- (inc_recs_keys l), <- (adjusted_keys (inc_recs l)) in R.
    apply in_map_iff in R as (r & Er & Hr).
    assert (G : In r (filter (fun r => (r_o r =? o)%Z && (r_d r =? d)%Z) (adjusted (inc_recs l)))).
    { apply filter_In. split; auto. unfold r_o, r_d. rewrite Er. cbn. rewrite !Z.eqb_refl. auto. }
    intro Z. apply map_eq_nil in Z. rewrite Z in G. destruct G. }
  apply R'. rewrite V. auto.
Qed.

Lemma unrecorded_total l o d : ~ recorded l o d -> cell_total l o d = NaN.
Proof.
  intro N. unfold cell_total, values_at. rewrite filter_none; auto.
  intros r Hr. destruct ((r_o r =? o)%Z && (r_d r =? d)%Z) eqn:E; auto. exfalso. apply N.
  apply andb_prop in E as [E1 E2]. apply Z.eqb_eq in E1, E2. unfold recorded. apply in_map_iff. exists r. split; auto.
  revert E1 E2. unfold r_o, r_d. destruct r as [[a b] u]. cbn. congruence.
Qed.

Theorem c82_exactly : forall (o d v : string), o <> d -> o <> v -> d <> v ->
    o <> "cum"%string -> d <> "cum"%string -> o <> "incr"%string -> d <> "incr"%string ->
  forall (f : frame) (l : list rec),
    table_in f o d v l -> (v = "cum"%string \/ ~ In "cum"%string (map fst f)) -> l <> [] -> no_inf l ->
    exists ob, totri f "incr" "cum" "tabular" o d v = Ok ob /\
      let m := t_mat (ob_tri ob) in
      distinct_sorted (m_idx m) (map r_o l) /\ distinct_sorted (m_cols m) (map r_d l) /\
      forall og dv, In og (map r_o l) -> In dv (map r_d l) ->
        (recorded l og dv -> cell_at m og dv = Some (inc_at l og dv)) /\
        (~ recorded l og dv -> cell_at m og dv = Some NaN).
Proof.
  intros o d v Hod Hov Hdv Ho1 Hd1 Ho2 Hd2 f l T Hc Hl NI. eexists.
  split; [apply (totri_incr_cum o d v Hod Hov Hdv Ho1 Hd1 Ho2 Hd2 f l T Hc Hl)|]. cbn [ob_tri t_mat].
  assert (H := build_holds (adjusted (inc_recs l))). rewrite adjusted_o, adjusted_d, inc_recs_o, inc_recs_d in H.
  apply holds_mk in H. rewrite H. cbn [m_idx m_cols].
  split; [apply zuniq_distinct|]. split; [apply zuniq_distinct|]. intros og dv Ho Hd.
  apply zuniq_in in Ho, Hd. destruct (label_pos _ _ Ho) as (i & Hi & Ei). destruct (label_pos _ _ Hd) as (j & Hj & Ej).
  assert (C : cell_at (mkMat (zuniq (map r_o l)) (zuniq (map r_d l)) (mk (length (zuniq (map r_o l))) (length (zuniq (map r_d l)))
     (fun i j => cell_total (adjusted (inc_recs l)) (nth i (zuniq (map r_o l)) 0%Z) (nth j (zuniq (map r_d l)) 0%Z)))) og dv
    = Some (cell_total (adjusted (inc_recs l)) og dv)).
  { rewrite Ei, Ej. apply cell_at_mk; auto; apply zsorted_nodup, zuniq_sorted. }
  split; intro R.
  - rewrite <- inc_total by auto. exact C.
  - rewrite <- (unrecorded_total (adjusted (inc_recs l)) og dv); [exact C|]. unfold recorded. rewrite adjusted_keys, inc_recs_keys. auto.
Qed.

(** ** Cumulating the incremental triangle *)

Lemma sum_changed (g h : rec -> val) p a b s : NoDup s -> In p s -> (forall y, In y s -> y <> p -> g y = h y) ->
  (forall y, In y s -> exists q, g y = Fin q) -> g p = Fin a -> h p = Fin b ->
  forall x, nan_sum (map g s) = Fin x -> nan_sum (map h s) = Fin (x + b - a)%Qc.
Proof.
  intros N Hp E F Ga Hb. induction s as [|y s IH]; [destruct Hp|]. inversion N as [|? ? N1 N2]; subst.
  assert (C : forall w : list rec, (forall y, In y w -> exists q, g y = Fin q) -> exists z, nan_sum (map g w) = Fin z).
  { intros w Fw. apply nan_sum_fin. intros u Hu. apply in_map_iff in Hu as (r & <- & Hr). auto. }
  destruct (C s) as [z Ez]; [intros; apply F; right; auto|].
  unfold nan_sum in *. cbn [map fold_right]. intros x. rewrite Ez. destruct Hp as [->|Hp].
  - assert (M : map h s = map g s).
    { apply map_ext_in. intros r Hr. symmetry. apply E; [right; auto|]. intros ->. contradiction. }
    rewrite M, Ez, Ga, Hb. cbn. intro H. assert (H1 : (a + z)%Qc = x) by congruence. subst x. f_equal. ring.
  - assert (Ny : y <> p) by (intros ->; contradiction).
    rewrite (IH N2 Hp) with (x := z); auto.
    + destruct (F y (or_introl eq_refl)) as [q Q]. rewrite <- (E y (or_introl eq_refl) Ny), Q. cbn. intro H.
      assert (H1 : (q + z)%Qc = x) by congruence. subst x. f_equal. ring.
    + intros r Hr. apply E. right; auto.
    + intros r Hr. apply F. right; auto.
Qed.

Lemma rec_key_eq (l : list rec) a b : NoDup (map fst l) -> In a l -> In b l -> fst a = fst b -> a = b.
Proof.
  intros ND Ha Hb K. destruct (In_nth _ _ a Ha) as (i & Hi & Ei). destruct (In_nth _ _ a Hb) as (j & Hj & Ej).
  assert (i = j).
  { apply (proj1 (NoDup_nth (map fst l) (fst a)) ND); rewrite ?map_length; auto.
    transitivity (fst (nth i l a)); [exact (map_nth fst l a i)|].
    transitivity (fst (nth j l a)); [|symmetry; exact (map_nth fst l a j)].
    transitivity (fst a); [f_equal; exact Ei|]. transitivity (fst b); [exact K|f_equal; symmetry; exact Ej]. }
  congruence.
Qed.

Lemma running_floored l o d p q x : dev_sorted l -> all_finite l -> In p l -> r_o p = o -> first_dev l (r_d p) ->
  In d (map r_d l) -> r_v p = Fin q -> (q <= 0)%Qc -> running_total l o d = Fin x ->
  running_total (adjusted l) o d = Fin (x + 1 - q)%Qc.
Proof.
  intros DS F Hp Eo FD Hd Q L Hx. rewrite running_adjusted. assert (ND := dev_sorted_nodup l DS).
  assert (Dp : is_first_dev l p = true) by (apply is_first_dev_spec; [apply in_map|]; auto).
  apply (sum_changed r_v (adjv l) p).
  - apply NoDup_filter. apply NoDup_map_inv in ND. auto.
  - apply filter_In. split; auto. rewrite Eo, Z.eqb_refl. cbn [andb]. apply Z.leb_le. apply (proj2 FD); auto.
  - intros y Hy Ny. apply filter_In in Hy as [Hy W]. apply andb_prop in W as [W _]. apply Z.eqb_eq in W.
    unfold adjv. destruct (is_first_dev l y) eqn:D; auto. exfalso. apply Ny. apply (rec_key_eq l); auto.
    apply is_first_dev_spec in D; [|apply in_map; auto].
    assert (r_d y = r_d p).
    { assert (A := proj2 FD (r_d y) (in_map r_d _ _ Hy)). assert (B := proj2 D (r_d p) (in_map r_d _ _ Hp)). lia. }
    revert W Eo H. unfold r_o, r_d. destruct y as [[? ?] ?], p as [[? ?] ?]. cbn. congruence.
  - intros y Hy. apply filter_In in Hy as [Hy _]. auto.
  - exact Q.
  - unfold adjv. rewrite Dp, Q. cbn [andb vleb]. destruct (qcleb_spec q 0) as [|N]; [auto|contradiction].
  - exact Hx.
Qed.

Lemma running_kept l o d : (forall p, In p l -> r_o p = o -> first_dev l (r_d p) -> vleb (r_v p) (Fin 0%Qc) = false) ->
  running_total (adjusted l) o d = running_total l o d.
Proof.
  intro H. rewrite running_adjusted. unfold running_total. f_equal. apply map_ext_in. intros y Hy.
  apply filter_In in Hy as [Hy W]. apply andb_prop in W as [W _]. apply Z.eqb_eq in W.
  unfold adjv. destruct (is_first_dev l y) eqn:D; auto. apply is_first_dev_spec in D; [|apply in_map; auto].
  rewrite (H y); auto.
Qed.

Lemma inc_sorted l : dev_sorted l -> dev_sorted (inc_recs l).
Proof.
  unfold dev_sorted. intro H.
  assert (K : forall s t : list rec, map fst s = map fst t ->
    StronglySorted (fun a b => r_o a = r_o b -> (r_d a < r_d b)%Z) s -> StronglySorted (fun a b => r_o a = r_o b -> (r_d a < r_d b)%Z) t).
  { clear. induction s as [|a s IH]; intros [|b t] E H; try discriminate; [constructor|]. cbn in E.
    assert (E1 : fst a = fst b) by congruence. assert (E2 : map fst s = map fst t) by congruence.
    inversion H; subst. constructor; [apply IH; auto|]. rewrite Forall_forall in *. intros y Hy.
    assert (G : In (fst y) (map fst s)) by (rewrite E2; apply in_map; auto).
    apply in_map_iff in G as (z & Ez & Hz). assert (P := H3 z Hz). unfold r_o, r_d in *. rewrite <- E1, <- Ez. auto. }
  apply (K l); auto. symmetry. apply inc_recs_keys.
Qed.
Lemma inc_all_finite l : all_finite l -> all_finite (inc_recs l).
Proof.
  intros F r Hr. destruct (In_nth _ _ ((0%Z, 0%Z), NaN) Hr) as (k & Hk & E). rewrite inc_length in Hk.
  change (row (inc_recs l) k = r) in E. subst r. rewrite inc_row_value by (auto using all_finite_noinf).
  unfold increment. destruct (F (row l k)) as [q ->]; [apply nth_In; auto|]. destruct (last (above l k) NaN); eauto.
Qed.
Lemma carried_finite vs : (forall v, In v vs -> exists q, v = Fin q) -> carried vs = 0%Qc.
Proof.
  induction vs as [|a r IH]; intro H; auto. destruct (H a (or_introl eq_refl)) as [q ->].
  destruct r as [|b r]; [auto|]. destruct (H b (or_intror (or_introl eq_refl))) as [p ->].
  change (carried (Fin p :: r) = 0%Qc). apply IH. intros; apply H; right; auto.
Qed.
Lemma reading_finite l k : all_finite l -> k < length l -> reading l k = r_v (row l k).
Proof.
  intros F Hk. unfold reading. rewrite carried_finite.
  - destruct (r_v (row l k)); auto. rewrite Qcplus_0_r. auto.
  - intros v Hv. unfold above in Hv. apply in_map_iff in Hv as (r & <- & Hr). apply filter_In in Hr as [Hr _].
    apply F. rewrite <- (firstn_skipn k l). apply in_app_iff. auto.
Qed.

Lemma row_total_running l k : dev_sorted l -> all_finite l -> k < length l ->
  row_total l k = running_total l (r_o (row l k)) (r_d (row l k)).
Proof.
  intros DS F Hk. assert (E := nth_split_eq l k ((0%Z, 0%Z), NaN) Hk). fold (row l k) in E.
  assert (N : r_v (row l k) <> NaN) by (destruct (F (row l k)) as [q ->]; [apply nth_In; auto|discriminate]).
  assert (DS' : dev_sorted (firstn k l ++ row l k :: skipn (S k) l)) by (rewrite <- E; auto).
  assert (R := run_val_sorted (firstn k l) (row l k) (skipn (S k) l) DS' N). rewrite <- E in R. rewrite <- R.
  unfold row_total, run_val. rewrite (firstn_S_nth l k ((0%Z, 0%Z), NaN)) by auto. reflexivity.
Qed.

Lemma inc_running l k : dev_sorted l -> all_finite l -> k < length l ->
  running_total (inc_recs l) (r_o (row l k)) (r_d (row l k)) = r_v (row l k).
Proof.
  intros DS F Hk.
  assert (A := row_total_running (inc_recs l) k (inc_sorted l DS) (inc_all_finite l F)). rewrite inc_length in A. specialize (A Hk).
  unfold r_o at 1, r_d at 1 in A. rewrite inc_row_key in A.
  rewrite inc_reading in A by (auto using all_finite_noinf). rewrite reading_finite in A by auto. symmetry. exact A.
Qed.

(** The first record of an origin keeps its value. *)
Lemma above_first l k : dev_sorted l -> k < length l -> first_dev l (r_d (row l k)) -> above l k = [].
Proof.
  intros DS Hk FD. unfold above. rewrite filter_none; auto. intros x Hx.
  destruct (Z.eqb_spec (r_o x) (r_o (row l k))) as [e|]; auto. exfalso.
  assert (E := nth_split_eq l k ((0%Z, 0%Z), NaN) Hk). fold (row l k) in E.
  assert (H := ssorted_app_inv (fun a b : rec => r_o a = r_o b -> (r_d a < r_d b)%Z) (firstn k l) (row l k :: skipn (S k) l)). rewrite <- E in H.
  specialize (H DS x (row l k) Hx (or_introl eq_refl) e).
  assert (Hl : In x l) by (rewrite <- (firstn_skipn k l); apply in_app_iff; auto).
  assert (G := proj2 FD (r_d x) (in_map r_d _ _ Hl)). lia.
Qed.
Lemma inc_first_value l k : dev_sorted l -> all_finite l -> k < length l -> first_dev l (r_d (row l k)) ->
  r_v (row (inc_recs l) k) = r_v (row l k).
Proof.
  intros DS F Hk FD. rewrite inc_row_value by (auto using all_finite_noinf). unfold increment.
  rewrite above_first by auto. cbn [last]. destruct (r_v (row l k)); auto.
Qed.

Theorem c82_cumulated : forall (f : frame) (l : list rec),
    table_in f "origin" "dev" "value" l -> ~ In "cum"%string (map fst f) -> l <> [] -> all_finite l -> dev_sorted l ->
    exists ob m, totri f "incr" "cum" "tabular" "origin" "dev" "value" = Ok ob /\
      to_cum (ob_tri ob) = Ok (mkTri m "origin" "dev" "value") /\
      forall r x, In r l -> r_v r = Fin x ->
        (~ (exists p, In p l /\ r_o p = r_o r /\ first_dev l (r_d p) /\ vleb (r_v p) (Fin 0%Qc) = true) ->
           cell_at m (r_o r) (r_d r) = Some (Fin x)) /\
        (forall p q, In p l -> r_o p = r_o r -> first_dev l (r_d p) -> r_v p = Fin q -> (q <= 0)%Qc ->
           cell_at m (r_o r) (r_d r) = Some (Fin (x + 1 - q)%Qc)).
Proof.
  intros f l T Hc Hl F DS.
  set (g := [("origin"%string, ZC (map r_o (inc_recs l))); ("dev"%string, ZC (map r_d (inc_recs l))); ("value"%string, VC (map r_v (inc_recs l)))]).
  assert (Ng : inc_recs l <> []).
  { intro E. apply Hl. apply length_zero_iff_nil. rewrite <- inc_length, E. auto. }
  assert (Tg : table_in g "origin" "dev" "value" (inc_recs l)) by (apply table_any; discriminate).
  destruct (incr_to_cum_all g (inc_recs l) Tg Ng (inc_all_finite l F)) as (ob & m & E1 & E2 & H).
  exists ob, m. split; [|split; [exact E2|]].
  - rewrite <- E1. rewrite (totri_incr_cum "origin" "dev" "value") with (l := l); try discriminate; auto.
    rewrite (totri_incr_table "origin" "dev" "value") with (l := inc_recs l); try discriminate; auto.
  - intros r x Hr Q. destruct (In_nth _ _ ((0%Z, 0%Z), NaN) Hr) as (k & Hk & E). change (row l k = r) in E.
    assert (R : recorded (inc_recs l) (r_o r) (r_d r)).
    { apply inc_recorded. unfold recorded. apply in_map_iff. exists r. split; auto. destruct r as [[? ?] ?]; auto. }
    assert (C : cell_at m (r_o r) (r_d r) = Some (running_total (adjusted (inc_recs l)) (r_o r) (r_d r))).
    { apply holds_mk in H. rewrite H.
      destruct (label_pos _ _ (recorded_os _ _ _ R)) as (i & Hi & Ei). destruct (label_pos _ _ (recorded_ds _ _ _ R)) as (j & Hj & Ej).
      rewrite Ei, Ej. rewrite cell_at_mk; auto; try (apply zsorted_nodup; auto using os_sorted, ds_sorted).
      rewrite <- Ei, <- Ej, adjusted_total; auto using inc_all_finite. }
    assert (V : running_total (inc_recs l) (r_o r) (r_d r) = Fin x).
    { rewrite <- Q, <- E. apply inc_running; auto. }
    assert (Dr : In (r_d r) (map r_d (inc_recs l))) by (rewrite inc_recs_d; apply in_map; auto).
    split.
    + intro N. rewrite C, running_kept; [rewrite V; auto|].
      intros p Hp Eo FD. destruct (vleb (r_v p) (Fin 0%Qc)) eqn:W; auto. exfalso. apply N.
      destruct (In_nth _ _ ((0%Z, 0%Z), NaN) Hp) as (i & Hi & Ei). change (row (inc_recs l) i = p) in Ei. rewrite inc_length in Hi.
      apply (inc_first l) in FD. subst p. unfold r_o in Eo. rewrite inc_row_key in Eo. unfold r_d in FD. rewrite inc_row_key in FD.
      exists (row l i). split; [apply nth_In; auto|]. split; [exact Eo|]. split; [exact FD|].
      rewrite <- inc_first_value; auto.
    + intros p q Hp Eo FD Qp L. destruct (In_nth _ _ ((0%Z, 0%Z), NaN) Hp) as (i & Hi & Ei). change (row l i = p) in Ei.
      rewrite C. f_equal. apply (running_floored _ _ _ (row (inc_recs l) i)); auto using inc_sorted, inc_all_finite.
      * apply nth_In. rewrite inc_length. auto.
      * unfold r_o at 1. rewrite inc_row_key, Ei. exact Eo.
      * apply inc_first. unfold r_d. rewrite inc_row_key, Ei. exact FD.
      * rewrite inc_first_value; auto; rewrite Ei; auto.
Qed.
