(** Stacked companies: the cells of the cumulative triangle (C04). *)

From Coq Require Import String Ascii QArith Qcanon ZArith List Bool Lia Permutation Sorting.Sorted.
From Verif Require Import Val Frame Triangle QcLib ListLib Spec SpecCum SpecStack BuildFacts CumFacts FillFacts
  TotriFacts TblFacts TriClaims ConvFacts TriClaims2 TriClaims3 TriClaims5 CumExact CumTabClaims.
Import ListNotations.
Open Scope list_scope.
Open Scope nat_scope.

(** The records of a block, cumulated after [seen]. *)
Definition cfrom (seen : list (Z * val)) (l : list rec) : list rec :=
  combine (map fst l) (group_cumsum_from seen (map ov l)).
Lemma cfrom_app seen a b : cfrom seen (a ++ b) = cfrom seen a ++ cfrom (seen ++ map ov a) b.
Proof.
  unfold cfrom. rewrite !map_app, group_cumsum_from_app. apply combine_app_eq.
  rewrite group_cumsum_from_length, !map_length. auto.
Qed.
Lemma cfrom_keys seen l : map fst (cfrom seen l) = map fst l.
Proof. unfold cfrom. apply map_fst_combine. rewrite group_cumsum_from_length, !map_length. auto. Qed.

Lemma reports_spec c o d : reports c o d = true <-> recorded c o d.
Proof.
  unfold reports, recorded. rewrite existsb_exists, in_map_iff. split.
  - intros (r & Hr & E). apply andb_prop in E as [A B]. apply Z.eqb_eq in A, B. exists r. split; auto.
    destruct r as [[? ?] ?]. cbn in *. subst. auto.
  - intros (r & E & Hr). exists r. split; auto. unfold r_o, r_d. rewrite E. cbn. rewrite !Z.eqb_refl. auto.
Qed.

Definition flr (fd : bool) (l : list rec) : list rec := map (fun r => (fst r, floored fd (r_v r))) l.

Lemma values_map (g : rec -> val) (l : list rec) o d :
  values_at (map (fun r : rec => (fst r, g r)) l) o d = map g (filter (fun r => (r_o r =? o)%Z && (r_d r =? d)%Z) l).
Proof.
  unfold values_at. induction l as [|r l IH]; auto. cbn [map filter]. unfold r_o at 1, r_d at 1. cbn [fst].
  fold (r_o r) (r_d r). destruct ((r_o r =? o)%Z && (r_d r =? d)%Z); cbn [map]; rewrite IH; auto.
Qed.
Lemma values_flr fd l o d : values_at (flr fd l) o d = map (floored fd) (values_at l o d).
Proof.
  unfold values_at, flr. induction l as [|r l IH]; auto. cbn [map filter]. unfold r_o at 1, r_d at 1. cbn [fst].
  fold (r_o r) (r_d r). destruct ((r_o r =? o)%Z && (r_d r =? d)%Z); cbn [map]; rewrite IH; auto.
Qed.
Lemma values_app a b o d : values_at (a ++ b) o d = values_at a o d ++ values_at b o d.
Proof. unfold values_at. rewrite filter_app, map_app. auto. Qed.

Lemma block_values seen c o d : all_finite c -> dev_sorted c ->
  values_at (cfrom seen c) o d = if reports c o d then [vadd (osum o seen) (running_total c o d)] else [].
Proof.
  intros F S. destruct (reports c o d) eqn:R.
  - apply reports_spec in R. destruct (recorded_split _ _ _ R) as (a & r & b & -> & Er).
    assert (Eo : r_o r = o) by (unfold r_o; rewrite Er; auto).
    assert (Ed : r_d r = d) by (unfold r_d; rewrite Er; auto).
    assert (Hr : In r (a ++ r :: b)) by (apply in_app_iff; right; left; auto).
    assert (Hv : r_v r <> NaN) by (destruct (F r Hr) as [q ->]; discriminate).
    apply values_at_nodup; [rewrite cfrom_keys; apply dev_sorted_nodup; auto|].
    rewrite cfrom_app. apply in_app_iff. right. unfold cfrom. cbn [map combine group_cumsum_from ov]. left.
    rewrite Er. f_equal.
    assert (W := run_val_sorted a r b S Hv). rewrite Eo, Ed in W. rewrite <- W. unfold run_val.
    unfold ov at 1. destruct (isnan (r_v r)) eqn:N; [apply isnan_true in N; contradiction|].
    rewrite <- skipsum_nan_sum, <- filter_ov. rewrite Eo.
    change (osum o ((seen ++ map ov a) ++ [(o, r_v r)]) = vadd (osum o seen) (osum o (map ov (a ++ [r])))).
    rewrite map_app. cbn [map]. unfold ov at 3. rewrite Eo. rewrite !osum_app. rewrite vadd_assoc. auto.
  - apply values_at_nil. unfold recorded. rewrite cfrom_keys. intro Q. apply reports_spec in Q. congruence.
Qed.

Lemma running_finite c o d : all_finite c -> exists q, running_total c o d = Fin q.
Proof. apply running_total_fin. Qed.
Lemma origin_total_osum c o : origin_total c o = osum o (map ov c).
Proof. unfold origin_total, osum. rewrite filter_ov, skipsum_nan_sum. auto. Qed.
Lemma osum_finite o s : (forall p, In p s -> exists q, snd p = Fin q) -> exists q, osum o s = Fin q.
Proof.
  intro H. unfold osum. rewrite skipsum_nan_sum. apply nan_sum_fin. intros v Hv.
  apply in_map_iff in Hv as (p & <- & Hp). apply filter_In in Hp as [Hp _]. auto.
Qed.

Lemma stack_values fd cs o d : (forall c, In c cs -> all_finite c /\ dev_sorted c) ->
  forall seen, (forall p, In p seen -> exists q, snd p = Fin q) ->
  nan_sum (values_at (flr fd (cfrom seen (List.concat cs))) o d) = stacked fd (osum o seen) cs o d.
Proof.
  induction cs as [|c cs IH]; intros H seen Fs; [reflexivity|].
  cbn [List.concat stacked]. rewrite values_flr, cfrom_app, values_app, map_app, nan_sum_app.
  destruct (H c (or_introl eq_refl)) as [F S].
  f_equal.
  - rewrite block_values by auto. destruct (reports c o d); [|reflexivity]. cbn [map].
    destruct (osum_finite o seen Fs) as [q ->]. destruct (running_finite c o d F) as [p ->]. cbn [vadd].
    unfold floored. destruct (fd && vleb (Fin (q + p)%Qc) (Fin 0%Qc)); unfold nan_sum; cbn; rewrite Qcplus_0_r; auto.
  - rewrite <- values_flr, IH.
    + rewrite osum_app, origin_total_osum. auto.
    + intros; apply H; right; auto.
    + intros p Hp. apply in_app_iff in Hp as [Hp|Hp]; auto. apply in_map_iff in Hp as (r & <- & Hr).
      destruct (F r Hr) as [q E]. exists q. auto.
Qed.

Lemma concat_finite cs : (forall c, In c cs -> all_finite c /\ dev_sorted c) -> all_finite (List.concat cs).
Proof.
  intros H r Hr. apply in_concat in Hr as (c & Hc & Hr). destruct (H c Hc) as [F _]. auto.
Qed.

Lemma stack_cell cs o d : (forall c, In c cs -> all_finite c /\ dev_sorted c) -> recorded (List.concat cs) o d ->
  booked_at (List.concat cs) o d = stacked (earliest (List.concat cs) d) (Fin 0%Qc) cs o d.
Proof.
  intros H R. rewrite <- ucell_booked by auto. unfold ucell.
  change (Fin 0%Qc) with (osum o []). rewrite <- stack_values by (auto; intros p []).
  change (cfrom [] (List.concat cs)) with (cum_recs (List.concat cs)). set (l := List.concat cs) in *.
  assert (E : values_at (adjusted (cum_recs l)) o d = values_at (flr (earliest l d) (cum_recs l)) o d).
  { unfold adjusted, flr. rewrite !values_map. apply map_ext_in. intros r Hr. apply filter_In in Hr as [_ Q].
    apply andb_prop in Q as [_ Q]. apply Z.eqb_eq in Q. unfold floored.
    assert (K : is_first_dev (cum_recs l) r = earliest l d).
    { unfold is_first_dev, earliest. rewrite Q.
      assert (M : forall s, forallb (fun x => (d <=? r_d x)%Z) s = forallb (fun y => (d <=? y)%Z) (map r_d s)).
      { clear. induction s as [|a s IH]; cbn; auto. rewrite IH. auto. }
      rewrite !M, cum_recs_d. auto. }
    rewrite K. auto. }
  unfold cell_total. rewrite E. destruct (values_at (flr (earliest l d) (cum_recs l)) o d) eqn:Q; auto.
  exfalso. assert (W := E). apply values_at_nil in W. apply W. unfold recorded.
  rewrite adjusted_keys, cum_recs_keys. exact R.
Qed.

Theorem c04_stacked : forall (f : frame) (o d v : string) (cs : list (list rec)),
  o <> d -> o <> v -> d <> v -> o <> "cumval"%string -> d <> "cumval"%string -> v <> "cumval"%string ->
  let l := List.concat cs in
  table_in f o d v l -> l <> [] -> (forall c, In c cs -> all_finite c /\ dev_sorted c) ->
  exists ob, totri f "cum" "incr" "tabular" o d v = Ok ob /\
    forall og dv, recorded l og dv ->
      cell_at (t_mat (ob_tri ob)) og dv = Some (stacked (earliest l dv) (Fin 0%Qc) cs og dv).
Proof.
  intros f o d v cs Hod Hov Hdv Hoc Hdc Hvc l T Hl H.
  destruct (c03_all f o d v l Hod Hov Hdv Hoc Hdc Hvc T Hl (all_finite_noinf _ (concat_finite cs H))) as (ob & E & _ & _ & A).
  exists ob. split; [exact E|]. intros og dv R. cbv zeta in A.
  assert (R' := R). unfold recorded in R'. apply in_map_iff in R' as (r & Er & Hr).
  destruct (A og dv) as (B & _).
  - apply in_map_iff. exists r. split; auto. unfold r_o. rewrite Er. auto.
  - apply in_map_iff. exists r. split; auto. unfold r_d. rewrite Er. auto.
  - rewrite B by auto. f_equal. apply stack_cell; auto.
Qed.

(** With positive losses and two companies reporting a cell, it is always too large. *)
Lemma nan_sum_pos (vs : list val) : (forall v, In v vs -> exists q, v = Fin q /\ (0 < q)%Qc) ->
  exists q, nan_sum vs = Fin q /\ (0 <= q)%Qc /\ (vs <> [] -> (0 < q)%Qc).
Proof.
  induction vs as [|v vs IH]; intro H.
  - exists 0%Qc. split; [auto|]. split; [apply Qcle_refl|congruence].
  - destruct (H v (or_introl eq_refl)) as (q & -> & Hq). destruct IH as (p & E & Hp & _); [intros; apply H; right; auto|].
    exists (q + p)%Qc. unfold nan_sum in *. cbn [fold_right isnan]. rewrite E. split; [auto|].
    assert (0 < q + p)%Qc by (clear - Hq Hp; qlra). split; auto. apply Qclt_le_weak; auto.
Qed.

Lemma stacked_pos fd o d cs : (forall c, In c cs -> positive_losses c /\ reports c o d = true) ->
  forall k, (0 <= k)%Qc -> exists x y, stacked fd (Fin k) cs o d = Fin x /\
    val_sum (map (fun c => running_total c o d) cs) = Fin y /\ (y <= x)%Qc /\ ((0 < k)%Qc -> cs <> [] -> (y < x)%Qc).
Proof.
  induction cs as [|c cs IH]; intros H k Hk.
  - exists 0%Qc, 0%Qc. repeat split; auto; [apply Qcle_refl|congruence].
  - destruct (H c (or_introl eq_refl)) as [P R].
    cbn [stacked map]. rewrite R.
    destruct (nan_sum_pos (map r_v (filter (fun r => (r_o r =? o)%Z && (r_d r <=? d)%Z) c))) as (p & Ep & Hp & Hp').
    { intros v Hv. apply in_map_iff in Hv as (r & <- & Hr). apply filter_In in Hr as [Hr _]. auto. }
    destruct (nan_sum_pos (map r_v (filter (fun r => (r_o r =? o)%Z) c))) as (t & Et & Ht & Ht').
    { intros v Hv. apply in_map_iff in Hv as (r & <- & Hr). apply filter_In in Hr as [Hr _]. auto. }
    fold (running_total c o d) in Ep. fold (origin_total c o) in Et. rewrite Ep, Et. cbn [vadd].
    apply reports_spec in R. unfold recorded in R. apply in_map_iff in R as (r & Er & Hr).
    assert (Hp2 : (0 < p)%Qc).
    { apply Hp'. intro Q. assert (X : In (r_v r) []); [|exact X].
      rewrite <- Q. apply in_map. apply filter_In. split; auto. unfold r_o, r_d. rewrite Er. cbn.
      rewrite Z.eqb_refl, Z.leb_refl. auto. }
    assert (FL : floored fd (Fin (k + p)%Qc) = Fin (k + p)%Qc).
    { unfold floored. destruct fd; auto. cbn [andb vleb]. destruct (qcleb_spec (k + p) 0); auto.
      exfalso. clear - Hk Hp2 q. assert (L : (0 < k + p)%Qc) by qlra. apply (Qclt_not_le _ _ L q). }
    rewrite FL.
    destruct (IH (fun c' Hc => H c' (or_intror Hc)) (k + t)%Qc) as (x & y & Ex & Ey & Le & St).
    { clear - Hk Ht. qlra. }
    exists (k + p + x)%Qc, (p + y)%Qc. rewrite Ex. unfold val_sum in *. cbn [fold_right]. rewrite Ey. cbn [vadd].
    repeat split; auto.
    + clear - Hk Le. qlra.
    + intros K _. clear - K Le. qlra.
Qed.

Theorem c04_overstated : forall (f : frame) (o d v : string) (c1 c2 : list rec) (cs : list (list rec)),
  o <> d -> o <> v -> d <> v -> o <> "cumval"%string -> d <> "cumval"%string -> v <> "cumval"%string ->
  let l := List.concat (c1 :: c2 :: cs) in
  table_in f o d v l -> l <> [] -> (forall c, In c (c1 :: c2 :: cs) -> positive_losses c /\ dev_sorted c) ->
  exists ob, totri f "cum" "incr" "tabular" o d v = Ok ob /\
    forall og dv, (forall c, In c (c1 :: c2 :: cs) -> recorded c og dv) ->
      exists x y, cell_at (t_mat (ob_tri ob)) og dv = Some (Fin x) /\
        val_sum (map (fun c => running_total c og dv) (c1 :: c2 :: cs)) = Fin y /\ (y < x)%Qc.
Proof.
  intros f o d v c1 c2 cs Hod Hov Hdv Hoc Hdc Hvc l T Hl H.
  assert (Hf : forall c, In c (c1 :: c2 :: cs) -> all_finite c /\ dev_sorted c).
  { intros c Hc. destruct (H c Hc) as [P S]. split; auto. intros r Hr. destruct (P r Hr) as (q & E & _). eauto. }
  destruct (c04_stacked f o d v _ Hod Hov Hdv Hoc Hdc Hvc T Hl Hf) as (ob & E & A). exists ob. split; [exact E|].
  intros og dv R. rewrite A.
  - destruct (H c1 (or_introl eq_refl)) as [P1 _].
    assert (R1 := R c1 (or_introl eq_refl)).
    destruct (stacked_pos (earliest (List.concat (c1 :: c2 :: cs)) dv) og dv (c2 :: cs)) with (k := match origin_total c1 og with Fin q => q | _ => 0%Qc end) as (x & y & Ex & Ey & _ & St).
    { intros c Hc. split; [apply H; right; auto|]. apply reports_spec. apply R. right; auto. }
    { destruct (nan_sum_pos (map r_v (filter (fun r => (r_o r =? og)%Z) c1))) as (t & Et & Ht & _).
      - intros w Hw. apply in_map_iff in Hw as (r & <- & Hr). apply filter_In in Hr as [Hr _]. auto.
      - fold (origin_total c1 og) in Et. rewrite Et. auto. }
    destruct (nan_sum_pos (map r_v (filter (fun r => (r_o r =? og)%Z) c1))) as (t & Et & _ & Ht).
    { intros w Hw. apply in_map_iff in Hw as (r & <- & Hr). apply filter_In in Hr as [Hr _]. auto. }
    fold (origin_total c1 og) in Et. rewrite Et in Ex, St.
    unfold recorded in R1. apply in_map_iff in R1 as (r & Er & Hr).
    assert (Ht0 : (0 < t)%Qc).
    { apply Ht. intro Q. assert (X : In (r_v r) []); [|exact X]. rewrite <- Q. apply in_map. apply filter_In. split; auto.
      unfold r_o. rewrite Er. cbn. apply Z.eqb_refl. }
    destruct (stacked_pos (earliest (List.concat (c1 :: c2 :: cs)) dv) og dv [c1]) with (k := 0%Qc) as (x1 & y1 & Ex1 & Ey1 & Le1 & _).
    { intros c [<-|[]]. split; auto. apply reports_spec. apply R. left; auto. }
    { apply Qcle_refl. }
    cbn [stacked] in Ex1 |- *. rewrite Et in *. cbn [vadd] in Ex1 |- *. rewrite Qcplus_0_l in *.
    change (stacked (earliest (List.concat (c1 :: c2 :: cs)) dv) (Fin t) (c2 :: cs) og dv = Fin x) in Ex.
    cbn [stacked] in Ex. cbn [vadd] in Ex. rewrite Ex. rewrite vadd_0_r in Ex1. rewrite Ex1.
    exists (x1 + x)%Qc, (y1 + y)%Qc. split; [auto|]. unfold val_sum in Ey1, Ey |- *. cbn [map fold_right] in Ey1, Ey |- *.
    rewrite vadd_0_r in Ey1. rewrite Ey1, Ey. split; [auto|]. assert (L : (y < x)%Qc) by (apply St; [auto|discriminate]).
    clear - L Le1. qlra.
  - unfold recorded. cbn [List.concat]. rewrite map_app. apply in_app_iff. left. exact (R c1 (or_introl eq_refl)).
Qed.
