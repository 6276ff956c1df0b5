(** Proofs about [totri] on tabular data. *)

From Coq Require Import String Ascii QArith Qcanon ZArith List Bool Lia Permutation Sorting.Sorted.
From Verif Require Import Val Frame Triangle QcLib ListLib Spec BuildFacts CumFacts FillFacts.
Import ListNotations.
Open Scope list_scope.
Open Scope nat_scope.

Lemma holds_mk m os ds f : holds m os ds f ->
  m = mkMat os ds (mk (length os) (length ds) (fun i j => f (nth i os 0%Z) (nth j ds 0%Z))).
Proof.
  intro H. apply (holds_unique _ _ os ds f); auto. repeat split; auto.
  - simpl. apply mk_length.
  - apply mk_wfm.
  - intros i j Hi Hj. simpl. fold (cell (mk (length os) (length ds)
      (fun i j => f (nth i os 0%Z) (nth j ds 0%Z))) i j). rewrite cell_mk; auto.
Qed.

Lemma mk_holds os ds g f :
  (forall i j, i < length os -> j < length ds -> g i j = f (nth i os 0%Z) (nth j ds 0%Z)) ->
  holds (mkMat os ds (mk (length os) (length ds) g)) os ds f.
Proof.
  intro H. repeat split; auto.
  - simpl. apply mk_length.
  - apply mk_wfm.
  - intros i j Hi Hj. simpl. fold (cell (mk (length os) (length ds) g) i j).
    rewrite cell_mk; auto.
Qed.

Section Tot.
  Variables (o d v : string).
  Hypothesis Hod : o <> d.
  Hypothesis Hov : o <> v.
  Hypothesis Hdv : d <> v.

  Lemma totri_h_tabular h r tt df : strip_starts "c"%char df = false ->
    totri_h h (DFrame r) tt df "tabular" o d v =
    (let (h2, r2) := halloc h (hget h r) in
     if starts "i"%char tt then
       match incr_ctor h2 r2 (Some o) (Some d) (Some v) with
       | (h3, Ok t) => (h3, Ok (mkObj t None))
       | (h3, Err e) => (h3, Err e)
       end
     else if starts "c"%char tt then
       match cum_ctor h2 r2 (Some o) (Some d) (Some v) with
       | (h3, Ok t) => (h3, fill t)
       | (h3, Err e) => (h3, Err e)
       end
     else (h2, Err UnboundLocalError)).
  Proof. intro E. unfold totri_h, totri_frame. simpl String.eqb. rewrite E. reflexivity. Qed.

  Lemma totri_incr_table f l tt df : table_in f o d v l -> l <> [] ->
    starts "i"%char tt = true -> strip_starts "c"%char df = false ->
    totri f tt df "tabular" o d v = Ok (mkObj (mkTri (build (adjusted l)) o d v) None).
  Proof.
    intros T Hl Ht Hd. unfold totri. rewrite totri_h_tabular by auto. unfold halloc. rewrite Ht.
    unfold incr_ctor. cbn [dflt].
    rewrite (base_ctor_table o d v Hod Hov Hdv _ _ f l); auto.
  Qed.

  Hypothesis Hoc : o <> "cumval"%string.
  Hypothesis Hdc : d <> "cumval"%string.
  Hypothesis Hvc : v <> "cumval"%string.

  Lemma totri_cum_table f l tt df : table_in f o d v l -> l <> [] ->
    starts "i"%char tt = false -> starts "c"%char tt = true -> strip_starts "c"%char df = false ->
    totri f tt df "tabular" o d v = fill (mkTri (build (adjusted (cum_recs l))) o d v).
  Proof.
    intros T Hl Ht Hc Hd. unfold totri. rewrite totri_h_tabular by auto. unfold halloc.
    rewrite Ht, Hc.
    assert (E := cum_ctor_table o d v Hod Hov Hdv Hoc Hdc Hvc ([f] ++ [hget [f] 0]) (length [f]) f l
                   eq_refl T Hl).
    destruct (cum_ctor ([f] ++ [hget [f] 0]) (length [f]) (Some o) (Some d) (Some v)) as [h3 [t|e]];
      simpl in E; inversion E; subst. reflexivity.
  Qed.
End Tot.

(** ** The cumulative triangle of a table *)

Lemma in_combine_cum l r : no_inf l -> In r (cum_recs l) -> r_v r <> PInf /\ r_v r <> NInf.
Proof.
  intros NI H.
  assert (Hv : In (r_v r) (cum_vals l)) by (rewrite <- cum_recs_v; apply in_map; auto).
  clear H. unfold cum_vals, group_cumsum in Hv.
  assert (G : forall seen l', (forall p, In p (seen ++ l') -> snd p <> PInf /\ snd p <> NInf) ->
     forall x, In x (group_cumsum_from seen l') -> x <> PInf /\ x <> NInf).
  { intros seen l'. revert seen. induction l' as [|[o' v'] l' IH]; intros seen Hs x Hx; simpl in Hx;
      [contradiction|].
    destruct Hx as [<-|Hx].
    - destruct (isnan v'); [split; discriminate|]. rewrite skipsum_nan_sum.
      assert (Q : exists q, nan_sum (map snd (filter (fun p => Z.eqb (fst p) o') (seen ++ [(o', v')]))) = Fin q).
      { assert (A : forall w, In w (map snd (filter (fun p => Z.eqb (fst p) o') (seen ++ [(o', v')]))) -> w <> PInf /\ w <> NInf).
        { intros w Hw. apply in_map_iff in Hw as (p & <- & Hp). apply filter_In in Hp as [Hp _].
          apply Hs. apply in_app_iff in Hp. apply in_app_iff. simpl in *. intuition. }
        revert A. generalize (map snd (filter (fun p => Z.eqb (fst p) o') (seen ++ [(o', v')]))).
        intros w. induction w as [|y w IHw]; intro A; simpl; eauto.
        destruct IHw as [q ->]; [intros; apply A; right; auto|].
        destruct y; simpl; eauto; exfalso; destruct (A _ (or_introl eq_refl)); congruence. }
      destruct Q as [q ->]. split; discriminate.
    - apply (IH (seen ++ [(o', v')])) in Hx; auto.
      intros p Hp. apply Hs. rewrite <- app_assoc in Hp. auto. }
  apply (G [] (map ov l)); auto. simpl. intros p Hp. apply in_map_iff in Hp as (q & <- & Hq).
  simpl. apply NI; auto.
Qed.

Lemma nan_sum_noinf w : (forall y, In y w -> y <> PInf /\ y <> NInf) -> exists q, nan_sum w = Fin q.
Proof.
  induction w as [|y w IHw]; intro A; simpl; eauto.
  destruct IHw as [q ->]; [intros; apply A; right; auto|].
  destruct y; simpl; eauto; exfalso; destruct (A _ (or_introl eq_refl)); congruence.
Qed.

Lemma adjusted_noinf l : no_inf l -> no_inf (adjusted l).
Proof.
  intros H r Hr. unfold adjusted in Hr. apply in_map_iff in Hr as (q & <- & Hq).
  cbn [r_v snd]. destruct (_ && _); [split; discriminate|]. apply H; auto.
Qed.

Lemma cell_total_fin l o d : no_inf l -> recorded l o d -> exists q, cell_total l o d = Fin q.
Proof.
  intros NI R. unfold cell_total. destruct (values_at l o d) as [|x w] eqn:E.
  - apply values_at_nil in E. contradiction.
  - apply nan_sum_noinf. rewrite <- E. unfold values_at. intros y Hy.
    apply in_map_iff in Hy as (r & <- & Hr). apply filter_In in Hr as [Hr _]. apply NI; auto.
Qed.

Lemma all_finite_noinf l : all_finite l -> no_inf l.
Proof. intros H r Hr. destruct (H r Hr) as [q ->]. split; discriminate. Qed.

(** The unfilled cumulative cell. *)
Definition ucell (l : list rec) (o d : Z) : val := cell_total (adjusted (cum_recs l)) o d.

Lemma ucell_recorded l o d : no_inf l -> recorded l o d -> exists q, ucell l o d = Fin q.
Proof.
  intros NI R. apply cell_total_fin.
  - apply adjusted_noinf. intros r Hr. eapply in_combine_cum; eauto.
  - unfold recorded. rewrite adjusted_keys, cum_recs_keys. auto.
Qed.
Lemma ucell_unrecorded l o d : ~ recorded l o d -> ucell l o d = NaN.
Proof. apply cell_total_unrecorded. Qed.
Lemma recorded_dec l o d : {recorded l o d} + {~ recorded l o d}.
Proof.
  unfold recorded. apply in_dec. intros a b. destruct (keqb_spec a b); auto.
Qed.
Lemma ucell_nan l o d : no_inf l -> (ucell l o d <> NaN <-> recorded l o d).
Proof.
  intro NI. destruct (recorded_dec l o d) as [R|R].
  - destruct (ucell_recorded l o d NI R) as [q ->]. split; auto. discriminate.
  - rewrite ucell_unrecorded by auto. intuition.
Qed.

Definition os_of (l : list rec) := zuniq (map r_o l).
Definition ds_of (l : list rec) := zuniq (map r_d l).

Lemma build_cum_mk l : build (adjusted (cum_recs l)) =
  mkMat (os_of l) (ds_of l) (mk (length (os_of l)) (length (ds_of l))
    (fun i j => ucell l (nth i (os_of l) 0%Z) (nth j (ds_of l) 0%Z))).
Proof.
  apply holds_mk. assert (H := build_holds (adjusted (cum_recs l))).
  rewrite adjusted_o, adjusted_d, cum_recs_o, cum_recs_d in H. exact H.
Qed.

Lemma recorded_os l o d : recorded l o d -> In o (os_of l).
Proof.
  intro H. apply zuniq_in. unfold recorded in H. apply (in_map fst) in H.
  rewrite map_map in H. exact H.
Qed.
Lemma recorded_ds l o d : recorded l o d -> In d (ds_of l).
Proof.
  intro H. apply zuniq_in. unfold recorded in H. apply (in_map snd) in H.
  rewrite map_map in H. exact H.
Qed.
Lemma ds_recorded l d : In d (ds_of l) -> exists o, recorded l o d.
Proof.
  intro H. unfold ds_of in H. rewrite zuniq_in in H.
  apply in_map_iff in H as (r & <- & Hr). exists (r_o r).
  unfold recorded. apply in_map_iff. exists r. split; auto. destruct r as [[? ?] ?]. auto.
Qed.

(** Position of the last origin recorded at the j-th development period. *)
Definition lastpos (l : list rec) (j : nat) : nat :=
  match last_valid (map (fun i => ucell l (nth i (os_of l) 0%Z) (nth j (ds_of l) 0%Z))
                        (seq 0 (length (os_of l)))) with
  | Some k => k | None => 0
  end.

Lemma lastpos_spec l j : no_inf l -> j < length (ds_of l) ->
  col_last (length (os_of l)) (fun i j => ucell l (nth i (os_of l) 0%Z) (nth j (ds_of l) 0%Z))
    (lastpos l) j.
Proof.
  intros NI Hj. unfold col_last, lastpos.
  destruct (last_valid _) as [k|] eqn:E.
  - apply last_valid_map_seq in E. auto.
  - exfalso. rewrite last_valid_none in E.
    destruct (ds_recorded l (nth j (ds_of l) 0%Z)) as [o R]; [apply nth_In; auto|].
    destruct (In_nth _ _ 0%Z (recorded_os _ _ _ R)) as (i & Hi & Ei).
    specialize (E i). rewrite nth_map_seq in E by auto. rewrite Ei in E.
    apply (proj2 (ucell_nan l o _ NI)) in R. contradiction.
Qed.

Lemma os_sorted l : zsorted (os_of l). Proof. apply zuniq_sorted. Qed.
Lemma ds_sorted l : zsorted (ds_of l). Proof. apply zuniq_sorted. Qed.
Lemma os_nonempty l : l <> [] -> 0 < length (os_of l).
Proof.
  destruct l as [|r l]; [congruence|]. intros _.
  assert (H : In (r_o r) (os_of (r :: l))) by (apply zuniq_in; left; auto).
  destruct (os_of (r :: l)); [contradiction|simpl; lia].
Qed.
Lemma ds_nonempty l : l <> [] -> 0 < length (ds_of l).
Proof.
  destruct l as [|r l]; [congruence|]. intros _.
  assert (H : In (r_d r) (ds_of (r :: l))) by (apply zuniq_in; left; auto).
  destruct (ds_of (r :: l)); [contradiction|simpl; lia].
Qed.

Lemma zsorted_nth_lt l i j d : zsorted l -> i < length l -> j < length l ->
  ((nth i l d < nth j l d)%Z <-> i < j).
Proof.
  intros S Hi Hj. split; intro H.
  - destruct (Nat.lt_trichotomy i j) as [?|[?|?]]; auto; exfalso.
    + subst. lia.
    + assert (nth j l d < nth i l d)%Z by (apply zsorted_nth; auto). lia.
  - apply zsorted_nth; auto.
Qed.
Lemma zsorted_nth_le l i j d : zsorted l -> i < length l -> j < length l ->
  ((nth i l d <= nth j l d)%Z <-> i <= j).
Proof.
  intros S Hi Hj. assert (A := zsorted_nth_lt l j i d S Hj Hi). lia.
Qed.

(** Position version of [is_actual]. *)
Lemma actual_pos l i j : no_inf l -> i < length (os_of l) -> j < length (ds_of l) ->
  (is_actual l (nth i (os_of l) 0%Z) (nth j (ds_of l) 0%Z) <-> i <= lastpos l j).
Proof.
  intros NI Hi Hj. destruct (lastpos_spec l j NI Hj) as (A & B & C). split.
  - intros (o' & Ho & R). destruct (In_nth _ _ 0%Z (recorded_os _ _ _ R)) as (i' & Hi' & Ei').
    subst o'. apply zsorted_nth_le in Ho; auto using os_sorted.
    destruct (Nat.le_gt_cases i (lastpos l j)); auto. exfalso.
    rewrite <- ucell_nan in R by auto. apply R. apply (C i'). lia.
  - intro H. exists (nth (lastpos l j) (os_of l) 0%Z). split.
    + apply zsorted_nth_le; auto using os_sorted.
    + apply ucell_nan; auto.
Qed.

Lemma staircase_pos l j j' : no_inf l -> staircase l -> j <= j' -> j' < length (ds_of l) ->
  lastpos l j' <= lastpos l j.
Proof.
  intros NI S H Hj'. destruct (Nat.eq_dec j j'); [subst; auto|].
  destruct (lastpos_spec l j' NI Hj') as (A & B & C).
  apply ucell_nan in B; auto.
  destruct (S (nth j (ds_of l) 0%Z) (nth j' (ds_of l) 0%Z) (nth (lastpos l j') (os_of l) 0%Z))
    as (o & Ho & R); auto.
  - apply zsorted_nth; auto using ds_sorted. lia.
  - rewrite <- zuniq_in. apply nth_In. fold (ds_of l). lia.
  - apply actual_pos; auto; [lia|]. exists o. auto.
Qed.

(** Result of [totri(..., "cum")] on a table. *)
Definition fcell (l : list rec) (i j : nat) : val :=
  fillc (fun j => ucell l (nth i (os_of l) 0%Z) (nth j (ds_of l) 0%Z))
        (fun j => lastpos l j <? i) j.

Lemma totri_cum_mk o d v f l : o <> d -> o <> v -> d <> v ->
  o <> "cumval"%string -> d <> "cumval"%string -> v <> "cumval"%string ->
  table_in f o d v l -> l <> [] -> no_inf l ->
  exists c, totri f "cum" "incr" "tabular" o d v =
    Ok (mkObj (mkTri (mkMat (os_of l) (ds_of l)
         (mk (length (os_of l)) (length (ds_of l)) (fcell l))) o d v) c)
    /\ (1 < length (ds_of l) -> c = Some (map (lastpos l) (seq 0 (length (ds_of l))))).
Proof.
  intros. rewrite (totri_cum_table o d v H H0 H1 H2 H3 H4 f l); auto.
  rewrite build_cum_mk.
  apply (fill_mk (os_of l) (ds_of l) o d v
           (fun i j => ucell l (nth i (os_of l) 0%Z) (nth j (ds_of l) 0%Z)) (lastpos l)).
  - apply os_nonempty; auto.
  - apply ds_nonempty; auto.
  - intros j Hj. apply lastpos_spec; auto.
Qed.

Lemma cell_at_mk os ds g i j : NoDup os -> NoDup ds -> i < length os -> j < length ds ->
  cell_at (mkMat os ds (mk (length os) (length ds) g)) (nth i os 0%Z) (nth j ds 0%Z) = Some (g i j).
Proof.
  intros No Nd Hi Hj. unfold cell_at. cbn [m_idx m_cols m_cells].
  rewrite !zfind_nth by auto. rewrite cell_mk; auto.
Qed.

Lemma label_pos x l : In x l -> exists i, i < length l /\ x = nth i l 0%Z.
Proof. intro H. destruct (In_nth _ _ 0%Z H) as (i & Hi & E). exists i. auto. Qed.
