(** Properties C01-C06: building triangles with [totri]. *)

From Coq Require Import String QArith Qcanon ZArith List Bool Lia Permutation Sorting.Sorted.
From Verif Require Import Val Frame Triangle QcLib Spec SpecCum BuildFacts TriClaims CumExact.
Import ListNotations.
Open Scope list_scope.
Open Scope string_scope.

(** Test data: five records with an extra column, two of them for the same cell. *)
Definition ex_recs : list rec :=
  [mkrec 2 2 (vz 30); mkrec 1 1 (vz 10); mkrec 1 1 (vz 3); mkrec 2 1 (vz (-4)); mkrec 1 3 (vz 7)].
Definition ex_frame : frame :=
  ("note", VC [NaN; NaN; NaN; vz 1; vz 2]) :: recs_frame "ay" "age" "loss" ex_recs.
Definition ex_sorted : list rec :=
  [mkrec 1 1 (vz 10); mkrec 2 1 (vz (-4)); mkrec 1 3 (vz 7); mkrec 2 2 (vz 30); mkrec 3 1 (vz 5)].
Definition ex_frame2 : frame := recs_frame "origin" "dev" "value" ex_sorted.

(** ** C01 *)
Theorem C01_incremental_cells_are_group_totals :
  forall (f : frame) (o d v : string) (l : list rec),
    o <> d -> o <> v -> d <> v -> table_in f o d v l -> l <> [] ->
    exists ob os ds, totri f "incr" "incr" "tabular" o d v = Ok ob /\
      distinct_sorted os (map r_o l) /\ distinct_sorted ds (map r_d l) /\
      holds (t_mat (ob_tri ob)) os ds (cell_total (adjusted l)).
Proof. exact c01. Qed.
Print Assumptions C01_incremental_cells_are_group_totals.

Example C01_nonvacuous : table_in ex_frame "ay" "age" "loss" ex_recs /\
  exists ob, totri ex_frame "incr" "incr" "tabular" "ay" "age" "loss" = Ok ob /\
    m_idx (t_mat (ob_tri ob)) = [1; 2]%Z /\ m_cols (t_mat (ob_tri ob)) = [1; 2; 3]%Z /\
    vmatb (m_cells (t_mat (ob_tri ob)))
      [[vz 13; NaN; vz 7]; [vz 1; vz 30; NaN]] = true.
Proof.
  split.
  - repeat split; simpl; auto. repeat constructor; simpl; intuition discriminate.
  - eexists. repeat split; vm_compute; reflexivity.
Qed.

(** ** C02 *)
Theorem C02_incremental_order_irrelevant :
  forall (f f' : frame) (o d v : string) (l l' : list rec),
    o <> d -> o <> v -> d <> v ->
    table_in f o d v l -> table_in f' o d v l' -> Permutation l l' -> l <> [] ->
    totri f "incr" "incr" "tabular" o d v = totri f' "incr" "incr" "tabular" o d v.
Proof. exact c02. Qed.
Print Assumptions C02_incremental_order_irrelevant.

Example C02_nonvacuous : Permutation ex_recs (rev ex_recs) /\ ex_recs <> rev ex_recs /\
  table_in (recs_frame "ay" "age" "loss" (rev ex_recs)) "ay" "age" "loss" (rev ex_recs).
Proof.
  split; [apply Permutation_rev|]. split; [discriminate|].
  repeat split; simpl; auto. repeat constructor; simpl; intuition discriminate.
Qed.

(** ** C03.  The full statement (any table) is false: totals are accumulated in row
    order before records are aggregated.  Proved: tables whose records are listed in
    increasing development order within each origin, without duplicates and NaN. *)
Theorem C03_cumulative_cells_are_running_totals_partial :
  forall (f : frame) (o d v : string) (l : list rec),
    o <> d -> o <> v -> d <> v -> o <> "cumval" -> d <> "cumval" -> v <> "cumval" ->
    table_in f o d v l -> l <> [] -> all_finite l -> dev_sorted l ->
    exists ob, totri f "cum" "incr" "tabular" o d v = Ok ob /\
      distinct_sorted (m_idx (t_mat (ob_tri ob))) (map r_o l) /\
      distinct_sorted (m_cols (t_mat (ob_tri ob))) (map r_d l) /\
      forall og dv, recorded l og dv ->
        (~ (first_dev l dv /\ vleb (running_total l og dv) (Fin 0%Qc) = true) ->
         cell_at (t_mat (ob_tri ob)) og dv = Some (running_total l og dv)) /\
        (first_dev l dv /\ vleb (running_total l og dv) (Fin 0%Qc) = true ->
         cell_at (t_mat (ob_tri ob)) og dv = Some (Fin 1%Qc)).
Proof. exact c03. Qed.
Print Assumptions C03_cumulative_cells_are_running_totals_partial.

Example C03_nonvacuous : dev_sorted ex_sorted /\ all_finite ex_sorted /\
  table_in ex_frame2 "origin" "dev" "value" ex_sorted /\
  exists ob, totri ex_frame2 "cum" "incr" "tabular" "origin" "dev" "value" = Ok ob /\
    vmatb (m_cells (t_mat (ob_tri ob)))
      [[vz 10; vz 10; vz 17]; [vz 1; vz 26; NaN]; [vz 5; NaN; NaN]] = true.
Proof.
  split; [|split; [|split]].
  - repeat (constructor; simpl; try (intro; discriminate); try lia).
  - intros r H. simpl in H. intuition; subst; eexists; reflexivity.
  - repeat split; simpl; auto. repeat constructor; simpl; intuition discriminate.
  - eexists. split; vm_compute; reflexivity.
Qed.

(** The same three records in another order: the latest total is recorded at the
    first development period. *)
Theorem C03_row_order_refuted : exists l ob og dv,
  all_finite l /\ NoDup (map fst l) /\ recorded l og dv /\ (forall r, In r l -> vltb (Fin 0%Qc) (r_v r) = true) /\
  totri (recs_frame "origin" "dev" "value" l) "cum" "incr" "tabular" "origin" "dev" "value" = Ok ob /\
  cell_at (t_mat (ob_tri ob)) og dv <> Some (running_total l og dv).
Proof.
  exists [mkrec 1 2 (vz 5); mkrec 1 1 (vz 10)].
  eexists. exists 1%Z, 2%Z. split; [|split; [|split; [|split; [|split]]]].
  - intros r H. simpl in H. intuition; subst; eexists; reflexivity.
  - repeat constructor; simpl; intuition discriminate.
  - left; reflexivity.
  - intros r H. simpl in H. intuition; subst; vm_compute; reflexivity.
  - vm_compute. reflexivity.
  - vm_compute. discriminate.
Qed.
Print Assumptions C03_row_order_refuted.

(** What every table gives, in any row order, with duplicates and missing values
    (C03, C05): a recorded cell is the sum, over its rows, of the origin's total in row
    order (first development totals <= 0 count as 1); an unrecorded cell is 1 at the
    first period, NaN below the last observed row of its column, and otherwise a copy
    of the cell at the period before. *)
Theorem C03_cells_of_every_table :
  forall (f : frame) (o d v : string) (l : list rec),
    o <> d -> o <> v -> d <> v -> o <> "cumval" -> d <> "cumval" -> v <> "cumval" ->
    table_in f o d v l -> l <> [] -> no_inf l ->
    exists ob, totri f "cum" "incr" "tabular" o d v = Ok ob /\
      let m := t_mat (ob_tri ob) in
      distinct_sorted (m_idx m) (map r_o l) /\ distinct_sorted (m_cols m) (map r_d l) /\
      forall og dv, In og (map r_o l) -> In dv (map r_d l) ->
        (recorded l og dv -> cell_at m og dv = Some (booked_at l og dv)) /\
        (~ recorded l og dv -> first_dev l dv -> cell_at m og dv = Some (Fin 1%Qc)) /\
        (~ recorded l og dv -> ~ first_dev l dv -> ~ is_actual l og dv -> cell_at m og dv = Some NaN) /\
        (~ recorded l og dv -> is_actual l og dv ->
           forall d', next_in (m_cols m) d' dv -> cell_at m og dv = cell_at m og d').
Proof. exact c03_all. Qed.
Print Assumptions C03_cells_of_every_table.

Example C03_every_table_nonvacuous : table_in ex_frame "ay" "age" "loss" ex_recs /\ no_inf ex_recs /\
  exists ob, totri ex_frame "cum" "incr" "tabular" "ay" "age" "loss" = Ok ob /\
    vmatb (m_cells (t_mat (ob_tri ob))) [[vz 23; vz 23; vz 20]; [vz 26; vz 30; NaN]] = true.
Proof.
  split; [|split].
  - repeat split; simpl; auto. repeat constructor; simpl; intuition discriminate.
  - intros r H. simpl in H. intuition; subst; discriminate.
  - eexists. split; vm_compute; reflexivity.
Qed.

(** ** C04.  Two companies, stacked, each in development order: the cumulative
    triangle of the stack is not the sum of the companies' triangles. *)
Theorem C04_stacked_companies_refuted : exists l1 l2 ob1 ob2 ob v1 v2 v12,
  dev_sorted l1 /\ dev_sorted l2 /\ all_finite (l1 ++ l2) /\
  (forall r, In r (l1 ++ l2) -> vltb (Fin 0%Qc) (r_v r) = true) /\
  let t l := totri (recs_frame "origin" "dev" "value" l) "cum" "incr" "tabular" "origin" "dev" "value" in
  t l1 = Ok ob1 /\ t l2 = Ok ob2 /\ t (l1 ++ l2)%list = Ok ob /\
  cell_at (t_mat (ob_tri ob1)) 1 1 = Some v1 /\ cell_at (t_mat (ob_tri ob2)) 1 1 = Some v2 /\
  cell_at (t_mat (ob_tri ob)) 1 1 = Some v12 /\ v12 <> vadd v1 v2.
Proof.
  exists [mkrec 1 1 (vz 10); mkrec 1 2 (vz 5)], [mkrec 1 1 (vz 100); mkrec 1 2 (vz 50)].
  eexists _, _, _, _, _, _. repeat split;
    try (vm_compute; reflexivity); try (vm_compute; discriminate).
  - repeat (constructor; simpl; try (intro; discriminate); try lia).
  - repeat (constructor; simpl; try (intro; discriminate); try lia).
  - intros r H. simpl in H. intuition; subst; eexists; reflexivity.
  - intros r H. simpl in H. intuition; subst; vm_compute; reflexivity.
Qed.
Print Assumptions C04_stacked_companies_refuted.

(** ** C05.  The full statement is false (see below) for tables in which a later
    column is observed further down than an earlier one. *)
Theorem C05_missing_actuals_filled_partial :
  forall (f : frame) (o d v : string) (l : list rec),
    o <> d -> o <> v -> d <> v -> o <> "cumval" -> d <> "cumval" -> v <> "cumval" ->
    table_in f o d v l -> l <> [] -> no_inf l -> staircase l ->
    exists ob, totri f "cum" "incr" "tabular" o d v = Ok ob /\
      let m := t_mat (ob_tri ob) in
      forall og dv, In og (m_idx m) -> In dv (m_cols m) ->
        (is_actual l og dv -> exists q, cell_at m og dv = Some (Fin q)) /\
        (is_actual l og dv -> (forall d', (d' <= dv)%Z -> ~ recorded l og d') ->
           cell_at m og dv = Some (Fin 1%Qc)) /\
        (is_actual l og dv -> forall d0, (d0 <= dv)%Z -> recorded l og d0 ->
           (forall d', (d0 < d' <= dv)%Z -> ~ recorded l og d') ->
           cell_at m og dv = cell_at m og d0) /\
        (~ is_actual l og dv -> ~ first_dev l dv -> cell_at m og dv = Some NaN).
Proof. exact c05. Qed.
Print Assumptions C05_missing_actuals_filled_partial.

Example C05_nonvacuous : staircase ex_sorted /\ no_inf ex_sorted /\
  is_actual ex_sorted 1 2 /\ ~ recorded ex_sorted 1 2 /\ ~ is_actual ex_sorted 2 3.
Proof.
  split; [|split; [|split; [|split]]].
  - intros d d' o' H Hd R. unfold recorded in R |- *.
    cbv [ex_sorted mkrec map r_d fst snd In] in Hd, R |- *.
    repeat match goal with H : _ \/ _ |- _ => destruct H as [?|?] end; subst; try contradiction;
    repeat match goal with H : (_, _) = (_, _) |- _ => inversion H; subst; clear H end; try lia;
    first [ exists 2%Z; split; [lia|solve [auto 10]] | exists 3%Z; split; [lia|solve [auto 10]] ].
  - intros r H. simpl in H. intuition; subst; discriminate.
  - exists 2%Z. split; [lia|]. unfold recorded; cbn; auto 10.
  - unfold recorded; simpl. intuition discriminate.
  - intros (o' & H & R). unfold recorded in R. simpl in R.
    repeat destruct R as [R|R]; try contradiction; inversion R; subst; lia.
Qed.

Theorem C05_irregular_gap_refuted : exists l ob,
  dev_sorted l /\ all_finite l /\ is_actual l 2 3 /\
  totri (recs_frame "origin" "dev" "value" l) "cum" "incr" "tabular" "origin" "dev" "value" = Ok ob /\
  cell_at (t_mat (ob_tri ob)) 2 3 = Some NaN.
Proof.
  exists [mkrec 1 1 (vz 10); mkrec 1 2 (vz 5); mkrec 1 3 (vz 2); mkrec 2 1 (vz 7);
          mkrec 3 1 (vz 8); mkrec 3 3 (vz 1)].
  eexists. split; [|split; [|split; [|split]]].
  - repeat (constructor; simpl; try (intro; discriminate); try lia).
  - intros r H. simpl in H. intuition; subst; eexists; reflexivity.
  - exists 3%Z. split; [lia|]. unfold recorded; cbn; auto 10.
  - vm_compute. reflexivity.
  - vm_compute. reflexivity.
Qed.
Print Assumptions C05_irregular_gap_refuted.

(** For every table: a cell is missing exactly when it is cut off; otherwise it holds what
    is booked at the last recorded period up to it, or 1 when there is none. *)
Theorem C05_missing_exactly :
  forall (f : frame) (o d v : string) (l : list rec),
    o <> d -> o <> v -> d <> v -> o <> "cumval" -> d <> "cumval" -> v <> "cumval" ->
    table_in f o d v l -> l <> [] -> no_inf l ->
    exists ob, totri f "cum" "incr" "tabular" o d v = Ok ob /\
      let m := t_mat (ob_tri ob) in
      forall og dv, In og (map r_o l) -> In dv (map r_d l) ->
        (cell_at m og dv = Some NaN <-> cut_off l og dv) /\
        (forall d0, ~ cut_off l og dv -> (d0 <= dv)%Z -> recorded l og d0 ->
           (forall e, (d0 < e <= dv)%Z -> ~ recorded l og e) -> cell_at m og dv = Some (booked_at l og d0)) /\
        (~ cut_off l og dv -> (forall e, (e <= dv)%Z -> ~ recorded l og e) -> cell_at m og dv = Some (Fin 1%Qc)).
Proof. exact c05_exact. Qed.
Print Assumptions C05_missing_exactly.

(** Origin 2 of this table is cut off at period 3 by its missing period 2. *)
Example C05_exactly_nonvacuous :
  let l := [mkrec 1 1 (vz 10); mkrec 1 2 (vz 5); mkrec 1 3 (vz 2); mkrec 2 1 (vz 7); mkrec 3 1 (vz 8); mkrec 3 3 (vz 1)] in
  no_inf l /\ table_in (recs_frame "origin" "dev" "value" l) "origin" "dev" "value" l /\
  cut_off l 2 3 /\ ~ cut_off l 3 3 /\ is_actual l 2 3.
Proof.
  cbv zeta. split; [intros r H; simpl in H; intuition; subst; discriminate|].
  split; [repeat split; simpl; auto; repeat constructor; simpl; intuition discriminate|].
  split; [|split].
  - exists 2%Z. split; [cbn; auto|]. split; [lia|]. split; [|split].
    + intros (_ & Q). specialize (Q 1%Z). cbn in Q. assert (2 <= 1)%Z by (apply Q; auto). lia.
    + intros (o' & H & R). unfold recorded in R. cbn in R. repeat destruct R as [R|R]; try contradiction; inversion R; subst; lia.
    + intros e He R. unfold recorded in R. cbn in R. repeat destruct R as [R|R]; try contradiction; inversion R; subst; lia.
  - intros (d' & _ & Le & _ & _ & N). apply (N 3%Z); [lia|]. unfold recorded. cbn. auto 10.
  - exists 3%Z. split; [lia|]. unfold recorded. cbn. auto 10.
Qed.

(** ** C06.  Frames live in a heap; [totri] may allocate frames but no frame that
    existed before the call (in particular the argument) is changed, whatever the
    arguments and whether or not an exception is raised. *)
Theorem C06_totri_leaves_frames_alone :
  forall (h : heap) (data : data_arg) (tri_type data_format data_shape o d v : string) (r : ref),
    (r < List.length h)%nat ->
    hget (fst (totri_h h data tri_type data_format data_shape o d v)) r = hget h r.
Proof. exact c06. Qed.
Print Assumptions C06_totri_leaves_frames_alone.

(** Non-vacuity: the constructor called directly does modify its argument. *)
Example C06_nonvacuous :
  hget (fst (cum_ctor [ex_frame2] 0 (Some "origin") (Some "dev") (Some "value"))) 0 <> ex_frame2 /\
  is_ok (snd (totri_h [ex_frame2] (DFrame 0) "cum" "cum" "tabular" "origin" "dev" "value")) = true.
Proof. split; [vm_compute; discriminate | vm_compute; reflexivity]. Qed.
