(** Properties C04 (proved part) and C07-C16 of triangles. *)

From Coq Require Import String Ascii QArith Qcanon ZArith List Bool Lia Permutation Sorting.Sorted.
From Verif Require Import Val Frame Triangle QcLib Spec BuildFacts TriClaims TriClaims2 TriClaims3
  TriClaims4 TriClaims5.
Import ListNotations.
Open Scope list_scope.
Open Scope string_scope.

(** Example triangle, cumulative: origins 1..3, developments 12, 24, 36. *)
Definition tri_os : list Z := [1; 2; 3]%Z.
Definition tri_ds : list Z := [12; 24; 36]%Z.
Definition tri_cells : list (list val) :=
  [[vz 10; vz 15; vz 17]; [vz 20; vz 26; NaN]; [vz 5; NaN; NaN]].
Definition tri_mat : lmat := mkMat tri_os tri_ds tri_cells.
Definition tri_f (o d : Z) : val :=
  match cell_at tri_mat o d with Some v => v | None => NaN end.

Lemma tri_holds : holds tri_mat tri_os tri_ds tri_f.
Proof.
  repeat split; simpl.
  - intros row [<-|[<-|[<-|[]]]]; reflexivity.
  - intros i j Hi Hj. destruct i as [|[|[|i]]]; try lia; destruct j as [|[|[|j]]]; try lia; reflexivity.
Qed.
Lemma tri_increasing : increasing tri_os /\ increasing tri_ds /\ tri_os <> [].
Proof.
  unfold increasing, tri_os, tri_ds. split; [|split]; [| |discriminate];
    repeat (constructor; try lia).
Qed.
Ltac tri_cases :=
  repeat match goal with H : In _ (_ :: _) |- _ => destruct H as [?|H] | H : In _ [] |- _ => destruct H end;
  subst; try lia.
Lemma tri_runoff : runoff tri_os tri_ds tri_f.
Proof.
  split; [|split; [|split]].
  - intros o d d' Ho Hd Hd' L N. unfold tri_os, tri_ds in *. tri_cases; vm_compute in N |- *; congruence.
  - intros o o' d Ho Ho' Hd L N. unfold tri_os, tri_ds in *. tri_cases; vm_compute in N |- *; congruence.
  - intros o Ho. unfold tri_os, tri_ds in *. exists 12%Z. tri_cases; split; simpl; auto; vm_compute; discriminate.
  - intros d Hd. unfold tri_os, tri_ds in *. exists 1%Z. tri_cases; split; simpl; auto; vm_compute; discriminate.
Qed.
Lemma tri_finite : finite_cells tri_os tri_ds tri_f.
Proof.
  intros o d Ho Hd. unfold tri_os, tri_ds in *.
  tri_cases; first [right; eexists; reflexivity | left; reflexivity].
Qed.
Lemma tri_positive : positive_first tri_os tri_ds tri_f.
Proof.
  intros o d Ho Hd _. unfold tri_os, tri_ds in *.
  tri_cases; first [left; reflexivity | right; vm_compute; reflexivity].
Qed.

(** ** C04, proved part: aggregating incrementally first, then cumulating, does give
    the sum of the companies' running totals. *)
Theorem C04_incremental_then_cumulate_partial :
  forall (f : frame) (blocks : list (list rec)),
    let l := List.concat blocks in
    table_in f "origin" "dev" "value" l -> l <> [] -> all_finite l -> positive_first_values l ->
    exists ob t, totri f "incr" "incr" "tabular" "origin" "dev" "value" = Ok ob /\
      to_cum (ob_tri ob) = Ok t /\
      forall o d, recorded l o d ->
        cell_at (t_mat t) o d = Some (val_sum (map (fun b => running_total b o d) blocks)).
Proof. exact c04. Qed.
Print Assumptions C04_incremental_then_cumulate_partial.

Example C04_nonvacuous :
  let blocks := [[mkrec 1 1 (vz 10); mkrec 1 2 (vz 5)]; [mkrec 1 2 (vz 50); mkrec 1 1 (vz 100)]] in
  all_finite (List.concat blocks) /\ positive_first_values (List.concat blocks) /\
  vsame (val_sum (map (fun b => running_total b 1 2) blocks)) (vz 165) = true.
Proof.
  cbv zeta. split; [|split].
  - intros r H. simpl in H. intuition; subst; eexists; reflexivity.
  - intros r H _. simpl in H. intuition; subst; vm_compute; reflexivity.
  - vm_compute. reflexivity.
Qed.

(** ** C07 *)
Theorem C07_to_incr_then_to_cum :
  forall (m : lmat) (os ds : list Z) (f : Z -> Z -> val),
    increasing os -> increasing ds -> os <> [] -> holds m os ds f ->
    gap_free os ds f -> finite_cells os ds f -> covered os ds f -> positive_first os ds f ->
    exists mi g,
      to_incr (mkTri m "origin" "dev" "value") = Ok (mkTri mi "origin" "dev" "value") /\
      holds mi os ds g /\
      (forall o d, In o os -> first_in ds d -> g o d = f o d) /\
      (forall o d d', In o os -> next_in ds d d' -> g o d' = vsub (f o d') (f o d)) /\
      to_cum (mkTri mi "origin" "dev" "value") = Ok (mkTri m "origin" "dev" "value").
Proof. exact c07_incr. Qed.
Print Assumptions C07_to_incr_then_to_cum.

Theorem C07_to_cum_then_to_incr :
  forall (m : lmat) (os ds : list Z) (g : Z -> Z -> val),
    increasing os -> increasing ds -> os <> [] -> holds m os ds g ->
    gap_free os ds g -> finite_cells os ds g -> covered os ds g -> positive_first os ds g ->
    exists mc f,
      to_cum (mkTri m "origin" "dev" "value") = Ok (mkTri mc "origin" "dev" "value") /\
      holds mc os ds f /\
      (forall o d, In o os -> In d ds -> g o d = NaN -> f o d = NaN) /\
      (forall o d, In o os -> In d ds -> g o d <> NaN ->
         f o d = val_sum (map (g o) (filter (fun x => (x <=? d)%Z) ds))) /\
      to_incr (mkTri mc "origin" "dev" "value") = Ok (mkTri m "origin" "dev" "value").
Proof. exact c07_cum. Qed.
Print Assumptions C07_to_cum_then_to_incr.

Example C07_nonvacuous : exists m os ds f, increasing os /\ increasing ds /\ os <> [] /\
  holds m os ds f /\ gap_free os ds f /\ finite_cells os ds f /\ covered os ds f /\ positive_first os ds f.
Proof.
  exists tri_mat, tri_os, tri_ds, tri_f. destruct tri_increasing as (A & B & C), tri_runoff as (D & E & F).
  repeat split; auto using tri_finite, tri_positive; try apply tri_holds; apply F.
Qed.

(** ** C08.  False in general (below); proved for tables in development order with
    positive first values and nothing to fill. *)
Theorem C08_incr_then_cum_equals_cum_partial :
  forall (f : frame) (l : list rec),
    table_in f "origin" "dev" "value" l -> l <> [] -> all_finite l -> dev_sorted l ->
    positive_first_values l -> no_gaps l ->
    exists ob ob' t, totri f "incr" "incr" "tabular" "origin" "dev" "value" = Ok ob /\
      totri f "cum" "incr" "tabular" "origin" "dev" "value" = Ok ob' /\
      to_cum (ob_tri ob) = Ok t /\ t = ob_tri ob'.
Proof. exact c08. Qed.
Print Assumptions C08_incr_then_cum_equals_cum_partial.

Definition c08_recs : list rec :=
  [mkrec 1 1 (vz 10); mkrec 1 2 (vz 5); mkrec 2 1 (vz 20)].
Example C08_nonvacuous : all_finite c08_recs /\ dev_sorted c08_recs /\
  positive_first_values c08_recs /\ no_gaps c08_recs.
Proof.
  split; [|split; [|split]].
  - intros r H. simpl in H. intuition; subst; eexists; reflexivity.
  - repeat (constructor; simpl; try (intro; discriminate); try lia).
  - intros r H _. simpl in H. intuition; subst; vm_compute; reflexivity.
  - intros o d Ho Hd H. unfold recorded in *.
    cbv [c08_recs mkrec map r_o r_d fst snd In] in Ho, Hd |- *.
    assert (Ho' : o = 1%Z \/ o = 2%Z) by intuition. assert (Hd' : d = 1%Z \/ d = 2%Z) by intuition.
    destruct Ho' as [->| ->], Hd' as [->| ->]; auto. exfalso. destruct H as [H|H].
    + destruct H as [_ H]. specialize (H 1%Z). simpl in H. apply H; auto.
    + destruct H as (o' & L & R). unfold recorded in R. cbv [c08_recs mkrec map fst In] in R.
      repeat destruct R as [R|R]; inversion R; subst; lia.
Qed.

(** A non-positive first value: 1, 5 against 1, 11. *)
Theorem C08_negative_first_value_refuted : exists l ob ob' t,
  all_finite l /\ dev_sorted l /\ no_gaps l /\
  let f := recs_frame "origin" "dev" "value" l in
  totri f "incr" "incr" "tabular" "origin" "dev" "value" = Ok ob /\
  totri f "cum" "incr" "tabular" "origin" "dev" "value" = Ok ob' /\
  to_cum (ob_tri ob) = Ok t /\ t_mat t <> t_mat (ob_tri ob').
Proof.
  exists [mkrec 1 1 (vz (-5)); mkrec 1 2 (vz 10)].
  eexists _, _, _. split; [|split; [|split; [|cbv zeta; split; [|split; [|split]]]]];
    try (vm_compute; reflexivity); try (vm_compute; discriminate).
  - intros r H. simpl in H. intuition; subst; eexists; reflexivity.
  - repeat (constructor; simpl; try (intro; discriminate); try lia).
  - intros o d Ho Hd _. unfold recorded in *. cbv [mkrec map r_o r_d fst snd In] in Ho, Hd |- *.
    assert (o = 1%Z) by intuition. subst. assert (Hd' : d = 1%Z \/ d = 2%Z) by intuition.
    destruct Hd' as [->| ->]; auto.
Qed.
Print Assumptions C08_negative_first_value_refuted.

(** A gap: the cumulative triangle is filled, the converted one is not. *)
Theorem C08_gap_refuted : exists l ob ob' t,
  all_finite l /\ dev_sorted l /\ positive_first_values l /\
  let f := recs_frame "origin" "dev" "value" l in
  totri f "incr" "incr" "tabular" "origin" "dev" "value" = Ok ob /\
  totri f "cum" "incr" "tabular" "origin" "dev" "value" = Ok ob' /\
  to_cum (ob_tri ob) = Ok t /\
  cell_at (t_mat t) 1 2 = Some NaN /\ cell_at (t_mat (ob_tri ob')) 1 2 <> Some NaN.
Proof.
  exists [mkrec 1 1 (vz 5); mkrec 1 3 (vz 10); mkrec 2 1 (vz 7); mkrec 2 2 (vz 1)].
  eexists _, _, _. split; [|split; [|split; [|cbv zeta; split; [|split; [|split; [|split]]]]]];
    try (vm_compute; reflexivity); try (vm_compute; discriminate).
  - intros r H. simpl in H. intuition; subst; eexists; reflexivity.
  - repeat (constructor; simpl; try (intro; discriminate); try lia).
  - intros r H _. simpl in H. intuition; subst; vm_compute; reflexivity.
Qed.
Print Assumptions C08_gap_refuted.

(** ** C09.  Proved for frames without NaN and duplicates, whatever the row order;
    false with NaN (below). *)
Theorem C09_cumulative_table_reproduced_partial :
  forall (o d v : string), o <> d -> o <> v -> d <> v ->
    o <> "cumval" -> d <> "cumval" -> v <> "cumval" ->
    o <> "cum" -> d <> "cum" -> o <> "incr" -> d <> "incr" ->
  forall (f : frame) (l : list rec),
    table_in f o d v l -> (v = "cum" \/ ~ In "cum" (map fst f)) -> l <> [] -> all_finite l ->
    NoDup (map fst l) ->
    exists ob, totri f "cum" "cum" "tabular" o d v = Ok ob /\
      distinct_sorted (m_idx (t_mat (ob_tri ob))) (map r_o l) /\
      distinct_sorted (m_cols (t_mat (ob_tri ob))) (map r_d l) /\
      forall r, In r l ->
        (~ (first_dev l (r_d r) /\ vleb (r_v r) (Fin 0%Qc) = true) ->
          cell_at (t_mat (ob_tri ob)) (r_o r) (r_d r) = Some (r_v r)) /\
        (first_dev l (r_d r) /\ vleb (r_v r) (Fin 0%Qc) = true ->
          cell_at (t_mat (ob_tri ob)) (r_o r) (r_d r) = Some (Fin 1%Qc)).
Proof. exact c09. Qed.
Print Assumptions C09_cumulative_table_reproduced_partial.

Definition c09_recs : list rec :=
  [mkrec 1 2 (vz 15); mkrec 2 1 (vz (-3)); mkrec 1 1 (vz 10); mkrec 1 3 (vz 12)].
Example C09_nonvacuous :
  table_in (recs_frame "ay" "age" "paid" c09_recs) "ay" "age" "paid" c09_recs /\
  all_finite c09_recs /\ NoDup (map fst c09_recs) /\
  exists ob, totri (recs_frame "ay" "age" "paid" c09_recs) "cum" "cum" "tabular" "ay" "age" "paid" = Ok ob /\
    vmatb (m_cells (t_mat (ob_tri ob))) [[vz 10; vz 15; vz 12]; [vz 1; NaN; NaN]] = true.
Proof.
  split; [|split; [|split]].
  - repeat split; simpl; auto. repeat constructor; simpl; intuition discriminate.
  - intros r H. simpl in H. intuition; subst; eexists; reflexivity.
  - repeat constructor; simpl; intuition discriminate.
  - eexists. split; vm_compute; reflexivity.
Qed.

Theorem C09_nan_refuted : exists l ob,
  dev_sorted l /\ In (mkrec 1 3 (vz 30)) l /\
  totri (recs_frame "origin" "dev" "value" l) "cum" "cum" "tabular" "origin" "dev" "value" = Ok ob /\
  exists x, cell_at (t_mat (ob_tri ob)) 1 3 = Some x /\ vsame x (vz 40) = true.
Proof.
  exists [mkrec 1 1 (vz 10); mkrec 1 2 NaN; mkrec 1 3 (vz 30)]. eexists.
  split; [|split; [|split]].
  - repeat (constructor; simpl; try (intro; discriminate); try lia).
  - simpl; auto.
  - vm_compute. reflexivity.
  - eexists. split; vm_compute; reflexivity.
Qed.
Print Assumptions C09_nan_refuted.

(** ** C10 *)
Theorem C10_triangle_shaped_incremental :
  forall (m : lmat) (nm : option string) (tri_type data_format : string) (os ds : list Z)
         (f : Z -> Z -> val),
    os <> [] -> increasing os -> increasing ds -> holds m os ds f -> covered os ds f ->
    positive_first os ds f -> (nm = None \/ nm = Some "origin") ->
    starts "i"%char tri_type = true -> strip_starts "i"%char data_format = true ->
    totri_tri m nm tri_type data_format "triangle" "origin" "dev" "value"
      = Ok (mkObj (mkTri m "origin" "dev" "value") None).
Proof. exact totri_tri_incr. Qed.
Print Assumptions C10_triangle_shaped_incremental.

Theorem C10_triangle_shaped_cumulative :
  forall (m : lmat) (nm : option string) (tri_type data_format : string) (os ds : list Z)
         (f : Z -> Z -> val),
    os <> [] -> increasing os -> increasing ds -> holds m os ds f -> runoff os ds f ->
    finite_cells os ds f -> positive_first os ds f -> (nm = None \/ nm = Some "origin") ->
    starts "i"%char tri_type = false -> starts "c"%char tri_type = true ->
    strip_starts "i"%char data_format = false -> strip_starts "c"%char data_format = true ->
    exists ob, totri_tri m nm tri_type data_format "triangle" "origin" "dev" "value" = Ok ob /\
      ob_tri ob = mkTri m "origin" "dev" "value".
Proof. exact totri_tri_cum. Qed.
Print Assumptions C10_triangle_shaped_cumulative.

Example C10_nonvacuous : runoff tri_os tri_ds tri_f /\ positive_first tri_os tri_ds tri_f /\
  starts "c"%char "Cum" = true /\ strip_starts "c"%char "  CUMULATIVE" = true /\
  is_ok (totri_tri tri_mat None "cum" "cum" "triangle" "origin" "dev" "value") = true /\
  (* the documented "ignored" name arguments are not ignored *)
  totri_tri tri_mat None "cum" "cum" "triangle" "ay" "age" "loss" = Err KeyError.
Proof. repeat split; try apply tri_runoff; try apply tri_positive; vm_compute; reflexivity. Qed.

(** ** C11 *)
Theorem C11_latest_is_last_observed :
  forall (m : lmat) (os ds : list Z) (f : Z -> Z -> val) (v : string),
    increasing os -> increasing ds -> holds m os ds f ->
    (forall o, In o os -> exists d, In d ds /\ f o d <> NaN) ->
    exists l, latest (mkTri m "origin" "dev" v) = Ok l /\
      map r_o l = os /\
      (forall r, In r l -> last_observed ds f (r_o r) (r_d r) /\ r_v r = f (r_o r) (r_d r)) /\
      latest_by_origin (mkTri m "origin" "dev" v) = Ok (map (fun r => (r_o r, r_v r)) l) /\
      exists s, latest_by_devp (mkTri m "origin" "dev" v) = Ok s /\
        Permutation s (map (fun r => (r_d r, r_v r)) l) /\
        StronglySorted (fun a b => (fst a <= fst b)%Z) s.
Proof. exact c11. Qed.
Print Assumptions C11_latest_is_last_observed.

Example C11_nonvacuous :
  (forall o, In o tri_os -> exists d, In d tri_ds /\ tri_f o d <> NaN) /\
  latest (mkTri tri_mat "origin" "dev" "paid")
    = Ok [mkrec 1 36 (vz 17); mkrec 2 24 (vz 26); mkrec 3 12 (vz 5)].
Proof. split; [apply tri_runoff | vm_compute; reflexivity]. Qed.

(** ** C12 *)
Theorem C12_last_valid_rows_and_triind :
  forall (m : lmat) (os ds : list Z) (f : Z -> Z -> val), holds m os ds f ->
    (forall d, In d ds -> exists o, In o os /\ f o d <> NaN) ->
    exists cl, clvi m = Ok cl /\ List.length cl = List.length ds /\
      (forall j, (j < List.length ds)%nat ->
         (nth j cl 0 < List.length os)%nat /\ f (nth (nth j cl 0%nat) os 0%Z) (nth j ds 0%Z) <> NaN /\
         forall i, (nth j cl 0 < i < List.length os)%nat -> f (nth i os 0%Z) (nth j ds 0%Z) = NaN) /\
      (forall i j, (i < List.length os)%nat -> (j < List.length ds)%nat ->
         (indc (triind (List.length os) cl) i j = true <->
          forall i', (i <= i')%nat -> (i' < List.length os)%nat -> f (nth i' os 0%Z) (nth j ds 0%Z) = NaN)).
Proof. exact c12_general. Qed.
Print Assumptions C12_last_valid_rows_and_triind.

Theorem C12_runoff_triind_maturity :
  forall (m : lmat) (os ds : list Z) (f : Z -> Z -> val),
    increasing os -> increasing ds -> holds m os ds f -> runoff os ds f ->
    exists cl rl ms, clvi m = Ok cl /\ rlvi m = Ok rl /\
      maturity m (triind (List.length os) cl) = Ok ms /\
      List.length rl = List.length os /\ List.length ms = List.length os /\
      (forall i j, (i < List.length os)%nat -> (j < List.length ds)%nat ->
         (indc (triind (List.length os) cl) i j = true <-> f (nth i os 0%Z) (nth j ds 0%Z) = NaN)) /\
      (forall i, (i < List.length os)%nat ->
         last_observed ds f (nth i os 0%Z) (nth i ms 0%Z) /\ nth (nth i rl 0%nat) ds 0%Z = nth i ms 0%Z).
Proof. exact c12_runoff. Qed.
Print Assumptions C12_runoff_triind_maturity.

Example C12_nonvacuous : holds tri_mat tri_os tri_ds tri_f /\ runoff tri_os tri_ds tri_f /\
  clvi tri_mat = Ok [2; 1; 0]%nat /\ maturity tri_mat (triind 3 [2; 1; 0]%nat) = Ok [36; 24; 12]%Z.
Proof. repeat split; try apply tri_holds; try apply tri_runoff; vm_compute; reflexivity. Qed.

(** ** C13.  [regular]: cell (i, j) is observed exactly when i + j < n. *)
Theorem C13_diagonals :
  forall (m : lmat) (os ds : list Z) (f : Z -> Z -> val) (n : nat) (v : string),
    increasing os -> increasing ds -> holds m os ds f ->
    List.length os = n -> List.length ds = n -> (0 < n)%nat ->
    (forall i j, (i < n)%nat -> (j < n)%nat ->
       (f (nth i os 0%Z) (nth j ds 0%Z) <> NaN <-> (i + j < n)%nat)) ->
    let t := mkTri m "origin" "dev" v in
    diagonal t 0 = latest t /\
    (forall k, (k < n)%nat -> diagonal t (- Z.of_nat k) =
       Ok (map (fun i => mkrec (nth i os 0%Z) (nth (n - 1 - k - i) ds 0%Z)
                 (f (nth i os 0%Z) (nth (n - 1 - k - i) ds 0%Z))) (seq 0 (n - k)))) /\
    (forall off, (Z.of_nat n - 1 < Z.abs off)%Z -> diagonal t off = Err ValueError) /\
    (forall k, (0 < k < n)%nat -> diagonal t (Z.of_nat k) = Err KeyError).
Proof. exact c13. Qed.
Print Assumptions C13_diagonals.

Example C13_nonvacuous :
  (forall i j, (i < 3)%nat -> (j < 3)%nat ->
       (tri_f (nth i tri_os 0%Z) (nth j tri_ds 0%Z) <> NaN <-> (i + j < 3)%nat)) /\
  diagonal (mkTri tri_mat "origin" "dev" "v") (-1) = Ok [mkrec 1 24 (vz 15); mkrec 2 12 (vz 20)].
Proof.
  split; [|vm_compute; reflexivity].
  intros i j Hi Hj. destruct i as [|[|[|i]]]; try lia; destruct j as [|[|[|j]]]; try lia;
    vm_compute; split; intro H; try lia; try discriminate; try (exfalso; apply H; reflexivity).
Qed.

(** ** C14 *)
Theorem C14_to_tbl_lists_observed_cells :
  forall (m : lmat) (os ds : list Z) (f : Z -> Z -> val) (d : string),
    increasing os -> increasing ds -> holds m os ds f ->
    let l := to_tbl_recs m true in
    to_tbl (mkTri m "origin" d "value") true = Ok (recs_frame "origin" d "value" l) /\
    StronglySorted (fun a b => (r_o a < r_o b \/ r_o a = r_o b /\ r_d a < r_d b)%Z) l /\
    (forall o d x, In ((o, d), x) l <-> In o os /\ In d ds /\ x = f o d /\ x <> NaN).
Proof. exact c14_list. Qed.
Print Assumptions C14_to_tbl_lists_observed_cells.

(** to_tbl(dropna=False): every cell, missing or not, row by row. *)
Theorem C14_to_tbl_all_cells :
  forall (m : lmat) (os ds : list Z) (f : Z -> Z -> val) (dev value : string),
    increasing os -> increasing ds -> holds m os ds f ->
    to_tbl (mkTri m "origin" dev value) false
    = Ok (recs_frame "origin" dev value (flat_map (fun o => map (fun d => ((o, d), f o d)) ds) os)).
Proof. exact c14_all. Qed.
Print Assumptions C14_to_tbl_all_cells.

Theorem C14_rebuild_from_to_tbl_partial :
  forall (m : lmat) (os ds : list Z) (f : Z -> Z -> val),
    os <> [] -> increasing os -> increasing ds -> holds m os ds f ->
    covered os ds f -> positive_first os ds f ->
    exists fr, to_tbl (mkTri m "origin" "dev" "value") true = Ok fr /\
     totri fr "incr" "incr" "tabular" "origin" "dev" "value"
       = Ok (mkObj (mkTri m "origin" "dev" "value") None).
Proof. exact c14_rebuild. Qed.
Print Assumptions C14_rebuild_from_to_tbl_partial.

Example C14_nonvacuous : covered tri_os tri_ds tri_f /\ positive_first tri_os tri_ds tri_f /\
  List.length (to_tbl_recs tri_mat true) = 6%nat /\ List.length (to_tbl_recs tri_mat false) = 9%nat.
Proof. repeat split; try apply tri_runoff; try apply tri_positive; vm_compute; reflexivity. Qed.

(** An explicit NaN record in the first development period becomes 0 in the
    triangle, and 1 when rebuilt. *)
Theorem C14_rebuild_nan_refuted : exists l ob fr ob',
  NoDup (map fst l) /\
  totri (recs_frame "origin" "dev" "value" l) "incr" "incr" "tabular" "origin" "dev" "value" = Ok ob /\
  to_tbl (ob_tri ob) true = Ok fr /\
  totri fr "incr" "incr" "tabular" "origin" "dev" "value" = Ok ob' /\
  t_mat (ob_tri ob) <> t_mat (ob_tri ob').
Proof.
  exists [mkrec 1 1 NaN; mkrec 1 2 (vz 5)]. eexists _, _, _.
  split; [repeat constructor; simpl; intuition discriminate|].
  repeat split; try (vm_compute; reflexivity). vm_compute. discriminate.
Qed.
Print Assumptions C14_rebuild_nan_refuted.

(** ** C15.  The cells (and the incremental conversion) do not depend on the names... *)
Theorem C15_cells_independent_of_names_partial :
  forall (f : frame) (o d v : string) (l : list rec),
    o <> d -> o <> v -> d <> v -> o <> "cumval" -> d <> "cumval" -> v <> "cumval" ->
    table_in f o d v l -> l <> [] ->
    forall tri_type data_format,
    starts "i"%char tri_type = true \/ starts "c"%char tri_type = true ->
    strip_starts "c"%char data_format = false ->
    match totri f tri_type data_format "tabular" o d v,
          totri (recs_frame "origin" "dev" "value" l) tri_type data_format "tabular" "origin" "dev" "value" with
    | Ok a, Ok b => t_mat (ob_tri a) = t_mat (ob_tri b) /\ ob_clvi a = ob_clvi b /\
                    to_incr (ob_tri a) = to_incr (ob_tri b)
    | Err _, Err _ => True
    | _, _ => False
    end.
Proof. exact c15. Qed.
Print Assumptions C15_cells_independent_of_names_partial.

Example C15_nonvacuous :
  is_ok (totri (recs_frame "ay" "age" "paid" c08_recs) "cum" "incr" "tabular" "ay" "age" "paid") = true.
Proof. vm_compute. reflexivity. Qed.

(** ... but to_tbl, latest and to_cum fail when the origin, dev or value column has
    another name. *)
Theorem C15_operations_refuted :
  (exists ob, totri (recs_frame "ay" "dev" "value" c08_recs) "incr" "incr" "tabular" "ay" "dev" "value" = Ok ob /\
     to_tbl (ob_tri ob) true = Err KeyError /\ latest (ob_tri ob) = Err KeyError) /\
  (exists ob, totri (recs_frame "origin" "age" "value" c08_recs) "incr" "incr" "tabular" "origin" "age" "value" = Ok ob /\
     latest (ob_tri ob) = Err KeyError) /\
  (exists ob, totri (recs_frame "origin" "dev" "paid" c08_recs) "incr" "incr" "tabular" "origin" "dev" "paid" = Ok ob /\
     exists e, to_cum (ob_tri ob) = Err e).
Proof.
  split; [|split]; eexists; (split; [vm_compute; reflexivity|]).
  - split; vm_compute; reflexivity.
  - vm_compute; reflexivity.
  - eexists. vm_compute. reflexivity.
Qed.
Print Assumptions C15_operations_refuted.

(** ** C16 *)
Theorem C16_missing_column_rejected_partial :
  forall (f : frame) (o d v tri_type data_format : string),
    o <> d -> o <> v -> d <> v -> typed f o ->
    starts "i"%char tri_type = true \/ starts "c"%char tri_type = true ->
    (strip_starts "c"%char data_format = false \/
     o <> "cum" /\ d <> "cum" /\ o <> "incr" /\ d <> "incr" /\ ~ In "cum" (map fst f)) ->
    (~ In o (map fst f) \/ ~ In d (map fst f) \/ ~ In v (map fst f)) ->
    exists e, totri f tri_type data_format "tabular" o d v = Err e /\ (e = KeyError \/ e = AttributeError).
Proof. exact c16_missing. Qed.
Print Assumptions C16_missing_column_rejected_partial.

Theorem C16_bad_shape_rejected :
  forall (h : heap) (data : data_arg) (tri_type data_format data_shape o d v : string),
    data_shape <> "triangle" -> data_shape <> "tabular" ->
    snd (totri_h h data tri_type data_format data_shape o d v) = Err NameError.
Proof. exact c16_shape. Qed.
Print Assumptions C16_bad_shape_rejected.

Theorem C16_bad_type_rejected :
  forall (h : heap) (data : data_arg) (tri_type data_format data_shape o d v : string),
    starts "i"%char tri_type = false -> starts "c"%char tri_type = false ->
    exists e, snd (totri_h h data tri_type data_format data_shape o d v) = Err e.
Proof. exact c16_type. Qed.
Print Assumptions C16_bad_type_rejected.

Theorem C16_bad_format_rejected_partial :
  forall (h : heap) (m : lmat) (nm : option string) (tri_type data_format o d v : string),
    strip_starts "i"%char data_format = false -> strip_starts "c"%char data_format = false ->
    snd (totri_h h (DTri m nm) tri_type data_format "triangle" o d v) = Err NameError.
Proof. exact c16_format_triangle. Qed.
Print Assumptions C16_bad_format_rejected_partial.

Example C16_nonvacuous : typed (recs_frame "origin" "dev" "value" c08_recs) "origin" /\
  totri (recs_frame "origin" "dev" "value" c08_recs) "cum" "incr" "tabular" "origin" "dev" "loss" = Err KeyError /\
  totri (recs_frame "origin" "dev" "value" c08_recs) "incr" "incr" "tabular" "origin" "age" "value" = Err AttributeError /\
  starts "i"%char "xyz" = false /\ starts "c"%char "xyz" = false.
Proof.
  repeat split; try (vm_compute; reflexivity).
  - repeat constructor; simpl; intuition discriminate.
  - intros c H. simpl in H. destruct H as [H|[H|[H|[]]]]; inversion H; subst. eexists; reflexivity.
Qed.

(** An undocumented [data_format] is accepted for tabular data, and with
    [data_format="cum"] a frame without the value column is accepted if it happens
    to have a column called "cum". *)
Theorem C16_bad_arguments_accepted_refuted :
  is_ok (totri (recs_frame "origin" "dev" "value" c08_recs) "incr" "nonsense" "tabular" "origin" "dev" "value") = true /\
  is_ok (totri (recs_frame "origin" "dev" "cum" c08_recs) "incr" "cum" "tabular" "origin" "dev" "loss") = true.
Proof. split; vm_compute; reflexivity. Qed.
Print Assumptions C16_bad_arguments_accepted_refuted.
