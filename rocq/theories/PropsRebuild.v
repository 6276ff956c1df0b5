(** Rebuilding a triangle from its own table: C14. *)

From Coq Require Import String QArith Qcanon ZArith List Bool Lia Sorting.Sorted.
From Verif Require Import Val Frame Triangle QcLib Spec RebuildClaims PropsTri2.
Import ListNotations.
Open Scope list_scope.
Open Scope string_scope.

(** ** C14, incremental.  Any triangle with an observed cell: origins and periods without
    one are dropped, and cells <= 0 of the first period left become 1. *)
Theorem C14_rebuild_exactly :
  forall (m : lmat) (os ds : list Z) (f : Z -> Z -> val),
    increasing os -> increasing ds -> holds m os ds f ->
    (exists o d, In o os /\ In d ds /\ f o d <> NaN) ->
    exists fr ob os' ds', to_tbl (mkTri m "origin" "dev" "value") true = Ok fr /\
      totri fr "incr" "incr" "tabular" "origin" "dev" "value" = Ok ob /\
      m_idx (t_mat (ob_tri ob)) = os' /\ m_cols (t_mat (ob_tri ob)) = ds' /\ increasing os' /\ increasing ds' /\
      (forall o, In o os' <-> In o os /\ exists d, In d ds /\ f o d <> NaN) /\
      (forall d, In d ds' <-> In d ds /\ exists o, In o os /\ f o d <> NaN) /\
      (forall o d, In o os' -> In d ds' ->
         (first_in ds' d -> vleb (f o d) (Fin 0%Qc) = true -> cell_at (t_mat (ob_tri ob)) o d = Some (Fin 1%Qc)) /\
         (~ (first_in ds' d /\ vleb (f o d) (Fin 0%Qc) = true) -> cell_at (t_mat (ob_tri ob)) o d = Some (f o d))).
Proof. exact rebuild_incr. Qed.
Print Assumptions C14_rebuild_exactly.

(** So the triangle comes back unchanged exactly in this case. *)
Theorem C14_rebuild_iff :
  forall (m : lmat) (os ds : list Z) (f : Z -> Z -> val),
    increasing os -> increasing ds -> holds m os ds f ->
    (exists o d, In o os /\ In d ds /\ f o d <> NaN) ->
    exists fr ob, to_tbl (mkTri m "origin" "dev" "value") true = Ok fr /\
      totri fr "incr" "incr" "tabular" "origin" "dev" "value" = Ok ob /\
      (t_mat (ob_tri ob) = m <-> covered os ds f /\ positive_first os ds f).
Proof. exact rebuild_incr_iff. Qed.
Print Assumptions C14_rebuild_iff.

(** ** C14, cumulative.  The cumulative triangle of any finite table, in any row order, with
    gaps, duplicates and negative amounts, is reproduced from its own table. *)
Theorem C14_rebuild_cumulative :
  forall (f : frame) (l : list rec) (df : string), df = "incr" \/ df = "cum" ->
    table_in f "origin" "dev" "value" l -> ~ In "cum" (map fst f) -> l <> [] -> all_finite l ->
    exists ob fr ob', totri f "cum" df "tabular" "origin" "dev" "value" = Ok ob /\
      to_tbl (ob_tri ob) true = Ok fr /\ totri fr "cum" "cum" "tabular" "origin" "dev" "value" = Ok ob' /\
      ob_tri ob' = ob_tri ob.
Proof. exact rebuild_cum. Qed.
Print Assumptions C14_rebuild_cumulative.

(** A table with a duplicate, a gap, a negative first amount and rows out of order; and a
    triangle with an empty column. *)
Definition rb_recs : list rec :=
  [mkrec 2 2 (vz 30); mkrec 1 1 (vz 10); mkrec 1 1 (vz 3); mkrec 2 1 (vz (-40)); mkrec 1 3 (vz 7); mkrec 3 3 (vz 1)].
Definition rb_m : lmat := mkMat [1; 2]%Z [12; 24; 36]%Z [[NaN; vz (-3); vz 4]; [NaN; vz 5; NaN]].
Example C14_rebuild_nonvacuous :
  table_in (recs_frame "origin" "dev" "value" rb_recs) "origin" "dev" "value" rb_recs /\ all_finite rb_recs /\
  (exists ob, totri (recs_frame "origin" "dev" "value" rb_recs) "cum" "incr" "tabular" "origin" "dev" "value" = Ok ob /\
     vmatb (m_cells (t_mat (ob_tri ob))) [[vz 23; vz 23; vz 20]; [vz 1; vz 30; vz 30]; [vz 1; NaN; vz 1]] = true) /\
  (exists fr ob, to_tbl (mkTri rb_m "origin" "dev" "value") true = Ok fr /\
     totri fr "incr" "incr" "tabular" "origin" "dev" "value" = Ok ob /\
     m_cols (t_mat (ob_tri ob)) = [24; 36]%Z /\
     vmatb (m_cells (t_mat (ob_tri ob))) [[vz 1; vz 4]; [vz 5; NaN]] = true).
Proof.
  split; [repeat split; simpl; auto; repeat constructor; simpl; intuition discriminate|].
  split; [intros r H; simpl in H; intuition; subst; eexists; reflexivity|].
  split.
  - eexists. split; vm_compute; reflexivity.
  - eexists _, _. split; [vm_compute; reflexivity|]. split; [vm_compute; reflexivity|]. split; vm_compute; reflexivity.
Qed.
