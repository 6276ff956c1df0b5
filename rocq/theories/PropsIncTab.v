(** C82: incremental triangles of tables of cumulative losses.  C16: which tables are accepted. *)

From Coq Require Import String Ascii QArith Qcanon ZArith List Bool Lia Sorting.Sorted.
From Verif Require Import Val Frame Triangle QcLib Spec SpecCum SpecCumTab SpecIncTab SpecTotri SpecAcceptTab ExTri IncTabClaims AcceptTab.
Import ListNotations.
Open Scope string_scope.
Open Scope list_scope.
Open Scope nat_scope.

(** ** C82 *)
Theorem C82_increments_of_cumulative_table :
  forall (o d v : string), o <> d -> o <> v -> d <> v ->
    o <> "cum" -> d <> "cum" -> o <> "incr" -> d <> "incr" ->
  forall (f : frame) (l : list rec),
    table_in f o d v l -> (v = "cum" \/ ~ In "cum" (map fst f)) -> l <> [] -> no_inf l ->
    exists ob, totri f "incr" "cum" "tabular" o d v = Ok ob /\
      let m := t_mat (ob_tri ob) in
      distinct_sorted (m_idx m) (map r_o l) /\ distinct_sorted (m_cols m) (map r_d l) /\
      forall og dv, In og (map r_o l) -> In dv (map r_d l) ->
        (recorded l og dv -> cell_at m og dv = Some (inc_at l og dv)) /\
        (~ recorded l og dv -> cell_at m og dv = Some NaN).
Proof. exact c82_exactly. Qed.
Print Assumptions C82_increments_of_cumulative_table.

(** Cumulating the triangle gives the table back, raised by what the first value was raised. *)
Theorem C82_cumulated_again : forall (f : frame) (l : list rec),
    table_in f "origin" "dev" "value" l -> ~ In "cum" (map fst f) -> l <> [] -> all_finite l -> dev_sorted l ->
    exists ob m, totri f "incr" "cum" "tabular" "origin" "dev" "value" = Ok ob /\
      to_cum (ob_tri ob) = Ok (mkTri m "origin" "dev" "value") /\
      forall r x, In r l -> r_v r = Fin x ->
        (~ (exists p, In p l /\ r_o p = r_o r /\ first_dev l (r_d p) /\ vleb (r_v p) (Fin 0%Qc) = true) ->
           cell_at m (r_o r) (r_d r) = Some (Fin x)) /\
        (forall p q, In p l -> r_o p = r_o r -> first_dev l (r_d p) -> r_v p = Fin q -> (q <= 0)%Qc ->
           cell_at m (r_o r) (r_d r) = Some (Fin (x + 1 - q)%Qc)).
Proof. exact c82_cumulated. Qed.
Print Assumptions C82_cumulated_again.

Definition it_recs : list rec :=
  [mkrec 1 12 (vz 10); mkrec 1 24 (vz 15); mkrec 1 36 (vz 14); mkrec 2 12 (vz (-3)); mkrec 2 24 (vz 7); mkrec 3 24 (vz 9)].
Example C82_nonvacuous :
  table_in (recs_frame "origin" "dev" "value" it_recs) "origin" "dev" "value" it_recs /\ all_finite it_recs /\ dev_sorted it_recs /\
  exists ob t, totri (recs_frame "origin" "dev" "value" it_recs) "incr" "cum" "tabular" "origin" "dev" "value" = Ok ob /\
    vmatb (m_cells (t_mat (ob_tri ob))) [[vz 10; vz 5; vz (-1)]; [vz 1; vz 10; NaN]; [NaN; vz 9; NaN]] = true /\
    to_cum (ob_tri ob) = Ok t /\
    vmatb (m_cells (t_mat t)) [[vz 10; vz 15; vz 14]; [vz 1; vz 11; NaN]; [NaN; vz 9; NaN]] = true.
Proof.
  split; [|split; [|split]].
  - repeat split; simpl; auto. repeat constructor; simpl; intuition discriminate.
  - intros r H. simpl in H. intuition; subst; eexists; reflexivity.
  - repeat (constructor; simpl; try (intro; discriminate); try lia).
  - eexists _, _. split; [vm_compute; reflexivity|]. split; [vm_compute; reflexivity|]. split; vm_compute; reflexivity.
Qed.
(** With a missing value and a repeated pair. *)
Definition it_recs2 : list rec :=
  [mkrec 1 12 (vz 10); mkrec 1 24 NaN; mkrec 1 36 (vz 14); mkrec 1 36 (vz 20)].
Example C82_missing_nonvacuous :
  table_in (recs_frame "ay" "age" "paid" it_recs2) "ay" "age" "paid" it_recs2 /\ no_inf it_recs2 /\
  exists ob, totri (recs_frame "ay" "age" "paid" it_recs2) "incr" "cum" "tabular" "ay" "age" "paid" = Ok ob /\
    vmatb (m_cells (t_mat (ob_tri ob))) [[vz 10; vz 0; vz 20]] = true.
Proof.
  split; [|split].
  - repeat split; simpl; auto. repeat constructor; simpl; intuition discriminate.
  - intros r H. simpl in H. intuition; subst; cbn in *; discriminate.
  - eexists. split; vm_compute; reflexivity.
Qed.

(** ** C16, exactly *)
Theorem C16_accepted_iff : forall (o d v : string), usable_names o d v ->
  forall (f : frame) (n : nat) (tri_type data_format : string),
    numeric_columns f o d v n -> ~ In "cum" (map fst f) ->
    ((exists ob, totri f tri_type data_format "tabular" o d v = Ok ob) <->
     (opens ["i"; "I"]%char tri_type \/ opens ["c"; "C"]%char tri_type) /\
     In o (map fst f) /\ In d (map fst f) /\ In v (map fst f) /\ 0 < n).
Proof. exact c16_accepted. Qed.
Print Assumptions C16_accepted_iff.

Example C16_accepted_nonvacuous : usable_names "origin" "dev" "value" /\
  numeric_columns (recs_frame "origin" "dev" "value" it_recs2) "origin" "dev" "value" 4 /\
  numeric_columns (recs_frame "origin" "dev" "loss" it_recs2) "origin" "dev" "value" 4 /\
  numeric_columns (recs_frame "origin" "dev" "value" []) "origin" "dev" "value" 0.
Proof.
  split; [|split; [|split]].
  - split; [discriminate|]. split; [discriminate|]. split; [discriminate|]. intros x [<-|[<-|[<-|[]]]]; repeat split; discriminate.
  - repeat split; simpl.
    + repeat constructor; simpl; intuition discriminate.
    + intros c [H|[H|[H|[]]]]; inversion H; subst; eexists; split; reflexivity.
    + intros c [H|[H|[H|[]]]]; inversion H; subst; eexists; split; reflexivity.
    + intros c [H|[H|[H|[]]]]; inversion H; subst. eexists. split; [reflexivity|]. split; [reflexivity|].
      intros x Hx. cbn in Hx. intuition; subst; discriminate.
  - repeat split; simpl.
    + repeat constructor; simpl; intuition discriminate.
    + intros c [H|[H|[H|[]]]]; inversion H; subst; eexists; split; reflexivity.
    + intros c [H|[H|[H|[]]]]; inversion H; subst; eexists; split; reflexivity.
    + intros c [H|[H|[H|[]]]]; inversion H.
  - repeat split; simpl.
    + repeat constructor; simpl; intuition discriminate.
    + intros c [H|[H|[H|[]]]]; inversion H; subst; eexists; split; reflexivity.
    + intros c [H|[H|[H|[]]]]; inversion H; subst; eexists; split; reflexivity.
    + intros c [H|[H|[H|[]]]]; inversion H; subst. eexists. split; [reflexivity|]. split; [reflexivity|]. intros x [].
Qed.
