(** C09 for tables of cumulative losses with missing values and repeated records. *)

From Coq Require Import String QArith Qcanon ZArith List Bool.
From Verif Require Import Val Frame Triangle Spec SpecCum SpecCumTab QcLib ExTri CumTabClaims.
Import ListNotations.
Open Scope list_scope.
Open Scope string_scope.
Open Scope nat_scope.

(** Every cell, for every table without infinities.  [read_at] (SpecCumTab) is the value of the record raised by
    the values of its origin that are directly followed by a missing one further up in the table. *)
Theorem C09_exactly :
  forall (o d v : string), o <> d -> o <> v -> d <> v ->
    o <> "cumval" -> d <> "cumval" -> v <> "cumval" ->
    o <> "cum" -> d <> "cum" -> o <> "incr" -> d <> "incr" ->
  forall (f : frame) (l : list rec),
    table_in f o d v l -> (v = "cum" \/ ~ In "cum" (map fst f)) -> l <> [] -> no_inf l ->
    exists ob, totri f "cum" "cum" "tabular" o d v = Ok ob /\
      let m := t_mat (ob_tri ob) in
      distinct_sorted (m_idx m) (map r_o l) /\ distinct_sorted (m_cols m) (map r_d l) /\
      forall og dv, In og (map r_o l) -> In dv (map r_d l) ->
        (recorded l og dv -> cell_at m og dv = Some (read_at l og dv)) /\
        (cell_at m og dv = Some NaN <-> cut_off l og dv) /\
        (forall d0, ~ cut_off l og dv -> (d0 <= dv)%Z -> recorded l og d0 ->
           (forall e, (d0 < e <= dv)%Z -> ~ recorded l og e) -> cell_at m og dv = Some (read_at l og d0)) /\
        (~ cut_off l og dv -> (forall e, (e <= dv)%Z -> ~ recorded l og e) -> cell_at m og dv = Some (Fin 1%Qc)).
Proof. exact c09_exactly. Qed.
Print Assumptions C09_exactly.

(** Without repeated records: a missing value becomes zero, and a number is reproduced exactly when nothing is
    carried over from earlier missing values. *)
Theorem C09_reproduced_iff :
  forall (o d v : string), o <> d -> o <> v -> d <> v ->
    o <> "cumval" -> d <> "cumval" -> v <> "cumval" ->
    o <> "cum" -> d <> "cum" -> o <> "incr" -> d <> "incr" ->
  forall (f : frame) (l : list rec),
    table_in f o d v l -> (v = "cum" \/ ~ In "cum" (map fst f)) -> l <> [] -> no_inf l -> NoDup (map fst l) ->
    exists ob, totri f "cum" "cum" "tabular" o d v = Ok ob /\
      let m := t_mat (ob_tri ob) in
      forall k, k < length l -> let r := row l k in
        (r_v r = NaN -> cell_at m (r_o r) (r_d r) = Some (Fin 0%Qc)) /\
        (forall q, r_v r = Fin q -> ~ first_dev l (r_d r) ->
           (cell_at m (r_o r) (r_d r) = Some (Fin q) <-> carried (above l k) = 0%Qc)).
Proof. exact c09_one. Qed.
Print Assumptions C09_reproduced_iff.

(** Origin 1 is missing at period 2, so its loss of period 1 is added again from period 3 on. *)
Definition c09x_recs : list rec :=
  [mkrec 1 1 (vz 10); mkrec 2 1 (vz 7); mkrec 1 2 NaN; mkrec 1 3 (vz 30); mkrec 1 4 (vz 35)].
Example C09_exactly_nonvacuous :
  table_in (recs_frame "ay" "age" "paid" c09x_recs) "ay" "age" "paid" c09x_recs /\
  no_inf c09x_recs /\ NoDup (map fst c09x_recs) /\
  vsame (read_at c09x_recs 1 4) (vz 45) = true /\
  exists ob, totri (recs_frame "ay" "age" "paid" c09x_recs) "cum" "cum" "tabular" "ay" "age" "paid" = Ok ob /\
    vmatb (m_cells (t_mat (ob_tri ob))) [[vz 10; vz 0; vz 40; vz 45]; [vz 7; NaN; NaN; NaN]] = true.
Proof.
  split; [|split; [|split; [|split]]].
  - repeat split; simpl; auto. repeat constructor; simpl; intuition discriminate.
  - intros r H. simpl in H. intuition; subst; discriminate.
  - repeat constructor; simpl; intuition discriminate.
  - vm_compute. reflexivity.
  - eexists. split; vm_compute; reflexivity.
Qed.
