(** Property C64: the data drawn by [plot ()]. *)

From Coq Require Import String QArith Qcanon ZArith List Bool Lia.
From Verif Require Import Val Frame Triangle A2A Base Plot QcLib Spec SpecPlot PlotClaims ExTri.
Import ListNotations.
Open Scope string_scope.
Open Scope list_scope.
Open Scope nat_scope.

(** C64: for a run-off triangle whose factors are finite, every origin's actual line
    carries exactly its observed values, at their periods, with reserve 0; its forecast
    line starts at the latest observed value, follows the development factors, and ends
    one step after the last period at the ultimate and reserve of the summary.  The total
    line has no actual part; it sums, at each period, the forecast lines drawn there, and
    ends at the totals of the summary.  No record belongs to any other origin. *)
Theorem C64_plot_data :
  forall (gm : list val -> val) (m : lmat) (n : nat) (C : nat -> nat -> Qc) (v : string) (cl : list nat)
         (ind : list (list val)) (sel : sel_arg) (tail : val) (sel' : sel_arg) (r : cl_result) (f : nat -> Qc),
  regular m n C -> 1 < n -> clvi m = Ok cl ->
  base_cl gm (mkTri m "origin" "dev" v) cl ind sel tail = (sel', Ok r) ->
  c_ldfs r = map (fun j => (nth j (m_cols m) 0%Z, Fin (f j))) (seq 0 n) ->
  let o i := Some (nth i (m_idx m) 0%Z) in
  let d j := nth j (m_cols m) 0%Z in
  let latest i := C i (n - 1 - i) in
  let proj i j := (latest i * prodf (n - 1 - i) (j - (n - 1 - i)) f)%Qc in
  let ult i := (latest i * prodf (n - 1 - i) (S i) f)%Qc in
  exists l D, data_transform m cl r = Ok l /\ (forall x, In x (m_cols m) -> (x < D)%Z) /\
    (forall i, i < n -> drawn l (o i) true = map (fun j => mkQ i (o i) (d j) (Fin (C i j)) (Fin 0%Qc) true) (seq 0 (n - i))) /\
    (forall i, i < n ->
       drawn l (o i) false
       = map (fun j => mkQ i (o i) (d j) (Fin (proj i j)) (Fin (proj i j - latest i)%Qc) false) (seq (n - 1 - i) (S i))
         ++ [mkQ i (o i) D (Fin (ult i)) (Fin (ult i - latest i)%Qc) false]) /\
    drawn l None true = [] /\
    drawn l None false
    = map (fun j => mkQ n None (d j) (Fin (sumf (n - 1 - j) (S j) (fun i => proj i j)))
                       (Fin (sumf (n - 1 - j) (S j) (fun i => proj i j - latest i)%Qc)) false) (seq 0 n)
      ++ [mkQ n None D (snd (fst (c_total r))) (snd (c_total r)) false] /\
    (forall q, In q l -> q_origin q = None \/ exists i, i < n /\ q_origin q = o i) /\
    (forall i, i < n -> exists row, nth_error (c_rows r) i = Some row /\
       s_latest row = Fin (latest i) /\ s_ultimate row = Fin (ult i) /\ s_reserve row = Fin (ult i - latest i)%Qc).
Proof. exact c64. Qed.
Print Assumptions C64_plot_data.

Definition pl_run := base_cl ex_gm (mkTri ex_m "origin" "dev" "value") [3; 2; 1; 0] (a2aind_init ex_m)
                       (SelSeq [vz 2; vz 3; vz 5]) (vz 7).
Definition plot_key (q : plotrec) : option Z * Z * (val * val) := (q_origin q, q_dev q, (q_loss q, q_reserve q)).
Definition keyb (a b : option Z * Z * (val * val)) : bool :=
  same_origin (fst (fst a)) (fst (fst b)) && (snd (fst a) =? snd (fst b))%Z &&
  veqb (fst (snd a)) (fst (snd b)) && veqb (snd (snd a)) (snd (snd b)).

Definition pl_drawn : list plotrec :=
  match snd pl_run with Ok r => match data_transform ex_m [3; 2; 1; 0] r with Ok l => l | Err _ => [] end | Err _ => [] end.

(** What the comment at base.py 418-419 promises of the total ("losses across all origin
    periods by development period") is false: at the first period the total line shows
    the youngest origin alone, 130, where that column of the triangle sums to 430. *)
Theorem C64_total_refuted :
  exists r, snd pl_run = Ok r /\ clvi ex_m = Ok [3; 2; 1; 0] /\ data_transform ex_m [3; 2; 1; 0] r = Ok pl_drawn /\
  exists q, In q (drawn pl_drawn None false) /\ q_dev q = 12%Z /\ nth 0 (m_cols ex_m) 0%Z = 12%Z /\
    veqb (q_loss q) (vz 130) = true /\
    veqb (nan_sum (map (fun row => nth 0 row NaN) (m_cells ex_m))) (vz 430) = true /\
    veqb (nan_sum (map (fun row => nth 0 row NaN) (fst (c_trisqrd r)))) (vz 430) = true.
Proof.
  assert (H : match snd pl_run with
              | Ok r => veqb (nan_sum (map (fun row => nth 0 row NaN) (fst (c_trisqrd r)))) (vz 430) &&
                        match data_transform ex_m [3; 2; 1; 0] r with
                        | Ok l => match drawn l None false with q :: _ => (q_dev q =? 12)%Z && veqb (q_loss q) (vz 130) | [] => false end
                        | Err _ => false end
              | Err _ => false end = true) by (vm_compute; reflexivity).
  unfold pl_drawn. destruct (snd pl_run) as [r|e]; [|discriminate].
  apply andb_true_iff in H as (H1 & H2). destruct (data_transform ex_m [3; 2; 1; 0] r) as [l|e] eqn:E; [|discriminate].
  exists r. split; [reflexivity|]. split; [vm_compute; reflexivity|]. split; [exact E|].
  destruct (drawn l None false) as [|q l'] eqn:Ed; [discriminate|]. apply andb_true_iff in H2 as (H2 & H3).
  exists q. split; [left; reflexivity|]. split; [apply Z.eqb_eq; exact H2|]. split; [reflexivity|].
  split; [exact H3|]. split; [vm_compute; reflexivity|exact H1].
Qed.
Print Assumptions C64_total_refuted.

(** The hypotheses hold of a 4 by 4 triangle with selected factors 2, 3, 5 and tail 7:
    the third origin's forecast line is 120, 360, 1800 and, at ultimate, 12600. *)
Example C64_nonvacuous :
  regular ex_m 4 ex_C /\ 1 < 4 /\ clvi ex_m = Ok [3; 2; 1; 0] /\
  match snd pl_run with
  | Ok r => forallb (fun p => (fst (fst p) =? fst (snd p))%Z && veqb (snd (fst p)) (snd (snd p)))
              (combine (c_ldfs r) [(12, vz 2); (24, vz 3); (36, vz 5); (48, vz 7)]%Z) = true /\ List.length (c_ldfs r) = 4
  | Err _ => False end /\
  forallb (fun p => keyb (plot_key (fst p)) (snd p))
    (combine (drawn pl_drawn (Some 2003%Z) false)
       [(Some 2003%Z, 24%Z, (vz 120, vz 0)); (Some 2003%Z, 36%Z, (vz 360, vz 240));
        (Some 2003%Z, 48%Z, (vz 1800, vz 1680)); (Some 2003%Z, 60%Z, (vz 12600, vz 12480))]) = true /\
  List.length (drawn pl_drawn (Some 2003%Z) false) = 4.
Proof.
  split; [exact ex_regular|]. split; [lia|]. split; [vm_compute; reflexivity|].
  split; [split; vm_compute; reflexivity|]. split; vm_compute; reflexivity.
Qed.
