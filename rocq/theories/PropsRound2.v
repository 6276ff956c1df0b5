(** C91: other factor rules in rounded arithmetic. *)

From Coq Require Import String QArith Qcanon ZArith List Bool Lia.
From Verif Require Import Val Frame Triangle A2A Base Mack QcLib Spec ExTri SpecRound SpecRound2 Round Round2 RoundClaims Round2Claims.
Import ListNotations.
Open Scope string_scope.
Open Scope list_scope.
Open Scope nat_scope.

(** For every run-off triangle with n origins, positive losses [C] and tail factor, every
    rounding with unit [u] and every order of the additions, with machine cells [C'] at most
    [c] roundings away from the losses.  Labels "all-weighted" and "weighted-k"... *)
Theorem C91_rounded_weighted_windows :
  forall (gm : list val -> val) (m : lmat) (n : nat) (C : nat -> nat -> Qc) (w : string) (cl : list nat) (tail : Qc) (k : nat),
  regular m n C -> positive n C -> 2 < n -> tail_fits (m_cols m) -> clvi m = Ok cl -> (0 < tail)%Qc ->
  k = 0 \/ 1 <= k < n - 1 ->
  exists r, base_cl gm (mkTri m "origin" "dev" w) cl (a2aind_init m) (SelLabel (window_label "weighted" k)) (Fin tail)
              = (SelLabel (window_label "weighted" k), Ok r) /\
  forall (u : Qc) (rd : Qc -> Qc) (c : nat) (C' : nat -> nat -> Qc) (f ult rsv : nat -> Qc) (tult trsv : Qc),
  rounding u rd -> (forall i j, i + j < n -> roundings u c (C i j) (C' i j)) ->
  (forall j, j < n - 1 -> rd_weighted rd C' (window_rows k (n - 1 - j)) j (f j)) -> f (n - 1) = tail ->
  rd_ladder rd n C' f ult rsv tult trsv ->
  let roundings_of i := i * (2 * c + 2 * i + 1) + c + 1 in
  (qn (roundings_of (n - 1)%nat + n) * u < 1)%Qc ->
  rounded_as u n roundings_of (c_rows r) (c_total r) ult rsv tult trsv.
Proof. exact c91_weighted. Qed.
Print Assumptions C91_rounded_weighted_windows.

(** ... labels "all-simple" and "simple-k", also with link ratios switched off (the latest
    one of every period switched on)... *)
Theorem C91_rounded_simple_averages :
  forall (gm : list val -> val) (m : lmat) (n : nat) (C : nat -> nat -> Qc) (w : string) (cl : list nat) (tail : Qc) (k : nat)
         (ind : list (list val)) (inc : nat -> nat -> bool),
  regular m n C -> positive n C -> 2 < n -> tail_fits (m_cols m) -> clvi m = Ok cl -> (0 < tail)%Qc ->
  k = 0 \/ 1 <= k < n - 1 ->
  (forall i j, i + j < n - 1 -> cell ind i j = Fin (if inc i j then 1 else 0)%Qc) ->
  (forall j, j < n - 1 -> inc (n - 2 - j) j = true) ->
  exists r, base_cl gm (mkTri m "origin" "dev" w) cl ind (SelLabel (window_label "simple" k)) (Fin tail)
              = (SelLabel (window_label "simple" k), Ok r) /\
  forall (u : Qc) (rd : Qc -> Qc) (c : nat) (C' : nat -> nat -> Qc) (f ult rsv : nat -> Qc) (tult trsv : Qc),
  rounding u rd -> (forall i j, i + j < n -> roundings u c (C i j) (C' i j)) ->
  (forall j, j < n - 1 -> rd_simple rd C' (filter (fun i => inc i j) (window_rows k (n - 1 - j))) j (f j)) -> f (n - 1) = tail ->
  rd_ladder rd n C' f ult rsv tult trsv ->
  let roundings_of i := i * (2 * c + 2 + 1 * i + 1) + c + 1 in
  (qn (roundings_of (n - 1)%nat + n) * u < 1)%Qc ->
  rounded_as u n roundings_of (c_rows r) (c_total r) ult rsv tult trsv.
Proof. exact c91_simple. Qed.
Print Assumptions C91_rounded_simple_averages.

(** ... the ultimates and reserves of mack_cl, for every alpha and all weights... *)
Theorem C91_rounded_mack :
  forall (m : lmat) (n : nat) (C : nat -> nat -> Qc) (ind : list (list val)) (W : nat -> nat -> Qc) (alpha : nat)
         (w : string) (cl : list nat) (tail : val),
  regular m n C -> positive n C -> 3 < n -> tail_fits (m_cols m) -> clvi m = Ok cl -> weights ind n W ->
  exists r, mack_cl (mkTri m "origin" "dev" w) cl ind alpha tail = Ok r /\
  forall (u : Qc) (rd : Qc -> Qc) (c : nat) (C' : nat -> nat -> Qc) (f ult rsv : nat -> Qc) (tult trsv : Qc),
  rounding u rd -> (forall i j, i + j < n -> roundings u c (C i j) (C' i j)) ->
  (forall j, j < n - 1 -> rd_mack rd C' W alpha (filter (fun i => qcltb 0 (W i j)) (seq 0 (n - 1 - j))) j (f j)) ->
  f (n - 1) = 1%Qc ->
  rd_ladder rd n C' f ult rsv tult trsv ->
  let roundings_of i := i * (3 + 2 * c + 2 * alpha * (c + 1) + 2 * i + 1) + c + 1 in
  (qn (roundings_of (n - 1)%nat + n) * u < 1)%Qc ->
  rounded_as u n roundings_of (c_rows (k_cl r)) (c_total (k_cl r)) ult rsv tult trsv.
Proof. exact c91_mack. Qed.
Print Assumptions C91_rounded_mack.

(** ... and base_cl whenever its factors are positive and given exactly. *)
Theorem C91_rounded_given_factors :
  forall (gm : list val -> val) (m : lmat) (n : nat) (C : nat -> nat -> Qc) (w : string) (cl : list nat)
         (ind : list (list val)) (sel : sel_arg) (tail : val) (sel' : sel_arg) (r : cl_result) (f : nat -> Qc),
  regular m n C -> positive n C -> 0 < n -> clvi m = Ok cl ->
  base_cl gm (mkTri m "origin" "dev" w) cl ind sel tail = (sel', Ok r) ->
  c_ldfs r = map (fun j => (nth j (m_cols m) 0%Z, Fin (f j))) (seq 0 n) ->
  (forall j, j < n -> (0 < f j)%Qc) ->
  forall (u : Qc) (rd : Qc -> Qc) (c : nat) (C' : nat -> nat -> Qc) (ult rsv : nat -> Qc) (tult trsv : Qc),
  rounding u rd -> (forall i j, i + j < n -> roundings u c (C i j) (C' i j)) ->
  rd_ladder rd n C' f ult rsv tult trsv ->
  (qn (n - 1 + c + 1 + n) * u < 1)%Qc ->
  rounded_as u n (fun i => i + c + 1) (c_rows r) (c_total r) ult rsv tult trsv.
Proof. exact c91_given. Qed.
Print Assumptions C91_rounded_given_factors.

(** Such computations exist for every rounding. *)
Theorem C91_runs : forall rd n C W alpha k (inc : nat -> nat -> bool) tail, 0 < n ->
  (forall j, j < n - 1 -> inc (n - 2 - j) j = true) ->
  (forall j, j < n - 1 -> exists i, i + j < n - 1 /\ (0 < W i j)%Qc) ->
  (exists f ult rsv tult trsv,
     (forall j, j < n - 1 -> rd_weighted rd C (window_rows k (n - 1 - j)) j (f j)) /\ f (n - 1) = tail /\
     rd_ladder rd n C f ult rsv tult trsv) /\
  (exists f ult rsv tult trsv,
     (forall j, j < n - 1 -> rd_simple rd C (filter (fun i => inc i j) (window_rows k (n - 1 - j))) j (f j)) /\ f (n - 1) = tail /\
     rd_ladder rd n C f ult rsv tult trsv) /\
  (exists f ult rsv tult trsv,
     (forall j, j < n - 1 -> rd_mack rd C W alpha (filter (fun i => qcltb 0 (W i j)) (seq 0 (n - 1 - j))) j (f j)) /\ f (n - 1) = 1%Qc /\
     rd_ladder rd n C f ult rsv tult trsv).
Proof. exact c91_runs. Qed.
Print Assumptions C91_runs.

(** No such bound holds for medial averages: however small the unit, there are four link
    ratios and an order preserving rounding that move their medial average by more than 1/2
    (a ratio just above the smallest is dropped once it is rounded to it). *)
Theorem C91_rounded_medial_refuted : forall u : Qc, (0 < u)%Qc -> (u < 1)%Qc ->
  exists (rd : Qc -> Qc) (C : nat -> nat -> Qc) (q q' : Qc),
    rounding u rd /\ (forall x y, (x <= y)%Qc -> (rd x <= rd y)%Qc) /\ (forall i j, (0 < C i j)%Qc) /\
    medial_avg (map (fun i => Fin (C i 1%nat / C i 0%nat)%Qc) (seq 0 4)) = Ok (Fin q) /\
    medial_avg (map (fun i => Fin (rd_link rd C i 0)) (seq 0 4)) = Ok (Fin q') /\
    (q' - q > 1 / qz 2)%Qc.
Proof. exact c91_medial. Qed.
Print Assumptions C91_rounded_medial_refuted.

Example C91_nonvacuous :
  regular ex_m 4 ex_C /\ positive 4 ex_C /\ tail_fits (m_cols ex_m) /\ clvi ex_m = Ok [3; 2; 1; 0] /\
  weights (a2aind_init ex_m) 4 (fun _ _ => 1%Qc) /\
  rounding (1 / qz (2 ^ 53)) truncate /\
  (qn (3 * (3 + 2 * 0 + 2 * 1 * (0 + 1) + 2 * 3 + 1) + 0 + 1 + 4) * (1 / qz (2 ^ 53)) < 1)%Qc /\
  (forall i j, i + j < 4 -> roundings (1 / qz (2 ^ 53)) 0 (ex_C i j) (ex_C i j)) /\
  exists f ult rsv tult trsv,
    (forall j, j < 3 -> rd_mack truncate ex_C (fun _ _ => 1%Qc) 1 (filter (fun _ => qcltb 0 1) (seq 0 (3 - j))) j (f j)) /\
    f 3 = 1%Qc /\ rd_ladder truncate 4 ex_C f ult rsv tult trsv.
Proof.
  split; [apply ex_regular|]. split; [apply ex_positive|]. split; [apply ex_spaced|]. split; [apply ex_clvi|].
  split.
  { split; [|split].
    - intros i j Hi Hj. destruct i as [|[|[|i]]]; [| | |lia]; (destruct j as [|[|[|j]]]; [| | |lia]); vm_compute; reflexivity.
    - intros i j _. discriminate.
    - intros j Hj. exists 0. split; [lia|reflexivity]. }
  split; [exact truncate_rounding|]. split; [vm_compute; reflexivity|].
  split; [intros i j _; unfold roundings; simpl; split; qlra|].
  destruct (c91_runs truncate 4 ex_C (fun _ _ => 1%Qc) 1 0 (fun _ _ => true) 1%Qc) as (_ & _ & H); [lia|auto| |exact H].
  intros j Hj. exists 0. split; [lia|reflexivity].
Qed.
