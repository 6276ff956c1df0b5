(** C79: the default chain ladder in rounded arithmetic. *)

From Coq Require Import String QArith Qcanon ZArith List Bool Lia.
From Verif Require Import Val Frame Triangle A2A Base QcLib Spec ExTri SpecRound Round RoundClaims.
Import ListNotations.
Open Scope list_scope.
Open Scope nat_scope.

(** For every run-off triangle with n origins, positive losses [C] and tail factor, every
    rounding with unit [u] and every order of the additions: if the cells [C'] the machine
    holds are at most [c] roundings away from the losses (none for cumulative input), the
    ultimate the machine reports for the i-th origin differs from that of base_cl by at most
    gamma (i^2 + i + 1 + c (2i + 1)) of it, the total by gamma (n^2 + c (2n - 1)); reserves
    differ by gamma of one rounding more, of ultimate and latest loss. *)
Theorem C79_rounded_chain_ladder :
  forall (gm : list val -> val) (m : lmat) (n : nat) (C : nat -> nat -> Qc) (w : string) (cl : list nat) (tail : Qc),
  regular m n C -> positive n C -> 2 < n -> tail_fits (m_cols m) -> clvi m = Ok cl -> (0 < tail)%Qc ->
  exists r, base_cl gm (mkTri m "origin" "dev" w) cl (a2aind_init m) (SelLabel "all-weighted") (Fin tail)
              = (SelLabel "all-weighted", Ok r) /\
  forall (u : Qc) (rd : Qc -> Qc) (c : nat) (C' : nat -> nat -> Qc) (ult rsv : nat -> Qc) (tult trsv : Qc),
  rounding u rd -> (forall i j, i + j < n -> roundings u c (C i j) (C' i j)) ->
  rd_base_cl rd n C' tail ult rsv tult trsv ->
  (qn (n * n + 1 + c * (2 * n - 1)) * u < 1)%Qc ->
  (forall i row, nth_error (c_rows r) i = Some row -> exists U L : Qc,
     s_latest row = Fin L /\ s_ultimate row = Fin U /\ s_reserve row = Fin (U - L) /\
     close (gamma u (i * i + i + 1 + c * (2 * i + 1)) * U) (ult i) U /\
     close (gamma u (i * i + i + 2 + c * (2 * i + 1)) * (U + L)) (rsv i) (U - L)) /\
  exists U L : Qc, c_total r = (Fin L, Fin U, Fin (U - L)) /\
     close (gamma u (n * n + c * (2 * n - 1)) * U) tult U /\
     close (gamma u (n * n + 1 + c * (2 * n - 1)) * (U + L)) trsv (U - L).
Proof. exact c79. Qed.
Print Assumptions C79_rounded_chain_ladder.

(** Cells accumulated from nonnegative increments are j roundings away at period j. *)
Theorem C79_rounded_cells : forall (u : Qc) (rd : Qc -> Qc) (x : nat -> Qc) (j : nat),
  rounding u rd -> (forall k, k <= j -> (0 <= x k)%Qc) ->
  roundings u j (sumf 0 (S j) x) (rd_cum rd x j).
Proof. exact c79_cells. Qed.
Print Assumptions C79_rounded_cells.

(** Such a computation exists for every rounding; truncation to 53 significant bits is one. *)
Theorem C79_runs : forall rd n C tail, 0 < n ->
  exists ult rsv tult trsv, rd_base_cl rd n C tail ult rsv tult trsv.
Proof. exact c79_run. Qed.
Print Assumptions C79_runs.

Example C79_nonvacuous :
  regular ex_m 4 ex_C /\ positive 4 ex_C /\ tail_fits (m_cols ex_m) /\ clvi ex_m = Ok [3; 2; 1; 0] /\
  rounding (1 / qz (2 ^ 53)) truncate /\ truncate (1 / qz 3)%Qc <> (1 / qz 3)%Qc /\
  (qn (4 * 4 + 1) * (1 / qz (2 ^ 53)) < 1)%Qc /\
  (forall i j, i + j < 4 -> roundings (1 / qz (2 ^ 53)) 0 (ex_C i j) (ex_C i j)) /\
  exists ult rsv tult trsv, rd_base_cl truncate 4 ex_C 1 ult rsv tult trsv.
Proof.
  split; [apply ex_regular|]. split; [apply ex_positive|]. split; [apply ex_spaced|]. split; [apply ex_clvi|].
  split; [exact truncate_rounding|]. split.
  - intros H. apply (f_equal this) in H. vm_compute in H. discriminate H.
  - split; [vm_compute; reflexivity|]. split.
    + intros i j _. unfold roundings. simpl. split; qlra.
    + apply c79_run. lia.
Qed.
