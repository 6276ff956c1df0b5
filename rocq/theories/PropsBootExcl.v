(** C21, bootstrap: link ratios switched off have no effect on boot_cl. *)

From Coq Require Import String QArith Qcanon ZArith List Bool Lia.
From Verif Require Import Val Frame Triangle A2A Base Mack Boot ListLib QcLib Spec Spec2 RegFacts BaseClaims BootClaims ExTri PropsBase ExMack PropsBoot.
Import ListNotations.
Open Scope string_scope.
Open Scope list_scope.
Open Scope nat_scope.

(** Two choices of link ratios that keep the latest one of each period: the same call,
    the same outcome.  (Without the latest one the call raises, C21.) *)
Theorem C21_boot_cl_ignores_exclusions_refuted :
  forall (gm : list val -> val) (rt : val -> val) (m : lmat) (n : nat) (C : nat -> nat -> Qc) (cl rl : list nat)
         (ind ind' : list (list val)) (w w' : nat -> nat -> bool) (sims : nat) (par : bool)
         (rng : list val -> (nat -> val) * (list (val * val) -> nat -> val)),
  regular m n C -> positive n C -> 2 < n -> tail_fits (m_cols m) ->
  (forall i j, i + j < n - 1 -> cell ind i j = Fin (if w i j then 1 else 0)%Qc) ->
  (forall j, j < n - 1 -> w (n - 2 - j) j = true) ->
  (forall i j, i + j < n - 1 -> cell ind' i j = Fin (if w' i j then 1 else 0)%Qc) ->
  (forall j, j < n - 1 -> w' (n - 2 - j) j = true) ->
  boot_cl gm rt (mkTri m "origin" "dev" "value") cl rl ind' sims par rng
  = boot_cl gm rt (mkTri m "origin" "dev" "value") cl rl ind sims par rng.
Proof.
  intros gm rt m n C cl rl ind ind' w w' sims par rng R P Hn Ev Hi Hl Hi' Hl'.
  rewrite (boot_eq m n C R P Hn Ev ind w Hi Hl gm rt cl rl sims par rng).
  exact (boot_eq m n C R P Hn Ev ind' w' Hi' Hl' gm rt cl rl sims par rng).
Qed.
Print Assumptions C21_boot_cl_ignores_exclusions_refuted.

(** All ratios kept, or the oldest of the first period switched off. *)
Definition all_ind : list (list val) := a2aind_init bt_m.
Definition off_ind : list (list val) := map (fun i => map (fun j => if (i =? 0) && (j =? 0) then Fin 0%Qc else cell all_ind i j) (seq 0 3)) (seq 0 3).
Example C21_boot_nonvacuous : regular bt_m 4 ex_C /\ positive 4 ex_C /\ tail_fits (m_cols bt_m) /\
  (forall i j, i + j < 4 - 1 -> cell all_ind i j = Fin (if true then 1 else 0)%Qc) /\
  (forall i j, i + j < 4 - 1 -> cell off_ind i j = Fin (if negb ((i =? 0) && (j =? 0)) then 1 else 0)%Qc) /\
  (forall j, j < 4 - 1 -> negb ((4 - 2 - j =? 0) && (j =? 0)) = true).
Proof.
  split; [apply bt_regular|]. split; [apply ex_positive|]. split; [apply bt_spaced|]. split; [|split].
  - intros i j H. do 3 (destruct i as [|i]; [do 3 (destruct j as [|j]; [first [vm_compute; reflexivity|lia]|]); lia|]). lia.
  - intros i j H. do 3 (destruct i as [|i]; [do 3 (destruct j as [|j]; [first [vm_compute; reflexivity|lia]|]); lia|]). lia.
  - intros j H. do 3 (destruct j as [|j]; [reflexivity|]). lia.
Qed.
