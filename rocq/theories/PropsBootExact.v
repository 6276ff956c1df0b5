(** C93: triangles the bootstrap refuses. *)

From Coq Require Import String QArith Qcanon ZArith List Bool Lia.
From Verif Require Import Val Frame Triangle A2A Base Mack Boot ListLib QcLib Spec Spec2 RegFacts BaseClaims BootClaims BootExact ExTri PropsBase ExMack PropsBoot.
Import ListNotations.
Open Scope string_scope.
Open Scope list_scope.
Open Scope nat_scope.

(** On a run-off triangle with positive losses boot_cl raises exactly if residuals are to be
    resampled and every origin develops in the same proportions, so that all residuals are
    zero; the exception is ValueError. *)
Theorem C93_boot_refuses_iff :
  forall (gm : list val -> val) (rt : val -> val) (m : lmat) (n : nat) (C : nat -> nat -> Qc) (cl rl : list nat)
         (ind : list (list val)) (w : nat -> nat -> bool) (sims : nat) (par : bool)
         (rng : list val -> (nat -> val) * (list (val * val) -> nat -> val)) (e : exn),
  regular m n C -> positive n C -> 2 < n -> tail_fits (m_cols m) ->
  (forall i j, i + j < n - 1 -> cell ind i j = Fin (if w i j then 1 else 0)%Qc) ->
  (forall j, j < n - 1 -> w (n - 2 - j) j = true) ->
  root_like rt ->
  boot_cl gm rt (mkTri m "origin" "dev" "value") cl rl ind sims par rng = Err e <->
  e = ValueError /\ par = false /\ 0 < sims /\
  (exists g, forall i j, i + S j < n -> C i (S j) = (C i j * g j)%Qc).
Proof.
  intros gm rt m n C cl rl ind w sims par rng e R P Hn Ev Hi Hl Rt.
  exact (c93 m n C R P Hn Ev ind w Hi Hl gm rt Rt cl rl sims par rng e).
Qed.
Print Assumptions C93_boot_refuses_iff.

(** Both outcomes occur: four origins with different developments, and three with the same. *)
Definition exact_C (i j : nat) : Qc :=
  nth j (nth i [[qz 100; qz 200; qz 300]; [qz 200; qz 400; 0]; [qz 150; 0; 0]]%Qc []) 0%Qc.
Lemma exact_regular : regular exact_m 3 exact_C.
Proof.
  repeat split; simpl; auto.
  - repeat constructor.
  - repeat constructor.
  - intros row H. repeat (destruct H as [<-|H]; [reflexivity|]). contradiction.
  - intros i j Hi Hj. do 3 (destruct i as [|i]; [do 3 (destruct j as [|j]; [reflexivity|]); lia|]). lia.
Qed.
Lemma exact_positive : positive 3 exact_C.
Proof.
  intros i j H. do 3 (destruct i as [|i]; [do 3 (destruct j as [|j]; [first [reflexivity|lia]|]); lia|]). lia.
Qed.
Example C93_nonvacuous : regular bt_m 4 ex_C /\ positive 4 ex_C /\ tail_fits (m_cols bt_m) /\ root_like ex_rt /\
  (match ex_boot 2 with Ok _ => True | Err _ => False end) /\
  ~ (exists g, forall i j, i + S j < 4 -> ex_C i (S j) = (ex_C i j * g j)%Qc) /\
  regular exact_m 3 exact_C /\ positive 3 exact_C /\
  (exists g, forall i j, i + S j < 3 -> exact_C i (S j) = (exact_C i j * g j)%Qc) /\
  boot_cl ex_gm ex_rt (mkTri exact_m "origin" "dev" "value") [2; 1; 0] [2; 1; 0] (a2aind_init exact_m) 2 false mean_rng = Err ValueError.
Proof.
  split; [apply bt_regular|]. split; [apply ex_positive|]. split; [apply bt_spaced|]. split; [apply ex_rt_ok|].
  split; [vm_compute; exact Logic.I|]. split.
  - intros (g & H). assert (A := H 0 0 ltac:(lia)). assert (B := H 1 0 ltac:(lia)).
    assert (E : (ex_C 0 1 * ex_C 1 0 = ex_C 1 1 * ex_C 0 0)%Qc) by (rewrite A, B; ring).
    apply (f_equal (fun q => qceqb q (ex_C 1 1 * ex_C 0 0))) in E. vm_compute in E. discriminate.
  - split; [apply exact_regular|]. split; [apply exact_positive|]. split; [|vm_compute; reflexivity].
    exists (fun j => nth j [qz 2; Q2Qc (3 # 2)] 0%Qc). intros i j H.
    do 3 (destruct i as [|i]; [do 3 (destruct j as [|j]; [first [apply Qc_is_canon; vm_compute; reflexivity|lia]|]); lia|]). lia.
Qed.
