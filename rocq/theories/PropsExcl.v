(** C86: Mack's variances when link ratios are excluded. *)

From Coq Require Import String QArith Qcanon ZArith List Bool Lia.
From Verif Require Import Val Frame Triangle A2A Base Mack QcLib Spec SpecExcl ExTri ExMack ExclClaims.
Import ListNotations.
Open Scope list_scope.
Open Scope nat_scope.

(** ** C86.  The full property: the variance parameter of a period is the one estimated
    from its included link ratios.  What holds: it is that figure times (included - 1) /
    (observed - 1), and so the same exactly if nothing is excluded in that period or the
    included ratios do not vary; with one included ratio it is 0. *)
Theorem C86_variance_with_exclusions_partial :
  forall (m : lmat) (n : nat) (C : nat -> nat -> Qc) (ind : list (list val)) (w : nat -> nat -> bool) (alpha : nat)
         (v : string) (cl : list nat) (tail : val) (k : mack_result) (f : nat -> Qc),
  regular m n C -> positive n C -> 3 < n -> tail_fits (m_cols m) -> clvi m = Ok cl ->
  weights ind n (fun i j => if w i j then 1 else 0)%Qc ->
  mack_cl (mkTri m "origin" "dev" v) cl ind alpha tail = Ok k ->
  map snd (c_ldfs (k_cl k)) = map (fun j => Fin (f j)) (seq 0 n) ->
  forall j, j < n - 2 -> let rows := included n w j in
  (1 < List.length rows ->
     nth j (map snd (k_devpvar k)) NaN = Fin (variance_from rows C alpha f j * (qn (List.length rows - 1) / qn (n - 2 - j)))%Qc /\
     (nth j (map snd (k_devpvar k)) NaN = Fin (variance_from rows C alpha f j) <->
        (forall i, i + j < n - 1 -> w i j = true) \/ variance_from rows C alpha f j = 0%Qc)) /\
  (List.length rows = 1 -> nth j (map snd (k_devpvar k)) NaN = Fin 0%Qc).
Proof. exact c86. Qed.
Print Assumptions C86_variance_with_exclusions_partial.

Definition ex_kx : mack_result :=
  ok_or no_result (mack_cl (mkTri ex_m "origin" "dev" "value") [3; 2; 1; 0] ex_ind 1 (vz 1)).
Definition ex_fx (j : nat) : Qc := num (nth j (map snd (c_ldfs (k_cl ex_kx))) NaN).
Example C86_nonvacuous :
  weights ex_ind 4 (fun i j => if ex_w i j then 1 else 0)%Qc /\
  mack_cl (mkTri ex_m "origin" "dev" "value") [3; 2; 1; 0] ex_ind 1 (vz 1) = Ok ex_kx /\
  map snd (c_ldfs (k_cl ex_kx)) = map (fun j => Fin (ex_fx j)) (seq 0 4) /\
  included 4 ex_w 0 = [0; 2] /\ included 4 ex_w 1 = [0; 1].
Proof. split; [apply ex_ind_weights|]. split; [vm_compute; reflexivity|]. split; [vm_compute; reflexivity|]. split; reflexivity. Qed.

(** Excluding one of three ratios halves the variance estimated from the other two. *)
Theorem C86_variance_with_exclusions_refuted :
  exists (m : lmat) (C : nat -> nat -> Qc) (ind : list (list val)) (w : nat -> nat -> bool) (cl : list nat) (k : mack_result) (f : nat -> Qc) (j : nat),
    regular m 4 C /\ positive 4 C /\ tail_fits (m_cols m) /\ clvi m = Ok cl /\
    weights ind 4 (fun i j => if w i j then 1 else 0)%Qc /\
    mack_cl (mkTri m "origin" "dev" "value") cl ind 1 (vz 1) = Ok k /\
    map snd (c_ldfs (k_cl k)) = map (fun j => Fin (f j)) (seq 0 4) /\
    j < 4 - 2 /\ List.length (included 4 w j) = 2 /\
    nth j (map snd (k_devpvar k)) NaN = Fin (variance_from (included 4 w j) C 1 f j / qz 2)%Qc /\
    nth j (map snd (k_devpvar k)) NaN <> Fin (variance_from (included 4 w j) C 1 f j).
Proof.
  exists ex_m, ex_C, ex_ind, ex_w, [3; 2; 1; 0], ex_kx, ex_fx, 0. destruct C86_nonvacuous as (E1 & E2 & E3 & E4 & _).
  split; [apply ex_regular|]. split; [apply ex_positive|]. split; [apply ex_spaced|]. split; [apply ex_clvi|].
  split; [auto|]. split; [auto|]. split; [auto|]. split; [lia|]. split; [rewrite E4; reflexivity|]. split.
  - vm_compute. f_equal; try reflexivity; apply Qc_is_canon; reflexivity.
  - intro H. assert (Q : veqb (nth 0 (map snd (k_devpvar ex_kx)) NaN) (Fin (variance_from (included 4 ex_w 0) ex_C 1 ex_fx 0)) = false) by (vm_compute; reflexivity).
    rewrite H in Q. vm_compute in Q. discriminate.
Qed.
Print Assumptions C86_variance_with_exclusions_refuted.
