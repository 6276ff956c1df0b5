(** C21: base_cl with every label when link ratios are switched off. *)

From Coq Require Import String Ascii QArith Qcanon ZArith List Bool Lia Sorting.Sorted.
From Verif Require Import Val Frame Triangle A2A Base QcLib Spec SpecEmerge ExTri ExclBase.
Import ListNotations.
Open Scope list_scope.
Open Scope nat_scope.

(** Full claim: the factors base_cl uses do not depend on switched-off link ratios.
    Whatever the label, base_cl uses that row of a2a_avgs() and the tail factor; with
    C21_excluded_ratios_not_averaged_partial these are, for every simple, geometric and
    medial label, the averages of the link ratios that are not switched off. *)
Theorem C21_base_cl_labels_partial :
  forall (gm : list val -> val) (m : lmat) (n : nat) (C : nat -> nat -> Qc) (ind : list (list val)) (w : nat -> nat -> bool)
         (v : string) (cl : list nat) (s : string) (tail : val) (r : cl_result),
  regular m n C -> positive n C -> 2 < n -> tail_fits (m_cols m) ->
  (forall i j, i + j < n - 1 -> cell ind i j = Fin (if w i j then 1 else 0)%Qc) ->
  (forall j, j < n - 1 -> w (n - 2 - j) j = true) ->
  snd (base_cl gm (mkTri m "origin" "dev" v) cl ind (SelLabel s) tail) = Ok r ->
  exists avgs, a2a_avgs gm m ind = Ok avgs /\ List.length (c_ldfs r) = n /\
    (forall j, j < n - 1 -> entry avgs s j = Some (nth j (map snd (c_ldfs r)) NaN)) /\
    nth (n - 1) (map snd (c_ldfs r)) NaN = tail.
Proof. exact c21_labels. Qed.
Print Assumptions C21_base_cl_labels_partial.

(** With a volume-weighted label, any of them, the result is the one with nothing
    switched off. *)
Theorem C21_weighted_labels_refuted :
  forall (gm : list val -> val) (m : lmat) (n : nat) (C : nat -> nat -> Qc) (ind : list (list val)) (w : nat -> nat -> bool)
         (v : string) (cl : list nat) (s : string) (tail : val),
  regular m n C -> positive n C -> 1 < n ->
  (forall i j, i + j < n - 1 -> cell ind i j = Fin (if w i j then 1 else 0)%Qc) ->
  (forall j, j < n - 1 -> w (n - 2 - j) j = true) -> volume_weighted s ->
  base_cl gm (mkTri m "origin" "dev" v) cl ind (SelLabel s) tail
  = base_cl gm (mkTri m "origin" "dev" v) cl (a2aind_init m) (SelLabel s) tail.
Proof. exact c21_weighted_labels. Qed.
Print Assumptions C21_weighted_labels_refuted.

(** With the latest link ratio of a period switched off, base_cl raises IndexError for
    every label, the volume-weighted ones included. *)
Theorem C21_base_cl_raises_refuted :
  forall (gm : list val -> val) (m : lmat) (n : nat) (C : nat -> nat -> Qc) (ind : list (list val)) (w : nat -> nat -> bool)
         (v : string) (cl : list nat) (s : string) (tail : val) (j : nat),
  regular m n C -> positive n C -> 2 < n ->
  (forall i j, i + j < n - 1 -> cell ind i j = Fin (if w i j then 1 else 0)%Qc) ->
  j < n - 1 -> w (n - 2 - j) j = false ->
  base_cl gm (mkTri m "origin" "dev" v) cl ind (SelLabel s) tail = (SelLabel s, Err IndexError).
Proof. exact c21_label_raises. Qed.
Print Assumptions C21_base_cl_raises_refuted.

Definition off_w (i j : nat) : bool := negb ((i =? 2) && (j =? 0)).
Definition off_ind : list (list val) := [[vz 1; vz 1; vz 1]; [vz 1; vz 1; vz 0]; [vz 0; vz 0; vz 0]].
Example C21_labels_nonvacuous :
  volume_weighted "weighted-2" /\
  (exists r, snd (base_cl ex_gm (mkTri ex_m "origin" "dev" "value") [3; 2; 1; 0] ex_ind (SelLabel "medial-2") (vz 1)) = Ok r /\
     veqb (nth 0 (map snd (c_ldfs r)) NaN) (vdiv (vz 4) (vz 3)) = true) /\
  (forall i j, i + j < 4 - 1 -> cell off_ind i j = Fin (if off_w i j then 1 else 0)%Qc) /\ off_w (4 - 2 - 0) 0 = false /\
  snd (base_cl ex_gm (mkTri ex_m "origin" "dev" "value") [3; 2; 1; 0] off_ind (SelLabel "all-weighted") (vz 1)) = Err IndexError.
Proof.
  split; [right; exists 2; reflexivity|]. split; [eexists; split; [vm_compute; reflexivity|vm_compute; reflexivity]|].
  split; [intros i j H; do 3 (destruct i as [|i]; [do 3 (destruct j as [|j]; [first [reflexivity|lia]|]); lia|]); lia|].
  split; [reflexivity|]. vm_compute. reflexivity.
Qed.
