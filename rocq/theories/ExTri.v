(** A concrete run-off triangle used to show that the hypotheses of the theorems
    about [regular] triangles are met. *)

From Coq Require Import String QArith Qcanon ZArith List Bool Lia Sorting.Sorted.
From Verif Require Import Val Frame Triangle A2A Base QcLib Spec.
Import ListNotations.
Open Scope list_scope.
Open Scope nat_scope.

Definition ex_rows : list (list Z) :=
  [[100; 150; 180; 189]; [110; 176; 200; 0]; [90; 120; 0; 0]; [130; 0; 0; 0]]%Z.
Definition ex_C (i j : nat) : Qc := qz (nth j (nth i ex_rows []) 0%Z).
Definition ex_m : lmat := mkMat [2001; 2002; 2003; 2004]%Z [12; 24; 36; 48]%Z
  [[vz 100; vz 150; vz 180; vz 189]; [vz 110; vz 176; vz 200; NaN];
   [vz 90; vz 120; NaN; NaN]; [vz 130; NaN; NaN; NaN]].

Lemma ex_regular : regular ex_m 4 ex_C.
Proof.
  repeat split; simpl; auto.
  - repeat constructor.
  - repeat constructor.
  - intros row H. repeat (destruct H as [<-|H]; [reflexivity|]). contradiction.
  - intros i j Hi Hj. do 4 (destruct i as [|i]; [do 4 (destruct j as [|j]; [reflexivity|]); lia|]). lia.
Qed.
Lemma ex_positive : positive 4 ex_C.
Proof.
  intros i j H. do 4 (destruct i as [|i]; [do 4 (destruct j as [|j]; [first [reflexivity|lia]|]); lia|]). lia.
Qed.
Lemma ex_spaced : tail_fits (m_cols ex_m).
Proof.
  split; [intros j Hj; cbn in Hj; do 2 (destruct j as [|j]; [cbn; lia|]); lia|exists 0; cbn; lia].
Qed.
Lemma ex_clvi : clvi ex_m = Ok [3; 2; 1; 0].
Proof. vm_compute. reflexivity. Qed.

(** A stand-in for the geometric mean (only its type matters). *)
Definition ex_gm (l : list val) : val := vmean l.

(** Indicators with the link ratio (2002, 12) switched off. *)
Definition ex_ind : list (list val) := [[vz 1; vz 1; vz 1]; [vz 0; vz 1; vz 0]; [vz 1; vz 0; vz 0]].
Definition ex_w (i j : nat) : bool := negb ((i =? 1) && (j =? 0)).
Lemma ex_ind_ok i j : i + j < 4 - 1 -> cell ex_ind i j = Fin (if ex_w i j then 1 else 0)%Qc.
Proof.
  intro H. do 3 (destruct i as [|i]; [do 3 (destruct j as [|j]; [first [vm_compute; reflexivity|lia]|]); lia|]). lia.
Qed.
Lemma ex_w_latest j : j < 4 - 1 -> ex_w (4 - 2 - j) j = true.
Proof. intro H. do 3 (destruct j as [|j]; [reflexivity|]). lia. Qed.
