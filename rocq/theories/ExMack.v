(** Concrete Mack estimates, for the non-vacuity examples. *)

From Coq Require Import String QArith Qcanon ZArith List Bool Lia Sorting.Sorted.
From Verif Require Import Val Frame Triangle A2A Base Mack QcLib Spec ExTri MackClaims2.
Import ListNotations.
Open Scope list_scope.
Open Scope nat_scope.

Definition num (v : val) : Qc := match v with Fin q => q | _ => 0%Qc end.
Definition ok_or {A} (d : A) (r : res A) : A := match r with Ok x => x | Err _ => d end.
Definition no_result : mack_result :=
  mkMack (mkRes [] (NaN, NaN, NaN) [] ([], []) NaN) [] [] [] [] [] NaN.

(** alpha = 1, all link ratios. *)
Definition ex_k : mack_result :=
  ok_or no_result (mack_cl (mkTri ex_m "origin" "dev" "value") [3; 2; 1; 0] (a2aind_init ex_m) 1 (vz 1)).
Definition ex_f (j : nat) : Qc := num (nth j (map snd (c_ldfs (k_cl ex_k))) NaN).
Definition ex_s (j : nat) : Qc := num (nth j (map snd (k_devpvar ex_k)) NaN).
Definition ex_u (j : nat) : Qc := num (nth j (map snd (k_ldfvar ex_k)) NaN).
Definition ex_e (i : nat) : Qc := num (nth i (k_mse ex_k) NaN).

Lemma ex_k_ok : mack_cl (mkTri ex_m "origin" "dev" "value") [3; 2; 1; 0] (a2aind_init ex_m) 1 (vz 1) = Ok ex_k.
Proof. vm_compute. reflexivity. Qed.
Lemma ex_k_ldfs : c_ldfs (k_cl ex_k) = map (fun j => (nth j (m_cols ex_m) 0%Z, Fin (ex_f j))) (seq 0 4).
Proof. vm_compute. reflexivity. Qed.
Lemma ex_k_devpvar : k_devpvar ex_k = map (fun j => (nth j (m_cols ex_m) 0%Z, Fin (ex_s j))) (seq 0 3).
Proof. vm_compute. reflexivity. Qed.
Lemma ex_k_ldfvar : k_ldfvar ex_k = map (fun j => (nth j (m_cols ex_m) 0%Z, Fin (ex_u j))) (seq 0 3).
Proof. vm_compute. reflexivity. Qed.
Lemma ex_k_mse : k_mse ex_k = map (fun i => Fin (ex_e i)) (seq 0 4).
Proof. vm_compute. reflexivity. Qed.
Lemma ex_weights : weights (a2aind_init ex_m) 4 (fun _ _ => 1%Qc).
Proof. apply (weights_init ex_m 4 ex_C ex_regular ex_positive). lia. Qed.

(** The indicators of [ex_ind] as weights. *)
Lemma ex_ind_weights : weights ex_ind 4 (fun i j => if ex_w i j then 1 else 0)%Qc.
Proof.
  split; [|split].
  - intros i j Hi Hj. do 3 (destruct i as [|i]; [do 3 (destruct j as [|j]; [vm_compute; reflexivity|]); lia|]). lia.
  - intros i j H. destruct (ex_w i j); vm_compute; discriminate.
  - intros j Hj. exists 0. split; [lia|]. destruct j as [|[|[|j]]]; try lia; vm_compute; reflexivity.
Qed.

(** A triangle that is fully developed after three periods: the link ratios of the
    second and third columns do not vary, those of the first do. *)
Definition dev_rows : list (list Z) :=
  [[100; 150; 300; 300; 300]; [110; 176; 352; 352; 0]; [90; 120; 240; 0; 0]; [130; 200; 0; 0; 0]; [100; 0; 0; 0; 0]]%Z.
Definition dev_C (i j : nat) : Qc := qz (nth j (nth i dev_rows []) 0%Z).
Definition dev_m : lmat := mkMat [1; 2; 3; 4; 5]%Z [1; 2; 3; 4; 5]%Z
  (map (fun i => map (fun j => if i + j <? 5 then Fin (dev_C i j) else NaN) (seq 0 5)) (seq 0 5)).
Definition dev_k : mack_result :=
  ok_or no_result (mack_cl (mkTri dev_m "origin" "dev" "value") [4; 3; 2; 1; 0] (a2aind_init dev_m) 1 (vz 1)).
Lemma dev_regular : regular dev_m 5 dev_C.
Proof.
  repeat split; simpl; auto.
  - repeat constructor.
  - repeat constructor.
  - intros row H. repeat (destruct H as [<-|H]; [reflexivity|]). contradiction.
  - intros i j Hi Hj. do 5 (destruct i as [|i]; [do 5 (destruct j as [|j]; [reflexivity|]); lia|]). lia.
Qed.
Lemma dev_positive : positive 5 dev_C.
Proof.
  intros i j H. do 5 (destruct i as [|i]; [do 5 (destruct j as [|j]; [first [reflexivity|lia]|]); lia|]). lia.
Qed.
