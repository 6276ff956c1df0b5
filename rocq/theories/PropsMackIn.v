(** C78 for mack_cl, and C90: indicators of cells without a link ratio. *)

From Coq Require Import String QArith Qcanon ZArith List Bool Lia.
From Verif Require Import Val Frame Triangle A2A Base Mack State SpecState ListLib QcLib Spec Enlarge ExTri ExMack EnlargeClaims
  MackW MackWClaims MackInClaims.
Import ListNotations.
Open Scope string_scope.
Open Scope list_scope.
Open Scope nat_scope.

(** mack_cl after assignments to periods of the link ratio table and to any origins
    (also before the first, between two or after the last of the table): it is the
    mack_cl of the indicators last assigned to the cells of the table. *)
Theorem C78_mack_any_origins :
  forall (m : lmat) (n : nat) (C : nat -> nat -> Qc), regular m n C -> positive n C -> 2 < n ->
  forall (v : string) (l : list (Z * Z * val)) (ind : list (list val)) (cl : list nat) (alpha : nat) (tail : val),
  let I := m_idx (a2a m) in let A := m_cols (a2a m) in
  (forall a, In a l -> In (snd (fst a)) A) ->
  (forall i j, i < List.length I -> j < List.length A ->
     nth j (nth i ind []) NaN = match last_value l (nth i I 0%Z) (nth j A 0%Z) with
                                | Some v => v | None => nth j (nth i (a2aind_init m) []) NaN end) ->
  mack_cl_in (mkTri m "origin" "dev" v) cl (frame_after m l) alpha tail
  = mack_cl (mkTri m "origin" "dev" v) cl ind alpha tail.
Proof. exact c78_mack. Qed.
Print Assumptions C78_mack_any_origins.

(** On ex_m: an origin before the first, one after the last, an excluded ratio. *)
Definition any_l : list (Z * Z * val) := [(1999, 24, vz 1); (2004, 12, vz 1); (2002, 12, vz 0)]%Z.
Example C78_mack_nonvacuous :
  regular ex_m 4 ex_C /\ positive 4 ex_C /\
  (forall a, In a any_l -> In (snd (fst a)) (m_cols (a2a ex_m))) /\
  (forall i j, i < List.length (m_idx (a2a ex_m)) -> j < List.length (m_cols (a2a ex_m)) ->
     nth j (nth i (upd2 (a2aind_init ex_m) 1 0 (vz 0)) []) NaN
     = match last_value any_l (nth i (m_idx (a2a ex_m)) 0%Z) (nth j (m_cols (a2a ex_m)) 0%Z) with
       | Some v => v | None => nth j (nth i (a2aind_init ex_m) []) NaN end) /\
  List.length (m_idx (frame_after ex_m any_l)) = 5 /\
  is_ok (mack_cl_in (mkTri ex_m "origin" "dev" "value") [3; 2; 1; 0] (frame_after ex_m any_l) 1 (vz 1)) = true.
Proof.
  assert (E1 : m_idx (a2a ex_m) = [2001; 2002; 2003]%Z) by (vm_compute; reflexivity).
  assert (E2 : m_cols (a2a ex_m) = [12; 24; 36]%Z) by (vm_compute; reflexivity).
  rewrite E1, E2. split; [exact ex_regular|]. split; [exact ex_positive|]. split; [|split; [|split]].
  - intros a [<-|[<-|[<-|[]]]]; simpl; auto.
  - cbn [List.length]. intros i j Hi Hj.
    do 3 (destruct i as [|i]; [do 3 (destruct j as [|j]; [vm_compute; reflexivity|]); lia|]). lia.
  - vm_compute. reflexivity.
  - vm_compute. reflexivity.
Qed.

(** A period that the link ratio table has not (the last development period, say): from
    then on mack_cl raises ValueError, whatever else is assigned. *)
Theorem C78_mack_outside_refuted :
  forall (m : lmat) (n : nat) (C : nat -> nat -> Qc), regular m n C -> positive n C -> 2 < n ->
  forall (v : string) (l : list (Z * Z * val)) (a : Z * Z * val) (cl : list nat) (alpha : nat) (tail : val),
  In a l -> ~ In (snd (fst a)) (m_cols (a2a m)) ->
  mack_cl_in (mkTri m "origin" "dev" v) cl (frame_after m l) alpha tail = Err ValueError.
Proof. exact c78_mack_out. Qed.
Print Assumptions C78_mack_outside_refuted.
Example C78_mack_outside_nonvacuous :
  let l := [(2001, 48, vz 0); (2001, 12, vz 1)]%Z in
  (exists a, In a l /\ ~ In (snd (fst a)) (m_cols (a2a ex_m))) /\
  is_ok (mack_cl (mkTri ex_m "origin" "dev" "value") [3; 2; 1; 0] (a2aind_init ex_m) 1 (vz 1)) = true.
Proof.
  split; [|vm_compute; reflexivity]. exists (2001, 48, vz 0)%Z. split; [left; auto|].
  replace (m_cols (a2a ex_m)) with [12; 24; 36]%Z by (vm_compute; reflexivity). simpl. lia.
Qed.

(** ** C90.  Two indicator tables that agree on the cells that hold a link ratio: the
    same averages, and the same base_cl with every kind of selection. *)
Theorem C90_base_cl :
  forall (gm : list val -> val) (m : lmat) (v : string) (cl : list nat) (ind ind' : list (list val)) (sel : sel_arg) (tail : val),
  (forall i j, i < nrows (a2a m) -> j < ncols (a2a m) -> cell (m_cells (a2a m)) i j <> NaN ->
     nth j (nth i ind []) NaN = nth j (nth i ind' []) NaN) ->
  a2a_avgs gm m ind = a2a_avgs gm m ind' /\
  base_cl gm (mkTri m "origin" "dev" v) cl ind sel tail = base_cl gm (mkTri m "origin" "dev" v) cl ind' sel tail.
Proof. exact c90_base. Qed.
Print Assumptions C90_base_cl.

(** mack_cl with alpha 1 or 2. *)
Theorem C90_mack_partial :
  forall (m : lmat) (n : nat) (C : nat -> nat -> Qc), regular m n C -> positive n C -> 2 < n ->
  forall (v : string) (ind ind' : list (list val)) (cl : list nat) (alpha : nat) (tail : val), 0 < alpha ->
  (forall i j, i + j < n - 1 -> nth j (nth i ind []) NaN = nth j (nth i ind' []) NaN) ->
  mack_cl (mkTri m "origin" "dev" v) cl ind alpha tail = mack_cl (mkTri m "origin" "dev" v) cl ind' alpha tail.
Proof. exact c90_mack. Qed.
Print Assumptions C90_mack_partial.

(** With alpha 0 (straight averages) the indicators of the cells without a link ratio
    are counted in the denominator: [W i j] is the indicator of every cell of the table,
    the link ratios are those with i + j < n - 1. *)
Theorem C90_alpha_0_factors :
  forall (m : lmat) (n : nat) (C : nat -> nat -> Qc), regular m n C -> positive n C -> 2 < n -> tail_fits (m_cols m) ->
  forall (v : string) (ind : list (list val)) (W : nat -> nat -> Qc),
  (forall i j, i < n - 1 -> j < n - 1 -> nth j (nth i ind []) NaN = Fin (W i j)) ->
  (forall i j, i < n - 1 -> j < n - 1 -> (0 <= W i j)%Qc) ->
  (forall j, j < n - 1 -> exists i, i + j < n - 1 /\ (0 < W i j)%Qc) ->
  forall (cl : list nat) (tail : val) (k : mack_result),
  mack_cl (mkTri m "origin" "dev" v) cl ind 0 tail = Ok k ->
  c_ldfs (k_cl k) = map (fun j => (nth j (m_cols m) 0%Z,
    Fin (if S j <? n then sumf 0 (n - 1 - j) (fun i => W i j * (C i (S j) / C i j)) / sumf 0 (n - 1) (fun i => W i j)
         else 1)%Qc)) (seq 0 n).
Proof. exact c90_alpha0. Qed.
Print Assumptions C90_alpha_0_factors.

(** On ex_m, all indicators set to 1: nothing is excluded, but the straight averages
    change. *)
Definition ones : list (list val) := [[vz 1; vz 1; vz 1]; [vz 1; vz 1; vz 1]; [vz 1; vz 1; vz 1]].
Definition ones_k : mack_result :=
  ok_or no_result (mack_cl (mkTri ex_m "origin" "dev" "value") [3; 2; 1; 0] ones 0 (vz 1)).
Definition init_k : mack_result :=
  ok_or no_result (mack_cl (mkTri ex_m "origin" "dev" "value") [3; 2; 1; 0] (a2aind_init ex_m) 0 (vz 1)).
Lemma ones_agree i j : i + j < 3 -> nth j (nth i ones []) NaN = nth j (nth i (a2aind_init ex_m) []) NaN.
Proof.
  intro H. do 3 (destruct i as [|i]; [do 3 (destruct j as [|j]; [first [lia|vm_compute; reflexivity]|]); lia|]). lia.
Qed.
Theorem C90_alpha_0_refuted :
  exists (m : lmat) (n : nat) (C : nat -> nat -> Qc) (cl : list nat) (ind ind' : list (list val)) (k k' : mack_result),
  regular m n C /\ positive n C /\ clvi m = Ok cl /\
  (forall i j, i + j < n - 1 -> nth j (nth i ind []) NaN = nth j (nth i ind' []) NaN) /\
  mack_cl (mkTri m "origin" "dev" "value") cl ind 0 (vz 1) = Ok k /\
  mack_cl (mkTri m "origin" "dev" "value") cl ind' 0 (vz 1) = Ok k' /\
  c_ldfs (k_cl k) <> c_ldfs (k_cl k').
Proof.
  exists ex_m, 4, ex_C, [3; 2; 1; 0], ones, (a2aind_init ex_m), ones_k, init_k.
  split; [exact ex_regular|]. split; [exact ex_positive|]. split; [vm_compute; reflexivity|]. split; [exact ones_agree|].
  split; [vm_compute; reflexivity|]. split; [vm_compute; reflexivity|].
  intro E. assert (K : veqb (snd (nth 2 (c_ldfs (k_cl ones_k)) (0%Z, NaN))) (snd (nth 2 (c_ldfs (k_cl init_k)) (0%Z, NaN))) = false)
    by (vm_compute; reflexivity).
  rewrite E in K. revert K. vm_compute. discriminate.
Qed.
Print Assumptions C90_alpha_0_refuted.

Example C90_nonvacuous :
  tail_fits (m_cols ex_m) /\
  (forall i j, i < 3 -> j < 3 -> nth j (nth i ones []) NaN = Fin (qz 1)) /\
  vsame (nth 2 (nth 1 ones []) NaN) (nth 2 (nth 1 (a2aind_init ex_m) []) NaN) = false /\
  is_ok (mack_cl (mkTri ex_m "origin" "dev" "value") [3; 2; 1; 0] ones 1 (vz 1)) = true /\
  mack_cl (mkTri ex_m "origin" "dev" "value") [3; 2; 1; 0] ones 0 (vz 1) = Ok ones_k.
Proof.
  split; [exact ex_spaced|]. split; [|split; [|split]].
  - intros i j Hi Hj. do 3 (destruct i as [|i]; [do 3 (destruct j as [|j]; [reflexivity|]); lia|]). lia.
  - vm_compute. reflexivity.
  - vm_compute. reflexivity.
  - vm_compute. reflexivity.
Qed.
