(** The chain ladder: C22-C26. *)

From Coq Require Import String Ascii QArith Qcanon ZArith List Bool Lia Permutation Sorting.Sorted.
From Verif Require Import Val Frame Triangle A2A Base QcLib Spec ExTri BaseClaims BaseShape.
Import ListNotations.
Open Scope list_scope.
Open Scope nat_scope.

(** [prodf k l f] is f k * f (k+1) * ... * f (k+l-1); [sumf] likewise. *)

(** ** C22.  In every summary base_cl returns, for every triangle and selection, the
    cumulative factor at the maturity [ds_k] is the product of the factors at
    positions k, k+1, ... (the last one being the tail factor); emergence is its
    reciprocal. *)
Theorem C22_cldfs_are_products :
  forall (gm : list val -> val) (t : tri) (cl : list nat) (ind : list (list val)) (sel : sel_arg) (tail : val)
         (sel' : sel_arg) (r : cl_result) (ds : list Z) (f : nat -> Qc),
  increasing ds ->
  base_cl gm t cl ind sel tail = (sel', Ok r) ->
  c_ldfs r = map (fun j => (nth j ds 0%Z, Fin (f j))) (seq 0 (List.length ds)) ->
  forall row k, In row (c_rows r) -> k < List.length ds -> s_maturity row = nth k ds 0%Z ->
    s_cldf row = Fin (prodf k (List.length ds - k) f) /\
    (prodf k (List.length ds - k) f <> 0%Qc ->
       s_emergence row = Fin (1 / prodf k (List.length ds - k) f)%Qc).
Proof. exact c22_summary. Qed.
Print Assumptions C22_cldfs_are_products.

(** The default selection on a run-off triangle gives such factors. *)
Theorem C22_default_factors :
  forall (gm : list val -> val) (m : lmat) (n : nat) (C : nat -> nat -> Qc) (v : string) (cl : list nat) (tail : Qc),
  regular m n C -> positive n C -> 2 < n -> tail_fits (m_cols m) -> clvi m = Ok cl ->
  exists r, base_cl gm (mkTri m "origin" "dev" v) cl (a2aind_init m) (SelLabel "all-weighted") (Fin tail)
              = (SelLabel "all-weighted", Ok r) /\
     c_ldfs r = map (fun j => (nth j (m_cols m) 0%Z,
        Fin (if S j <? n then sumf 0 (n - 1 - j) (fun i => C i (S j)) / sumf 0 (n - 1 - j) (fun i => C i j)
             else tail)%Qc)) (seq 0 n).
Proof. exact c23_all_weighted. Qed.
Print Assumptions C22_default_factors.

Example C22_nonvacuous : regular ex_m 4 ex_C /\ positive 4 ex_C /\ tail_fits (m_cols ex_m) /\
  clvi ex_m = Ok [3; 2; 1; 0] /\
  match snd (base_cl ex_gm (mkTri ex_m "origin" "dev" "value") [3; 2; 1; 0] (a2aind_init ex_m)
               (SelSeq [vz 2; vz 3; vz 5]) (vz 7)) with
  | Ok r => map s_cldf (c_rows r) = [vz 7; vz 35; vz 105; vz 210] /\
            map s_maturity (c_rows r) = [48; 36; 24; 12]%Z
  | Err _ => False
  end.
Proof.
  split; [apply ex_regular|]. split; [apply ex_positive|]. split; [apply ex_spaced|]. split; [apply ex_clvi|].
  split; vm_compute; reflexivity.
Qed.

(** With unevenly spaced development periods (12, 24, 48) the tail factor is stored
    under a label (36) that is no development period: the oldest origin gets no
    factor. *)
Definition uneven : lmat := mkMat [2001; 2002; 2003]%Z [12; 24; 48]%Z
  [[vz 100; vz 150; vz 180]; [vz 110; vz 176; NaN]; [vz 90; NaN; NaN]].
Theorem C22_uneven_spacing_refuted : exists r row,
  snd (base_cl ex_gm (mkTri uneven "origin" "dev" "value") [2; 1; 0] (a2aind_init uneven)
         (SelLabel "all-weighted") (vz 1)) = Ok r /\
  In row (c_rows r) /\ s_maturity row = 48%Z /\ s_cldf row = NaN.
Proof. eexists _, _. split; [vm_compute; reflexivity|]. split; [left; reflexivity|]. split; reflexivity. Qed.
Print Assumptions C22_uneven_spacing_refuted.

(** ** C23.  Reserve and total: for every triangle base_cl accepts. *)
Theorem C23_reserve_and_total :
  forall (gm : list val -> val) (t : tri) (cl : list nat) (ind : list (list val)) (sel : sel_arg) (tail : val)
         (sel' : sel_arg) (r : cl_result),
  base_cl gm t cl ind sel tail = (sel', Ok r) ->
  map s_origin (c_rows r) = m_idx (t_mat t) /\
  (forall row, In row (c_rows r) -> s_reserve row = vsub (s_ultimate row) (s_latest row)) /\
  c_total r = (nan_sum (map s_latest (c_rows r)), nan_sum (map s_ultimate (c_rows r)),
               nan_sum (map s_reserve (c_rows r))).
Proof. exact c23_general. Qed.
Print Assumptions C23_reserve_and_total.

(** The latest value is the origin's last observed one: for every triangle. *)
Theorem C23_latest :
  forall (gm : list val -> val) (m : lmat) (os ds : list Z) (f : Z -> Z -> val) (v : string) (cl : list nat)
         (ind : list (list val)) (sel : sel_arg) (tail : val) (sel' : sel_arg) (r : cl_result),
  increasing os -> increasing ds -> holds m os ds f ->
  (forall o, In o os -> exists d, In d ds /\ f o d <> NaN) ->
  base_cl gm (mkTri m "origin" "dev" v) cl ind sel tail = (sel', Ok r) ->
  forall row, In row (c_rows r) ->
    exists d, last_observed ds f (s_origin row) d /\ s_latest row = f (s_origin row) d.
Proof. exact c23_latest. Qed.
Print Assumptions C23_latest.

(** Ultimates: for run-off triangles with n origins and n periods. *)
Theorem C23_ultimate_partial :
  forall (gm : list val -> val) (m : lmat) (n : nat) (C : nat -> nat -> Qc) (v : string) (cl : list nat)
         (ind : list (list val)) (sel : sel_arg) (tail : val) (sel' : sel_arg) (r : cl_result) (f : nat -> Qc),
  regular m n C -> 0 < n -> clvi m = Ok cl ->
  base_cl gm (mkTri m "origin" "dev" v) cl ind sel tail = (sel', Ok r) ->
  c_ldfs r = map (fun j => (nth j (m_cols m) 0%Z, Fin (f j))) (seq 0 n) ->
  c_rows r = map (fun i => let k := n - 1 - i in let cldf := prodf k (n - k) f in
      mkRow (nth i (m_idx m) 0%Z) (nth k (m_cols m) 0%Z) (Fin cldf) (vdiv (Fin 1%Qc) (Fin cldf))
            (Fin (C i k)) (Fin (C i k * cldf)%Qc) (Fin (C i k * cldf - C i k)%Qc)) (seq 0 n).
Proof. exact c23_rows. Qed.
Print Assumptions C23_ultimate_partial.

Example C23_nonvacuous :
  match snd (base_cl ex_gm (mkTri ex_m "origin" "dev" "value") [3; 2; 1; 0] (a2aind_init ex_m)
               (SelSeq [vz 2; vz 3; vz 5]) (vz 7)) with
  | Ok r => map s_ultimate (c_rows r) = [vz (189 * 7); vz (200 * 35); vz (120 * 105); vz (130 * 210)] /\
            c_total r = (vz 639, vz 48223, vz 47584)
  | Err _ => False
  end.
Proof. split; vm_compute; reflexivity. Qed.

(** What base_cl computes for a triangle of any shape in which every origin is observed:
    the numbers of origins and factors agree, and the ultimate of the i-th origin is its
    latest loss times the factors from the i-th last on, whatever its maturity. *)
Theorem C23_ultimate_any_shape :
  forall (gm : list val -> val) (m : lmat) (os ds : list Z) (f : Z -> Z -> val) (v : string) (cl : list nat)
         (ind : list (list val)) (sel : sel_arg) (tail : val) (sel' : sel_arg) (r : cl_result) (xs : list Z) (g : nat -> Qc),
  increasing os -> increasing ds -> holds m os ds f ->
  (forall o, In o os -> exists d, In d ds /\ f o d <> NaN) ->
  increasing xs -> 1 < List.length xs -> 1 < List.length os ->
  base_cl gm (mkTri m "origin" "dev" v) cl ind sel tail = (sel', Ok r) ->
  c_ldfs r = map (fun j => (nth j xs 0%Z, Fin (g j))) (seq 0 (List.length xs)) ->
  List.length xs = List.length os /\
  forall row i, In row (c_rows r) -> i < List.length os -> s_origin row = nth i os 0%Z ->
    exists d, last_observed ds f (nth i os 0%Z) d /\ s_latest row = f (nth i os 0%Z) d /\
      s_ultimate row = vmul (f (nth i os 0%Z) d) (Fin (prodf (List.length os - 1 - i) (S i) g)).
Proof. exact c23_any. Qed.
Print Assumptions C23_ultimate_any_shape.

(** A triangle whose second origin is observed as long as the first: its ultimate is
    not latest times the factor at its maturity. *)
Definition ragged : lmat := mkMat [2001; 2002; 2003]%Z [12; 24; 36]%Z
  [[vz 100; vz 150; vz 180]; [vz 110; vz 176; vz 200]; [vz 90; NaN; NaN]].
Theorem C23_ragged_refuted : exists r row,
  snd (base_cl ex_gm (mkTri ragged "origin" "dev" "value") [2; 1; 1] (a2aind_init ragged)
         (SelSeq [vz 2; vz 3]) (vz 1)) = Ok r /\ clvi ragged = Ok [2; 1; 1] /\
  In row (c_rows r) /\ s_maturity row = 36%Z /\ s_latest row = vz 200 /\ s_cldf row = vz 1 /\
  s_ultimate row = vz 600.
Proof.
  eexists _, _. split; [vm_compute; reflexivity|]. split; [vm_compute; reflexivity|].
  split; [right; left; reflexivity|]. repeat split; vm_compute; reflexivity.
Qed.
Print Assumptions C23_ragged_refuted.

Example C23_any_shape_nonvacuous :
  holds ragged [2001; 2002; 2003]%Z [12; 24; 36]%Z (fun o d => match cell_at ragged o d with Some x => x | None => NaN end) /\
  match snd (base_cl ex_gm (mkTri ragged "origin" "dev" "value") [2; 1; 1] (a2aind_init ragged) (SelSeq [vz 2; vz 3]) (vz 1)) with
  | Ok r => map fst (c_ldfs r) = [12; 24; 36]%Z /\ map s_ultimate (c_rows r) = [vz 180; vz 600; vz 540]
  | Err _ => False end.
Proof.
  split.
  - repeat split; auto.
    + intros row H. simpl in H. repeat (destruct H as [<-|H]; [reflexivity|]). contradiction.
    + intros i j Hi Hj. simpl in Hi, Hj. do 3 (destruct i as [|i]; [do 3 (destruct j as [|j]; [vm_compute; reflexivity|]); lia|]). lia.
  - split; vm_compute; reflexivity.
Qed.

(** ** C24 *)
Theorem C24_squared_triangle :
  forall (gm : list val -> val) (m : lmat) (n : nat) (C : nat -> nat -> Qc) (v : string) (cl : list nat)
         (ind : list (list val)) (sel : sel_arg) (tail : val) (sel' : sel_arg) (r : cl_result) (f : nat -> Qc),
  regular m n C -> 0 < n -> clvi m = Ok cl ->
  base_cl gm (mkTri m "origin" "dev" v) cl ind sel tail = (sel', Ok r) ->
  c_ldfs r = map (fun j => (nth j (m_cols m) 0%Z, Fin (f j))) (seq 0 n) ->
  let cells := fst (c_trisqrd r) in
  List.length cells = n /\ (forall row, In row cells -> List.length row = n) /\
  (forall i j, i + j < n -> nth j (nth i cells []) NaN = Fin (C i j)) /\
  (forall i j, i < n -> j < n -> n <= i + j ->
     nth j (nth i cells []) NaN = Fin (C i (n - 1 - i)%nat * prodf (n - 1 - i) (j - (n - 1 - i)) f)%Qc) /\
  snd (c_trisqrd r) = map s_ultimate (c_rows r).
Proof. exact c24. Qed.
Print Assumptions C24_squared_triangle.

Example C24_nonvacuous :
  match snd (base_cl ex_gm (mkTri ex_m "origin" "dev" "value") [3; 2; 1; 0] (a2aind_init ex_m)
               (SelSeq [vz 2; vz 3; vz 5]) (vz 7)) with
  | Ok r => nth 2 (fst (c_trisqrd r)) [] = [vz 90; vz 120; vz 360; vz 1800] /\
            snd (c_trisqrd r) = [vz (189 * 7); vz (200 * 35); vz (120 * 105); vz (130 * 210)]
  | Err _ => False
  end.
Proof. split; vm_compute; reflexivity. Qed.

(** ** C25 *)
Theorem C25_scaling :
  forall (m m' : lmat) (n : nat) (C : nat -> nat -> Qc) (c : Qc),
  regular m n C -> regular m' n (fun i j => c * C i j)%Qc -> (0 < c)%Qc -> positive n C -> 1 < n ->
  m_idx m' = m_idx m -> m_cols m' = m_cols m ->
  forall (gm : list val -> val) (v : string) (cl : list nat) (ind : list (list val)) (sel : sel_arg) (tail : val)
         (sel' : sel_arg) (r : cl_result) (f : nat -> Qc),
    clvi m = Ok cl ->
    base_cl gm (mkTri m "origin" "dev" v) cl ind sel tail = (sel', Ok r) ->
    c_ldfs r = map (fun j => (nth j (m_cols m) 0%Z, Fin (f j))) (seq 0 n) ->
    clvi m' = Ok cl /\
    exists r', base_cl gm (mkTri m' "origin" "dev" v) cl ind sel tail = (sel', Ok r') /\
      c_ldfs r' = c_ldfs r /\
      c_rows r' = map (fun row => mkRow (s_origin row) (s_maturity row) (s_cldf row) (s_emergence row)
          (vmul (Fin c) (s_latest row)) (vmul (Fin c) (s_ultimate row)) (vmul (Fin c) (s_reserve row))) (c_rows r) /\
      c_total r' = (vmul (Fin c) (fst (fst (c_total r))), vmul (Fin c) (snd (fst (c_total r))),
                    vmul (Fin c) (snd (c_total r))).
Proof. exact c25. Qed.
Print Assumptions C25_scaling.

Definition ex_m_thousands : lmat :=
  mkMat (m_idx ex_m) (m_cols ex_m) (map (map (vmul (vz 1000))) (m_cells ex_m)).
Example C25_nonvacuous : regular ex_m_thousands 4 (fun i j => qz 1000 * ex_C i j)%Qc /\ (0 < qz 1000)%Qc.
Proof.
  split; [|reflexivity]. destruct ex_regular as (A & B & L1 & L2 & _).
  repeat split; auto.
  - intros row H. simpl in H. repeat (destruct H as [<-|H]; [reflexivity|]). contradiction.
  - intros i j Hi Hj. do 4 (destruct i as [|i]; [do 4 (destruct j as [|j]; [vm_compute; reflexivity|]); lia|]). lia.
Qed.

(** ** C26.  Explicit factors equal to those of a label give the same result, as a
    list or as a Series indexed by development period... *)
Theorem C26_list_equals_label :
  forall (gm : list val -> val) (m : lmat) (n : nat) (C : nat -> nat -> Qc) (ind : list (list val)),
  regular m n C -> positive n C -> 2 < n -> tail_fits (m_cols m) ->
  forall (avgs : list (string * list val)) (s : string) (row : string * list val) (tail : val) (t : tri) (cl : list nat),
    t_mat t = m -> a2a_avgs gm m ind = Ok avgs ->
    find (fun p => String.eqb (fst p) s) avgs = Some row ->
    snd (base_cl gm t cl ind (SelSeq (snd row)) tail) = snd (base_cl gm t cl ind (SelLabel s) tail).
Proof. exact c26_list. Qed.
Print Assumptions C26_list_equals_label.

Theorem C26_series_equals_label :
  forall (gm : list val -> val) (m : lmat) (n : nat) (C : nat -> nat -> Qc) (ind : list (list val)),
  regular m n C -> positive n C -> 2 < n -> tail_fits (m_cols m) ->
  forall (avgs : list (string * list val)) (s : string) (row : string * list val) (tail : val) (t : tri) (cl : list nat),
    t_mat t = m -> a2a_avgs gm m ind = Ok avgs ->
    find (fun p => String.eqb (fst p) s) avgs = Some row ->
    snd (base_cl gm t cl ind (SelSeries (combine (m_cols (a2a m)) (snd row))) tail)
    = snd (base_cl gm t cl ind (SelLabel s) tail).
Proof. exact c26_series. Qed.
Print Assumptions C26_series_equals_label.

(** ... sequences of the wrong length are rejected ... *)
Theorem C26_wrong_length_rejected :
  forall (gm : list val -> val) (t : tri) (cl : list nat) (ind : list (list val)) (l : list val) (s : series) (tail : val),
  0 < ncols (t_mat t) ->
  (List.length l <> ncols (t_mat t) - 1 -> snd (base_cl gm t cl ind (SelSeq l) tail) = Err ValueError) /\
  (List.length s <> ncols (t_mat t) - 1 -> snd (base_cl gm t cl ind (SelSeries s) tail) = Err ValueError).
Proof. exact c26_lengths. Qed.
Print Assumptions C26_wrong_length_rejected.

(** ... and a list or array is left alone, so that the call can be repeated ... *)
Theorem C26_list_not_modified_partial :
  forall (gm : list val -> val) (t : tri) (cl : list nat) (ind : list (list val)) (l : list val) (s : string) (tail : val),
  fst (base_cl gm t cl ind (SelSeq l) tail) = SelSeq l /\ fst (base_cl gm t cl ind (SelLabel s) tail) = SelLabel s.
Proof. exact c26_unmodified. Qed.
Print Assumptions C26_list_not_modified_partial.

(** ... but the tail is appended to a Series in place: the second call always fails. *)
Theorem C26_series_modified_refuted :
  forall (gm : list val -> val) (t : tri) (cl : list nat) (ind : list (list val)) (s : series) (tail : val),
  increasing (map fst s) -> 2 <= List.length s -> List.length s = ncols (t_mat t) - 1 ->
  exists d, fst (base_cl gm t cl ind (SelSeries s) tail) = SelSeries (s ++ [(d, tail)]) /\
    snd (base_cl gm t cl ind (SelSeries (s ++ [(d, tail)])) tail) = Err ValueError.
Proof. exact c26_series_mutated. Qed.
Print Assumptions C26_series_modified_refuted.

Example C26_nonvacuous :
  match a2a_avgs ex_gm ex_m (a2aind_init ex_m) with
  | Ok avgs => match find (fun p => String.eqb (fst p) "simple-2") avgs with
               | Some row => is_ok (snd (base_cl ex_gm (mkTri ex_m "origin" "dev" "value") [3; 2; 1; 0] (a2aind_init ex_m)
                               (SelSeq (snd row)) (vz 1))) = true
               | None => False
               end
  | Err _ => False
  end /\
  increasing (map fst [(12, vz 2); (24, vz 3); (36, vz 5)]%Z) /\ ncols ex_m - 1 = 3.
Proof. split; [vm_compute; reflexivity|]. split; [repeat constructor|reflexivity]. Qed.
