(** Link ratios and their averages: C17, C19, C20, C21. *)

From Coq Require Import String Ascii QArith Qcanon ZArith List Bool Lia Permutation Sorting.Sorted.
From Verif Require Import Val Frame Triangle A2A Base QcLib Spec ExTri AvgClaims AvgClaims2 BaseClaims.
Import ListNotations.
Open Scope list_scope.
Open Scope nat_scope.

(** ** C17.  [a2a] contains exactly the ratios of adjacent cells... *)
Theorem C17_a2a_cells_are_adjacent_ratios :
  forall (m : lmat) (os ds : list Z) (f : Z -> Z -> val),
    increasing os -> increasing ds -> holds m os ds f ->
    (forall o d d', In o os -> next_in ds d d' -> vdiv (f o d') (f o d) <> NaN ->
       cell_at (a2a m) o d = Some (vdiv (f o d') (f o d))) /\
    (forall o d x, cell_at (a2a m) o d = Some x -> x <> NaN ->
       In o os /\ exists d', next_in ds d d' /\ x = vdiv (f o d') (f o d)).
Proof. exact c17_general. Qed.
Print Assumptions C17_a2a_cells_are_adjacent_ratios.

(** ... and is itself a run-off triangle, one smaller. *)
Theorem C17_a2a_of_run_off_triangle :
  forall (m : lmat) (n : nat) (C : nat -> nat -> Qc), regular m n C -> positive n C -> 0 < n ->
    regular (a2a m) (n - 1) (fun i j => (C i (S j) / C i j)%Qc) /\
    m_idx (a2a m) = firstn (n - 1) (m_idx m) /\ m_cols (a2a m) = firstn (n - 1) (m_cols m).
Proof. exact c17_regular. Qed.
Print Assumptions C17_a2a_of_run_off_triangle.

Example C17_nonvacuous : regular ex_m 4 ex_C /\ positive 4 ex_C /\
  cell_at (a2a ex_m) 2002 24 = Some (vdiv (vz 200) (vz 176)) /\ cell_at (a2a ex_m) 2003 24 = Some NaN /\
  cell_at (a2a ex_m) 2004 12 = None.
Proof. split; [apply ex_regular|]. split; [apply ex_positive|]. repeat split; vm_compute; reflexivity. Qed.

(** ** C19.  ([gm] stands for scipy's geometric mean.)  [medial_avg] is characterised
    by C20. *)
Theorem C19_averages_are_the_documented_ones :
  forall (gm : list val -> val) (m : lmat) (n : nat) (C : nat -> nat -> Qc),
  regular m n C -> positive n C -> 1 < n ->
  exists avgs, a2a_avgs gm m (a2aind_init m) = Ok avgs /\ NoDup (map fst avgs) /\
   forall j, j < n - 1 ->
    let links := map (fun i => (C i (S j) / C i j)%Qc) in
    let total col rows := qsum (map (fun i => C i col) rows) in
    let all := seq 0 (n - 1 - j) in
    entry avgs "all-simple" j = Some (Fin (mean (links all))) /\
    entry avgs "all-geometric" j = Some (gm (map Fin (links all))) /\
    entry avgs "all-weighted" j = Some (Fin (total (S j) all / total j all)%Qc) /\
    (exists v, medial_avg (map Fin (links all)) = Ok v /\ entry avgs "all-medial" j = Some v) /\
    forall k, 1 <= k < n - 1 ->
      let rows := latest_rows k (n - 1 - j) in
      entry avgs ("simple-" ++ str_nat k) j = Some (Fin (mean (links rows))) /\
      entry avgs ("geometric-" ++ str_nat k) j = Some (gm (map Fin (links rows))) /\
      entry avgs ("weighted-" ++ str_nat k) j = Some (Fin (total (S j) rows / total j rows)%Qc) /\
      (exists v, medial_avg (map Fin (links rows)) = Ok v /\ entry avgs ("medial-" ++ str_nat k) j = Some v).
Proof. exact c19. Qed.
Print Assumptions C19_averages_are_the_documented_ones.

(** The volume weighted factor lies between the smallest and the largest link ratio. *)
Theorem C19_weighted_factor_between_link_ratios :
  forall (m : lmat) (n : nat) (C : nat -> nat -> Qc) (j : nat) (lo hi : Qc),
  regular m n C -> positive n C -> j < n - 1 ->
  (forall i, i < n - 1 - j -> (lo <= C i (S j) / C i j <= hi)%Qc) ->
  (lo <= qsum (map (fun i => C i (S j)) (seq 0 (n - 1 - j)%nat)) /
         qsum (map (fun i => C i j) (seq 0 (n - 1 - j)%nat)) <= hi)%Qc.
Proof. exact c19_between. Qed.
Print Assumptions C19_weighted_factor_between_link_ratios.

Example C19_nonvacuous : regular ex_m 4 ex_C /\ positive 4 ex_C /\ latest_rows 2 3 = [1; 2] /\
  match a2a_avgs ex_gm ex_m (a2aind_init ex_m) with
  | Ok avgs => entry avgs "weighted-2" 0 = Some (vdiv (vz (176 + 120)) (vz (110 + 90))) /\ List.length avgs = 12
  | Err _ => False
  end.
Proof. split; [apply ex_regular|]. split; [apply ex_positive|]. split; [reflexivity|]. split; vm_compute; reflexivity. Qed.

(** ** C20 *)
Theorem C20_medial_average :
  forall (l : list Qc), l <> [] ->
    (* all equal: the common value *)
    (forall x, (forall y, In y l -> y = x) -> medial_avg (map Fin l) = Ok (Fin x)) /\
    (* two values: their mean *)
    (forall a b, l = [a; b] -> medial_avg (map Fin l) = Ok (Fin ((a + b) / (1 + 1))%Qc)) /\
    (* otherwise: the mean of the values other than the minimum and the maximum,
       NaN if there are none *)
    (forall lo hi, 2 < List.length l -> In lo l -> In hi l -> lo <> hi ->
       (forall y, In y l -> (lo <= y <= hi)%Qc) ->
       medial_avg (map Fin l)
       = Ok (match filter (fun x => negb (qceqb x lo) && negb (qceqb x hi)) l with
             | [] => NaN
             | i => Fin (mean i)
             end)) /\
    (* order is irrelevant *)
    (forall l', Permutation l l' -> medial_avg (map Fin l) = medial_avg (map Fin l')) /\
    (* between bounds *)
    (forall q a b, medial_avg (map Fin l) = Ok (Fin q) -> (forall x, In x l -> (a <= x <= b)%Qc) ->
       (a <= q <= b)%Qc).
Proof. exact c20. Qed.
Print Assumptions C20_medial_average.

Example C20_nonvacuous :
  medial_avg (map Fin [qz 3; qz 1; qz 5; qz 2; qz 1]) = Ok (vdiv (vz 5) (vz 2)) /\
  medial_avg (map Fin [qz 1; qz 2; qz 2]) = Ok NaN /\ medial_avg (map Fin [qz 4]) = Ok (vz 4).
Proof. repeat split; vm_compute; reflexivity. Qed.

(** ** C21.  Simple, geometric and medial averages use exactly the link ratios whose
    indicator is 1 (if the latest one of every column is among them)... *)
Theorem C21_excluded_ratios_not_averaged_partial :
  forall (gm : list val -> val) (m : lmat) (n : nat) (C : nat -> nat -> Qc)
         (ind : list (list val)) (w : nat -> nat -> bool),
  regular m n C -> positive n C -> 1 < n ->
  (forall i j, i + j < n - 1 -> cell ind i j = Fin (if w i j then 1 else 0)%Qc) ->
  (forall j, j < n - 1 -> w (n - 2 - j) j = true) ->
  exists avgs, a2a_avgs gm m ind = Ok avgs /\
   forall j, j < n - 1 ->
    let links rows := map (fun i => (C i (S j) / C i j)%Qc) (filter (fun i => w i j) rows) in
    let all := seq 0 (n - 1 - j) in
    entry avgs "all-simple" j = Some (Fin (mean (links all))) /\
    entry avgs "all-geometric" j = Some (gm (map Fin (links all))) /\
    (exists v, medial_avg (map Fin (links all)) = Ok v /\ entry avgs "all-medial" j = Some v) /\
    forall k, 1 <= k < n - 1 ->
      let rows := latest_rows k (n - 1 - j) in
      entry avgs ("simple-" ++ str_nat k) j = Some (Fin (mean (links rows))) /\
      entry avgs ("geometric-" ++ str_nat k) j = Some (gm (map Fin (links rows))) /\
      (exists v, medial_avg (map Fin (links rows)) = Ok v /\ entry avgs ("medial-" ++ str_nat k) j = Some v).
Proof. exact c21_averages. Qed.
Print Assumptions C21_excluded_ratios_not_averaged_partial.

Theorem C21_base_cl_all_simple_partial :
  forall (gm : list val -> val) (m : lmat) (n : nat) (C : nat -> nat -> Qc)
         (ind : list (list val)) (w : nat -> nat -> bool) (v : string) (cl : list nat) (tail : Qc),
  regular m n C -> positive n C -> 2 < n ->
  tail_fits (m_cols m) -> clvi m = Ok cl ->
  (forall i j, i + j < n - 1 -> cell ind i j = Fin (if w i j then 1 else 0)%Qc) ->
  (forall j, j < n - 1 -> w (n - 2 - j) j = true) ->
  exists r, base_cl gm (mkTri m "origin" "dev" v) cl ind (SelLabel "all-simple") (Fin tail)
              = (SelLabel "all-simple", Ok r) /\
     c_ldfs r = map (fun j => (nth j (m_cols m) 0%Z,
        Fin (if S j <? n then mean (map (fun i => (C i (S j) / C i j)%Qc) (filter (fun i => w i j) (seq 0 (n - 1 - j))))
             else tail))) (seq 0 n).
Proof. exact c21_base_simple. Qed.
Print Assumptions C21_base_cl_all_simple_partial.

(** ... but the weighted averages, and so the default base_cl, ignore the indicators
    altogether: the result is the one with nothing excluded. *)
Theorem C21_base_cl_default_ignores_exclusions_refuted :
  forall (gm : list val -> val) (m : lmat) (n : nat) (C : nat -> nat -> Qc)
         (ind : list (list val)) (w : nat -> nat -> bool) (v : string) (cl : list nat) (tail : Qc),
  regular m n C -> positive n C -> 2 < n ->
  tail_fits (m_cols m) -> clvi m = Ok cl ->
  (forall i j, i + j < n - 1 -> cell ind i j = Fin (if w i j then 1 else 0)%Qc) ->
  (forall j, j < n - 1 -> w (n - 2 - j) j = true) ->
  base_cl gm (mkTri m "origin" "dev" v) cl ind (SelLabel "all-weighted") (Fin tail)
  = base_cl gm (mkTri m "origin" "dev" v) cl (a2aind_init m) (SelLabel "all-weighted") (Fin tail).
Proof. exact c21_base_weighted. Qed.
Print Assumptions C21_base_cl_default_ignores_exclusions_refuted.

(** Switching off the latest link ratio of a column makes every average raise. *)
Theorem C21_excluding_latest_ratio_raises_refuted :
  forall (gm : list val -> val) (m : lmat) (n : nat) (C : nat -> nat -> Qc)
         (ind : list (list val)) (w : nat -> nat -> bool) (j : nat),
  regular m n C -> positive n C -> 2 < n ->
  (forall i j, i + j < n - 1 -> cell ind i j = Fin (if w i j then 1 else 0)%Qc) ->
  j < n - 1 -> w (n - 2 - j) j = false -> a2a_avgs gm m ind = Err IndexError.
Proof. exact c21_latest_raises. Qed.
Print Assumptions C21_excluding_latest_ratio_raises_refuted.

Example C21_nonvacuous :
  (forall i j, i + j < 4 - 1 -> cell ex_ind i j = Fin (if ex_w i j then 1 else 0)%Qc) /\
  (forall j, j < 4 - 1 -> ex_w (4 - 2 - j) j = true) /\ ex_w 1 0 = false /\
  tail_fits (m_cols ex_m) /\ clvi ex_m = Ok [3; 2; 1; 0] /\
  match a2a_avgs ex_gm ex_m ex_ind, a2a_avgs ex_gm ex_m (a2aind_init ex_m) with
  | Ok a, Ok b => entry a "all-simple" 0 = Some (vdiv (vz 17) (vz 12)) /\
                  entry a "all-simple" 0 <> entry b "all-simple" 0
  | _, _ => False
  end.
Proof.
  split; [apply ex_ind_ok|]. split; [apply ex_w_latest|]. split; [reflexivity|]. split; [apply ex_spaced|].
  split; [apply ex_clvi|]. split; vm_compute; [reflexivity|discriminate].
Qed.
