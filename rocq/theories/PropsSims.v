(** C75: the table of simulated records kept with a bootstrap result (sims_data). *)

From Coq Require Import String QArith Qcanon ZArith List Bool Lia Permutation.
From Verif Require Import Val Frame Triangle A2A Base Mack Boot Sims QcLib Spec Spec2 SpecSim ExTri BootSim PropsBoot PropsSim SimsClaims.
Import ListNotations.
Open Scope string_scope.
Open Scope list_scope.
Open Scope nat_scope.

(** Every simulation, origin and period has exactly one record, in this order, for
    every triangle; it is a forecast record where the fitted triangle has no value. *)
Theorem C75_one_record_each :
  forall (gm : list val -> val) (rt : val -> val) (t : tri) (cl rl : list nat)
         (ind : list (list val)) (sims : nat) (par : bool)
         (rng : list val -> (nat -> val) * (list (val * val) -> nat -> val)) (b : boot_result),
  increasing (m_idx (t_mat t)) -> increasing (m_cols (t_mat t)) ->
  boot_cl gm rt t cl rl ind sims par rng = Ok b ->
  map (fun r => (d_sim r, d_o r, d_d r, d_fc r)) (sims_data rt t cl rl sims rng b)
  = flat_map (fun s => flat_map (fun i => map (fun j =>
      (s, nth i (m_idx (t_mat t)) 0%Z, nth j (m_cols (t_mat t)) 0%Z, isnan (cell (m_cells (o_fit_incr b)) i j)))
      (seq 0 (List.length (m_cols (t_mat t))))) (seq 0 (List.length (m_idx (t_mat t))))) (seq 0 sims).
Proof. exact c75_keys. Qed.
Print Assumptions C75_one_record_each.

(** The simulated reserves are the records of the last period, a missing latest value
    replaced by the ultimate and a missing reserve by 0. *)
Theorem C75_reserves_from_table :
  forall (gm : list val -> val) (rt : val -> val) (t : tri) (cl rl : list nat)
         (ind : list (list val)) (sims : nat) (par : bool)
         (rng : list val -> (nat -> val) * (list (val * val) -> nat -> val)) (b : boot_result),
  increasing (m_idx (t_mat t)) -> increasing (m_cols (t_mat t)) -> m_cols (t_mat t) <> [] -> rlvi (t_mat t) = Ok rl ->
  boot_cl gm rt t cl rl ind sims par rng = Ok b ->
  Permutation (o_reserves b)
    (map (fun r => mkR (d_sim r) (d_o r)
            (match d_latest r with NaN => d_ultimate r | x => x end) (d_ultimate r)
            (match d_reserve r with NaN => Fin 0%Qc | x => x end))
       (filter (fun r => (d_d r =? last (m_cols (t_mat t)) 0)%Z) (sims_data rt t cl rl sims rng b))).
Proof. exact c75_reserves. Qed.
Print Assumptions C75_reserves_from_table.

(** Every record on run-off triangles with factors of at least 1 and first period
    labelled 1: samp_incr and samp_cum are the resampled triangle [T s] developed by its
    own factors, param1 the gamma shape, ultimate the resampled losses up to the
    latest diagonal with the variates drawn afterwards added, latest the latest
    resampled loss (from the latest diagonal on, for all origins but the oldest; missing
    elsewhere), reserve their difference. *)
Theorem C75_records :
  forall (gm : list val -> val) (rt : val -> val) (root : Qc -> Qc) (m : lmat) (n : nat) (C M : nat -> nat -> Qc)
         (cl rl : list nat) (ind : list (list val)) (w : nat -> nat -> bool) (sims : nat) (par : bool)
         (rng : list val -> (nat -> val) * (list (val * val) -> nat -> val)) (b : boot_result) (c : Qc)
         (E : nat -> nat -> nat -> Qc) (V : nat -> nat -> nat -> Qc -> Qc),
  let t := mkTri m "origin" "dev" "value" in
  regular m n C -> positive n C -> 2 < n -> tail_fits (m_cols m) ->
  (forall i j, i + j < n - 1 -> cell ind i j = Fin (if w i j then 1 else 0)%Qc) ->
  (forall j, j < n - 1 -> w (n - 2 - j) j = true) ->
  clvi m = Ok cl -> rlvi m = Ok rl -> root_like rt -> (forall q, (0 <= q)%Qc -> rt (Fin q) = Fin (root q)) ->
  (forall j, j < n - 1 -> (1 <= vol_factor n C j)%Qc) ->
  nth 0 (m_cols m) 0%Z = 1%Z ->
  boot_cl gm rt t cl rl ind sims par rng = Ok b ->
  o_scale b = Fin c -> (0 < c)%Qc -> regular (o_fit_incr b) n M ->
  (forall s i j, s < sims -> i < n -> j < n -> fst (rng (o_dist b)) (s * (n * n) + i * n + j) = Fin (E s i j)) ->
  (forall ps s i j a, s < sims -> i < n -> j < n -> (0 <= a)%Qc ->
     nth (s * (n * n) + i * n + j) ps (NaN, NaN) = (Fin a, Fin c) ->
     snd (rng (o_dist b)) ps (s * (n * n) + i * n + j) = Fin (V s i j a)) ->
  let T s := resampled M (E s) root in
  (forall s j, s < sims -> j < n - 1 -> sumf 0 (n - 1 - j) (fun i => T s i j) <> 0%Qc) ->
  sims_data rt t cl rl sims rng b
  = flat_map (fun s => flat_map (fun i => map (fun j =>
      let x := forecast n (T s) i j in
      let u := paid n (T s) c (V s i) i j in
      let l := T s i (n - 1 - i) in
      let later := (0 <? i) && (n - 1 - i <=? j) in
      mkD s (nth i (m_idx m) 0%Z) (nth j (m_cols m) 0%Z) (n <=? i + j)
          (Fin x) (Fin (developed n (T s) i j)) (Fin (abs_ x / c)%Qc)
          (if later then Fin l else NaN) (Fin u) (if later then Fin (u - l)%Qc else NaN))
    (seq 0 n)) (seq 0 n)) (seq 0 sims).
Proof. exact c75. Qed.
Print Assumptions C75_records.

(** The hypotheses are those of C74 (see [C74_nonvacuous]); two records of that case,
    one observed and one forecast. *)
Example C75_nonvacuous :
  increasing (m_idx bt_m) /\ increasing (m_cols bt_m) /\ rlvi bt_m = Ok [3; 2; 1; 0] /\
  match ex_boot 1 with
  | Ok b =>
      let c := fq (o_scale b) in
      let M i j := fq (cell (m_cells (o_fit_incr b)) i j) in
      let E i j := fq (fst (ex_rng (o_dist b)) (i * 4 + j)) in
      let T := resampled M E ex_root in
      let l := sims_data ex_rt bt [3; 2; 1; 0] [3; 2; 1; 0] 1 ex_rng b in
      let r := nth 7 l (mkD 0 0 0 false NaN NaN NaN NaN NaN NaN) in
      let r0 := nth 5 l (mkD 0 0 0 false NaN NaN NaN NaN NaN NaN) in
      List.length l = 16 /\ (d_o r, d_d r, d_fc r) = (nth 1 (m_idx bt_m) 0%Z, 4%Z, true) /\
      veqb (d_ultimate r) (Fin (paid 4 T c (fun j => ex_V (4 + j) c) 1 3)) = true /\
      veqb (d_latest r) (Fin (T 1 2)) = true /\
      (d_fc r0, d_latest r0) = (false, NaN) /\ veqb (d_ultimate r0) (Fin (T 1 1)) = true
  | Err _ => False
  end.
Proof.
  split; [apply bt_regular|]. split; [apply bt_regular|]. split; [apply bt_lvi|]. vm_compute. repeat split.
Qed.
