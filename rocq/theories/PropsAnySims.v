(** C75 and C98: the whole table of simulated records and the summary of every run-off
    triangle with positive losses, whatever its factors and labels.  The vocabulary is
    that of SpecAny.v. *)

From Coq Require Import String QArith Qcanon ZArith List Bool Lia.
From Verif Require Import Val Frame Triangle A2A Base Mack Boot Sims QcLib Spec Spec2 SpecSim SpecAny SpecBootSum ExTri BootSim PropsBoot SimClaims
  PropsSim AnyClaims AnySims PropsAny.
Import ListNotations.
Open Scope string_scope.
Open Scope list_scope.
Open Scope nat_scope.

(** samp_incr and samp_cum are the increment and the loss of the path (missing where a
    resampled loss is missing), param1 the gamma shape, ultimate the running total of
    the booked increments wherever the path has a value; latest and reserve are given
    from the latest diagonal on, for all origins but the oldest, if the latest resampled
    loss exists. *)
Theorem C75_records_any_factors :
  forall (gm : list val -> val) (rt : val -> val) (root : Qc -> Qc) (m : lmat) (n : nat) (C M : nat -> nat -> Qc)
         (cl rl : list nat) (ind : list (list val)) (w : nat -> nat -> bool) (sims : nat) (par : bool)
         (rng : list val -> (nat -> val) * (list (val * val) -> nat -> val)) (b : boot_result) (c : Qc)
         (E : nat -> nat -> nat -> Qc) (V : nat -> nat -> nat -> Qc -> Qc),
  regular m n C -> positive n C -> 2 < n -> tail_fits (m_cols m) ->
  (forall i j, i + j < n - 1 -> cell ind i j = Fin (if w i j then 1 else 0)%Qc) ->
  (forall j, j < n - 1 -> w (n - 2 - j) j = true) ->
  clvi m = Ok cl -> rlvi m = Ok rl -> root_like rt -> (forall q, (0 <= q)%Qc -> rt (Fin q) = Fin (root q)) ->
  boot_cl gm rt (mkTri m "origin" "dev" "value") cl rl ind sims par rng = Ok b ->
  o_scale b = Fin c -> (0 < c)%Qc -> regular (o_fit_incr b) n M ->
  (forall s i j, s < sims -> i < n -> j < n -> fst (rng (o_dist b)) (s * (n * n) + i * n + j) = Fin (E s i j)) ->
  (forall ps s i j a, s < sims -> i < n -> j < n -> (0 <= a)%Qc ->
     nth (s * (n * n) + i * n + j) ps (NaN, NaN) = (Fin a, Fin c) ->
     snd (rng (o_dist b)) ps (s * (n * n) + i * n + j) = Fin (V s i j a)) ->
  let keep := alive n C in
  let T s := resampled_at keep M (E s) root in
  let losses s i := path n keep (factor n keep T s) (T s) i in
  sims_data rt (mkTri m "origin" "dev" "value") cl rl sims rng b
  = flat_map (fun s => flat_map (fun i => map (fun j =>
      let x := step (m_cols m) (losses s i) j in
      let u := running n (m_cols m) (losses s i) c (V s i) i j in
      let l := T s i (n - 1 - i) in
      let has_latest := (0 <? i) && (n - 1 - i <=? j) && keep (n - 1 - i) in
      mkD s (nth i (m_idx m) 0%Z) (nth j (m_cols m) 0%Z) (n <=? i + j)
          (known x) (known (losses s i j)) (match x with Some y => Fin (abs_ y / c)%Qc | None => NaN end)
          (if has_latest then Fin l else NaN)
          (match losses s i j with Some _ => Fin u | None => NaN end)
          (if has_latest then Fin (u - l)%Qc else NaN))
    (seq 0 n)) (seq 0 n)) (seq 0 sims).
Proof. exact c75_any. Qed.
Print Assumptions C75_records_any_factors.

(** The summary: every row and the totals.  The oldest origin shows its latest loss. *)
Theorem C98_summary :
  forall (gm : list val -> val) (rt : val -> val) (root : Qc -> Qc) (m : lmat) (n : nat) (C M : nat -> nat -> Qc)
         (cl rl : list nat) (ind : list (list val)) (w : nat -> nat -> bool) (sims : nat) (par : bool)
         (rng : list val -> (nat -> val) * (list (val * val) -> nat -> val)) (b : boot_result) (c : Qc)
         (E : nat -> nat -> nat -> Qc) (V : nat -> nat -> nat -> Qc -> Qc),
  regular m n C -> positive n C -> 2 < n -> tail_fits (m_cols m) ->
  (forall i j, i + j < n - 1 -> cell ind i j = Fin (if w i j then 1 else 0)%Qc) ->
  (forall j, j < n - 1 -> w (n - 2 - j) j = true) ->
  clvi m = Ok cl -> rlvi m = Ok rl -> root_like rt -> (forall q, (0 <= q)%Qc -> rt (Fin q) = Fin (root q)) ->
  boot_cl gm rt (mkTri m "origin" "dev" "value") cl rl ind sims par rng = Ok b ->
  o_scale b = Fin c -> (0 < c)%Qc -> regular (o_fit_incr b) n M ->
  (forall s i j, s < sims -> i < n -> j < n -> fst (rng (o_dist b)) (s * (n * n) + i * n + j) = Fin (E s i j)) ->
  (forall ps s i j a, s < sims -> i < n -> j < n -> (0 <= a)%Qc ->
     nth (s * (n * n) + i * n + j) ps (NaN, NaN) = (Fin a, Fin c) ->
     snd (rng (o_dist b)) ps (s * (n * n) + i * n + j) = Fin (V s i j a)) ->
  let keep := alive n C in
  let T s := resampled_at keep M (E s) root in
  let losses s i := path n keep (factor n keep T s) (T s) i in
  let u s i := total n (m_cols m) (losses s i) c (V s i) i in
  0 < sims ->
  let latest i := C i (n - 1 - i)%nat in
  let ultimate i := if i =? 0 then latest 0 else sample_mean sims (fun s => u s i) in
  o_summary b = map (fun i => (nth i (m_idx m) 0%Z, Fin (latest i), Fin (ultimate i), Fin (ultimate i - latest i)%Qc)) (seq 0 n) /\
  o_total b = (Fin (sumf 0 n latest), Fin (sumf 0 n ultimate), Fin (sumf 0 n (fun i => ultimate i - latest i))%Qc).
Proof. exact c98_summary. Qed.
Print Assumptions C98_summary.

(** The case of [C98_nonvacuous] meets the hypotheses; some records and the summary of it:
    missing losses in periods 1 and 3, a lost origin (2003), a summary row whose
    reserve is negative. *)
Example C98_summary_nonvacuous :
  match boot_cl ex_gm ex_rt (mkTri gap_m "origin" "dev" "value") [3; 2; 1; 0] [3; 2; 1; 0] ex_ind 2 false gap_rng with
  | Ok b =>
      let l := sims_data ex_rt (mkTri gap_m "origin" "dev" "value") [3; 2; 1; 0] [3; 2; 1; 0] 2 gap_rng b in
      let M i j := fq (cell (m_cells (o_fit_incr b)) i j) in
      let T s := resampled_at (alive 4 gap_C) M (gap_E s) ex_root in
      let r k := nth k l (mkD 0 0 0 false NaN NaN NaN NaN NaN NaN) in
      List.length l = 32 /\
      (d_o (r 1), d_d (r 1), d_cum (r 1), d_ultimate (r 1)) = (2001%Z, 2%Z, NaN, NaN) /\
      veqb (d_cum (r 2)) (Fin (T 0 0 2)) = true /\
      (d_o (r 11), d_fc (r 11), d_latest (r 11)) = (2003%Z, true, NaN) /\ veqb (d_cum (r 11)) (Fin 0%Qc) = true /\
      veqb (d_latest (r 23)) (Fin (T 1 1 2)) = true /\
      map (fun p => fst (fst (fst p))) (o_summary b) = m_idx gap_m /\
      vltb (snd (nth 2 (o_summary b) (0%Z, NaN, NaN, NaN))) (Fin 0%Qc) = true
  | Err _ => False
  end.
Proof. vm_compute. repeat split. Qed.
