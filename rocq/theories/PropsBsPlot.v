(** C76: the plot of a bootstrap result. *)

From Coq Require Import String QArith Qcanon ZArith List Bool Lia.
From Verif Require Import Val Frame Triangle A2A Base Mack Boot Quant Plot Sims BsPlot QcLib Spec Spec2 SpecSim SpecQuant SpecBand ExTri
  PropsPlot SimsClaims BsPlotClaims.
Import ListNotations.
Open Scope string_scope.
Open Scope list_scope.
Open Scope nat_scope.

(** The documented plot is not drawn: with the signatures of the pinned versions the call
    raises TypeError, whatever the result and the quantile ... *)
Theorem C76_plot_refuted :
  forall (m : lmat) (cl : list nat) (r : cl_result) (tab : list sdrec) (q : list val),
  boot_plot_code m cl r tab q = Err TypeError.
Proof. exact c76_refuted. Qed.
Print Assumptions C76_plot_refuted.

(** ... and so does the preparation of its data, for every result that the base plot
    can draw and every non-empty list of quantiles. *)
Theorem C76_data_refuted :
  forall (m : lmat) (cl : list nat) (r : cl_result) (tab : list sdrec) (qs : list Qc) (hs : list string)
         (l0 : list plotrec) (inc : Z),
  data_transform m cl r = Ok l0 -> increment (map fst (c_ldfs r)) = Ok inc -> qs <> [] ->
  bs_data_transform false m cl r tab qs hs = Err TypeError.
Proof. exact c76_quantiles_refuted. Qed.
Print Assumptions C76_data_refuted.

(** What it would draw if both calls accepted the keywords they are given (missing for
    the full statement: they do not).  For a run-off triangle with finite factors,
    simulated losses [U s i j] for every simulation, origin and period, and a share
    [x] above 1e-7: per origin the observed values; the forecasts from the latest value
    to the ultimate, one step [D] after the last period; and two lines starting at the
    latest value and holding, at every later period, the (1-x)/2 and (1+x)/2 quantiles
    of the simulated losses of that origin and period, the last of them repeated at
    [D]. *)
Theorem C76_band_partial :
  forall (gm : list val -> val) (m : lmat) (n : nat) (C : nat -> nat -> Qc) (v : string) (cl : list nat)
         (ind : list (list val)) (sel : sel_arg) (tail : val) (sel' : sel_arg) (r : cl_result) (f : nat -> Qc)
         (tab : list sdrec) (sims : nat) (U : nat -> nat -> nat -> Qc) (x : Qc),
  regular m n C -> 1 < n -> clvi m = Ok cl ->
  base_cl gm (mkTri m "origin" "dev" v) cl ind sel tail = (sel', Ok r) ->
  c_ldfs r = map (fun j => (nth j (m_cols m) 0%Z, Fin (f j))) (seq 0 n) ->
  let o i := nth i (m_idx m) 0%Z in
  let d j := nth j (m_cols m) 0%Z in
  0 < sims ->
  map (fun e => (d_o e, d_d e, d_ultimate e)) tab
  = flat_map (fun s => flat_map (fun i => map (fun j => (o i, d j, Fin (U s i j))) (seq 0 n)) (seq 0 n)) (seq 0 sims) ->
  (1 / qz 10000000 < x)%Qc -> (x <= 1)%Qc ->
  let a := ((1 - x) / qz 2)%Qc in let b := ((1 + x) / qz 2)%Qc in
  let latest i := C i (n - 1 - i) in
  let proj i j := (latest i * prodf (n - 1 - i) (j - (n - 1 - i)) f)%Qc in
  let ult i := (latest i * prodf (n - 1 - i) (S i) f)%Qc in
  exists l D ha hb lo hi, boot_plot true true m cl r tab [Fin x] = Ok l /\
    (forall y, In y (m_cols m) -> (y < D)%Z) /\
    qtls_formatter [Fin x] true = Ok ([a; b], [ha; hb]) /\ NoDup ["actual"; "forecast"; ha; hb] /\
    (forall i j, i < n -> j < n ->
       linear_quantile (map (fun s => U s i j) (seq 0 sims)) a (lo i j) /\
       linear_quantile (map (fun s => U s i j) (seq 0 sims)) b (hi i j)) /\
    (forall i, i < n ->
       points l (o i) "actual" = map (fun j => (d j, Fin (C i j))) (seq 0 (n - i)) /\
       points l (o i) "forecast" = map (fun j => (d j, Fin (proj i j))) (seq (n - 1 - i) (S i)) ++ [(D, Fin (ult i))] /\
       points l (o i) ha = (d (n - 1 - i), Fin (latest i)) :: map (fun j => (d j, Fin (lo i j))) (seq (n - i) i) ++ [(D, Fin (lo i (n - 1)))] /\
       points l (o i) hb = (d (n - 1 - i), Fin (latest i)) :: map (fun j => (d j, Fin (hi i j))) (seq (n - i) i) ++ [(D, Fin (hi i (n - 1)))]).
Proof. exact c76_band. Qed.
Print Assumptions C76_band_partial.

(** The same when some simulated losses are missing (NaN), as long as every origin and
    period has a number in some simulation: the quantiles are those of the numbers. *)
Theorem C76_missing_losses_partial :
  forall (gm : list val -> val) (m : lmat) (n : nat) (C : nat -> nat -> Qc) (v : string) (cl : list nat)
         (ind : list (list val)) (sel : sel_arg) (tail : val) (sel' : sel_arg) (r : cl_result) (f : nat -> Qc)
         (tab : list sdrec) (sims : nat) (U : nat -> nat -> nat -> val) (x : Qc),
  regular m n C -> 1 < n -> clvi m = Ok cl ->
  base_cl gm (mkTri m "origin" "dev" v) cl ind sel tail = (sel', Ok r) ->
  c_ldfs r = map (fun j => (nth j (m_cols m) 0%Z, Fin (f j))) (seq 0 n) ->
  let o i := nth i (m_idx m) 0%Z in
  let d j := nth j (m_cols m) 0%Z in
  0 < sims ->
  map (fun e => (d_o e, d_d e, d_ultimate e)) tab
  = flat_map (fun s => flat_map (fun i => map (fun j => (o i, d j, U s i j)) (seq 0 n)) (seq 0 n)) (seq 0 sims) ->
  (forall s i j, s < sims -> i < n -> j < n -> U s i j = NaN \/ exists q, U s i j = Fin q) ->
  (forall i j, i < n -> j < n -> numbers (map (fun s => U s i j) (seq 0 sims)) <> []) ->
  (1 / qz 10000000 < x)%Qc -> (x <= 1)%Qc ->
  let a := ((1 - x) / qz 2)%Qc in let b := ((1 + x) / qz 2)%Qc in
  let latest i := C i (n - 1 - i) in
  let proj i j := (latest i * prodf (n - 1 - i) (j - (n - 1 - i)) f)%Qc in
  let ult i := (latest i * prodf (n - 1 - i) (S i) f)%Qc in
  exists l D ha hb lo hi, boot_plot true true m cl r tab [Fin x] = Ok l /\
    (forall y, In y (m_cols m) -> (y < D)%Z) /\
    qtls_formatter [Fin x] true = Ok ([a; b], [ha; hb]) /\ NoDup ["actual"; "forecast"; ha; hb] /\
    (forall i j, i < n -> j < n ->
       linear_quantile (numbers (map (fun s => U s i j) (seq 0 sims))) a (lo i j) /\
       linear_quantile (numbers (map (fun s => U s i j) (seq 0 sims))) b (hi i j)) /\
    (forall i, i < n ->
       points l (o i) "actual" = map (fun j => (d j, Fin (C i j))) (seq 0 (n - i)) /\
       points l (o i) "forecast" = map (fun j => (d j, Fin (proj i j))) (seq (n - 1 - i) (S i)) ++ [(D, Fin (ult i))] /\
       points l (o i) ha = (d (n - 1 - i), Fin (latest i)) :: map (fun j => (d j, Fin (lo i j))) (seq (n - i) i) ++ [(D, Fin (lo i (n - 1)))] /\
       points l (o i) hb = (d (n - 1 - i), Fin (latest i)) :: map (fun j => (d j, Fin (hi i j))) (seq (n - i) i) ++ [(D, Fin (hi i (n - 1)))]).
Proof. exact c76_band_missing. Qed.
Print Assumptions C76_missing_losses_partial.

(** The simulated table of a bootstrap result has that form, with [U] the simulated paid
    losses of C75, under the hypotheses of C75. *)
Theorem C76_simulated_table :
  forall (gm : list val -> val) (rt : val -> val) (root : Qc -> Qc) (m : lmat) (n : nat) (C M : nat -> nat -> Qc)
         (cl rl : list nat) (ind : list (list val)) (w : nat -> nat -> bool) (sims : nat) (par : bool)
         (rng : list val -> (nat -> val) * (list (val * val) -> nat -> val)) (b : boot_result) (c : Qc)
         (E : nat -> nat -> nat -> Qc) (V : nat -> nat -> nat -> Qc -> Qc),
  let t := mkTri m "origin" "dev" "value" in
  regular m n C -> positive n C -> 2 < n -> tail_fits (m_cols m) ->
  (forall i j, i + j < n - 1 -> cell ind i j = Fin (if w i j then 1 else 0)%Qc) ->
  (forall j, j < n - 1 -> w (n - 2 - j) j = true) ->
  clvi m = Ok cl -> rlvi m = Ok rl -> root_like rt -> (forall q, (0 <= q)%Qc -> rt (Fin q) = Fin (root q)) ->
  (forall j, j < n - 1 -> (1 <= vol_factor n C j)%Qc) ->
  nth 0 (m_cols m) 0%Z = 1%Z ->
  boot_cl gm rt t cl rl ind sims par rng = Ok b ->
  o_scale b = Fin c -> (0 < c)%Qc -> regular (o_fit_incr b) n M ->
  (forall s i j, s < sims -> i < n -> j < n -> fst (rng (o_dist b)) (s * (n * n) + i * n + j) = Fin (E s i j)) ->
  (forall ps s i j a, s < sims -> i < n -> j < n -> (0 <= a)%Qc ->
     nth (s * (n * n) + i * n + j) ps (NaN, NaN) = (Fin a, Fin c) ->
     snd (rng (o_dist b)) ps (s * (n * n) + i * n + j) = Fin (V s i j a)) ->
  let T s := resampled M (E s) root in
  (forall s j, s < sims -> j < n - 1 -> sumf 0 (n - 1 - j) (fun i => T s i j) <> 0%Qc) ->
  map (fun e => (d_o e, d_d e, d_ultimate e)) (sims_data rt t cl rl sims rng b)
  = flat_map (fun s => flat_map (fun i => map (fun j =>
      (nth i (m_idx m) 0%Z, nth j (m_cols m) 0%Z, Fin (paid n (T s) c (V s i) i j))) (seq 0 n)) (seq 0 n)) (seq 0 sims).
Proof.
  intros. unfold T, t in *. rewrite (c75 gm rt root m n C M cl rl ind w sims par rng b c E V); auto.
  rewrite map_flat_map'. apply flat_map_ext. intro s. rewrite map_flat_map'. apply flat_map_ext. intro i.
  rewrite map_map. reflexivity.
Qed.
Print Assumptions C76_simulated_table.

(** The hypotheses hold of the triangle and factors of [C64_nonvacuous] and a table of
    five simulations with losses 100 s + 10 i + j: with a share of 1/2 the band of the
    third origin runs from 120 over 122 and 322 (the second and fourth of five). *)
Definition bp_half : Qc := (1 / qz 2)%Qc.
Definition bp_U (s i j : nat) : Qc := qn (100 * s + 10 * i + j).
Definition bp_tab : list sdrec :=
  flat_map (fun s => flat_map (fun i => map (fun j =>
    mkD s (nth i (m_idx ex_m) 0%Z) (nth j (m_cols ex_m) 0%Z) false NaN NaN NaN NaN (Fin (bp_U s i j)) NaN)
    (seq 0 4)) (seq 0 4)) (seq 0 5).
Example C76_nonvacuous :
  regular ex_m 4 ex_C /\ 1 < 4 /\ clvi ex_m = Ok [3; 2; 1; 0] /\ 0 < 5 /\
  map (fun e => (d_o e, d_d e, d_ultimate e)) bp_tab
  = flat_map (fun s => flat_map (fun i => map (fun j =>
      (nth i (m_idx ex_m) 0%Z, nth j (m_cols ex_m) 0%Z, Fin (bp_U s i j))) (seq 0 4)) (seq 0 4)) (seq 0 5) /\
  (1 / qz 10000000 < bp_half)%Qc /\ (bp_half <= 1)%Qc /\
  match snd pl_run with
  | Ok r =>
      match boot_plot true true ex_m [3; 2; 1; 0] r bp_tab [Fin bp_half] with
      | Ok l =>
          forallb (fun p => (fst (fst p) =? fst (snd p))%Z && veqb (snd (fst p)) (snd (snd p)))
            (combine (points l 2003 "25%") [(24, vz 120); (36, vz 122); (48, vz 123); (60, vz 123)]%Z) = true /\
          forallb (fun p => (fst (fst p) =? fst (snd p))%Z && veqb (snd (fst p)) (snd (snd p)))
            (combine (points l 2003 "75%") [(24, vz 120); (36, vz 322); (48, vz 323); (60, vz 323)]%Z) = true /\
          List.length (points l 2003 "25%") = 4 /\ List.length (points l 2003 "75%") = 4
      | Err _ => False end
  | Err _ => False end.
Proof.
  split; [exact ex_regular|]. split; [lia|]. split; [vm_compute; reflexivity|]. split; [lia|].
  split; [unfold bp_tab; rewrite map_flat_map'; apply flat_map_ext; intro s; rewrite map_flat_map'; apply flat_map_ext;
          intro i; rewrite map_map; reflexivity|].
  split; [vm_compute; reflexivity|]. split; [vm_compute; discriminate|]. vm_compute. repeat split.
Qed.

(** The same table with the losses of the first simulation missing: the band is that of
    the other four. *)
Definition bp_gap (s i j : nat) : val := match s with O => NaN | S _ => Fin (bp_U s i j) end.
Example C76_missing_nonvacuous :
  (forall s i j, s < 5 -> i < 4 -> j < 4 -> bp_gap s i j = NaN \/ exists q, bp_gap s i j = Fin q) /\
  (forall i j, i < 4 -> j < 4 -> numbers (map (fun s => bp_gap s i j) (seq 0 5)) = map (fun s => bp_U s i j) (seq 1 4)) /\
  (forall i j, i < 4 -> j < 4 -> numbers (map (fun s => bp_gap s i j) (seq 0 5)) <> []).
Proof.
  assert (E : forall i j, i < 4 -> j < 4 -> numbers (map (fun s => bp_gap s i j) (seq 0 5)) = map (fun s => bp_U s i j) (seq 1 4)) by reflexivity.
  split; [intros [|s] i j _ _ _; [left; reflexivity|right; eexists; reflexivity]|]. split; [exact E|].
  intros i j Hi Hj. rewrite E by auto. discriminate.
Qed.
