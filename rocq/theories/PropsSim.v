(** C74: what every record of the simulated reserves is.

    For each simulation [s], [E s i j] is the residual drawn for origin i and period j
    and [V s i j a] the gamma variate drawn there when the shape is [a] and the scale
    the scale parameter [c].  [T s] is then the resampled triangle: every fitted
    increment M plus residual times the root of M, accumulated. *)

From Coq Require Import String QArith Qcanon ZArith List Bool Lia.
From Verif Require Import Val Frame Triangle A2A Base Mack Boot QcLib Spec Spec2 SpecSim ExTri BootSim PropsBoot SimClaims.
Import ListNotations.
Open Scope string_scope.
Open Scope list_scope.
Open Scope nat_scope.

(** Latest: the latest resampled loss.  Forecasts: the chain ladder on the resampled
    triangle with its own volume-weighted factors.  Process error: each forecast
    increment x is replaced by a gamma variate of shape |x| / c and scale c (mean |x|,
    variance c |x|) with the sign of x.  Reserve: their sum.  Ultimate: latest and
    reserve.  Missing from the full property: factors of at least 1, the first period
    labelled 1, and no column of a resampled triangle summing to 0. *)
Theorem C74_simulated_records_partial :
  forall (gm : list val -> val) (rt : val -> val) (root : Qc -> Qc) (m : lmat) (n : nat) (C M : nat -> nat -> Qc)
         (cl rl : list nat) (ind : list (list val)) (w : nat -> nat -> bool) (sims : nat) (par : bool)
         (rng : list val -> (nat -> val) * (list (val * val) -> nat -> val)) (b : boot_result) (c : Qc)
         (E : nat -> nat -> nat -> Qc) (V : nat -> nat -> nat -> Qc -> Qc),
  regular m n C -> positive n C -> 2 < n -> tail_fits (m_cols m) ->
  (forall i j, i + j < n - 1 -> cell ind i j = Fin (if w i j then 1 else 0)%Qc) ->
  (forall j, j < n - 1 -> w (n - 2 - j) j = true) ->
  clvi m = Ok cl -> rlvi m = Ok rl -> root_like rt -> (forall q, (0 <= q)%Qc -> rt (Fin q) = Fin (root q)) ->
  (forall j, j < n - 1 -> (1 <= vol_factor n C j)%Qc) ->
  nth 0 (m_cols m) 0%Z = 1%Z ->
  boot_cl gm rt (mkTri m "origin" "dev" "value") cl rl ind sims par rng = Ok b ->
  o_scale b = Fin c -> (0 < c)%Qc -> regular (o_fit_incr b) n M ->
  (forall s i j, s < sims -> i < n -> j < n -> fst (rng (o_dist b)) (s * (n * n) + i * n + j) = Fin (E s i j)) ->
  (forall ps s i j a, s < sims -> i < n -> j < n -> (0 <= a)%Qc ->
     nth (s * (n * n) + i * n + j) ps (NaN, NaN) = (Fin a, Fin c) ->
     snd (rng (o_dist b)) ps (s * (n * n) + i * n + j) = Fin (V s i j a)) ->
  let T s := resampled M (E s) root in
  (forall s j, s < sims -> j < n - 1 -> sumf 0 (n - 1 - j) (fun i => T s i j) <> 0%Qc) ->
  let latest s i := T s i (n - 1 - i) in
  let reserve s i := future n (T s) c (V s i) i in
  o_reserves b = flat_map (fun i => map (fun s =>
      mkR s (nth i (m_idx m) 0%Z) (Fin (latest s i)) (Fin (latest s i + reserve s i)%Qc) (Fin (reserve s i)))
    (seq 0 sims)) (seq 0 n).
Proof. exact c74. Qed.
Print Assumptions C74_simulated_records_partial.

(** Gamma variates at their means (shape times scale): every simulated ultimate is the
    chain ladder ultimate of the resampled triangle. *)
Theorem C74_mean_ultimates_partial :
  forall (gm : list val -> val) (rt : val -> val) (root : Qc -> Qc) (m : lmat) (n : nat) (C M : nat -> nat -> Qc)
         (cl rl : list nat) (ind : list (list val)) (w : nat -> nat -> bool) (sims : nat) (par : bool)
         (rng : list val -> (nat -> val) * (list (val * val) -> nat -> val)) (b : boot_result) (c : Qc)
         (E : nat -> nat -> nat -> Qc),
  regular m n C -> positive n C -> 2 < n -> tail_fits (m_cols m) ->
  (forall i j, i + j < n - 1 -> cell ind i j = Fin (if w i j then 1 else 0)%Qc) ->
  (forall j, j < n - 1 -> w (n - 2 - j) j = true) ->
  clvi m = Ok cl -> rlvi m = Ok rl -> root_like rt -> (forall q, (0 <= q)%Qc -> rt (Fin q) = Fin (root q)) ->
  (forall j, j < n - 1 -> (1 <= vol_factor n C j)%Qc) ->
  nth 0 (m_cols m) 0%Z = 1%Z ->
  boot_cl gm rt (mkTri m "origin" "dev" "value") cl rl ind sims par rng = Ok b ->
  o_scale b = Fin c -> (0 < c)%Qc -> regular (o_fit_incr b) n M ->
  (forall s i j, s < sims -> i < n -> j < n -> fst (rng (o_dist b)) (s * (n * n) + i * n + j) = Fin (E s i j)) ->
  (forall ps k a, nth k ps (NaN, NaN) = (Fin a, Fin c) -> snd (rng (o_dist b)) ps k = Fin (a * c)%Qc) ->
  let T s := resampled M (E s) root in
  (forall s j, s < sims -> j < n - 1 -> sumf 0 (n - 1 - j) (fun i => T s i j) <> 0%Qc) ->
  map (fun r => (v_sim r, v_o r, v_ultimate r)) (o_reserves b)
  = flat_map (fun i => map (fun s => (s, nth i (m_idx m) 0%Z, Fin (developed n (T s) i (n - 1)))) (seq 0 sims)) (seq 0 n).
Proof. exact c74_mean. Qed.
Print Assumptions C74_mean_ultimates_partial.

(** First period labelled with a larger number (12, say): in every simulation of every
    such triangle each ultimate lacks the origin's first resampled increment, and so
    does the reserve of every origin but the oldest. *)
Theorem C74_other_label_refuted :
  forall (gm : list val -> val) (rt : val -> val) (root : Qc -> Qc) (m : lmat) (n : nat) (C M : nat -> nat -> Qc)
         (cl rl : list nat) (ind : list (list val)) (w : nat -> nat -> bool) (sims : nat) (par : bool)
         (rng : list val -> (nat -> val) * (list (val * val) -> nat -> val)) (b : boot_result) (c : Qc)
         (E : nat -> nat -> nat -> Qc) (V : nat -> nat -> nat -> Qc -> Qc),
  regular m n C -> positive n C -> 2 < n -> tail_fits (m_cols m) ->
  (forall i j, i + j < n - 1 -> cell ind i j = Fin (if w i j then 1 else 0)%Qc) ->
  (forall j, j < n - 1 -> w (n - 2 - j) j = true) ->
  clvi m = Ok cl -> rlvi m = Ok rl -> root_like rt -> (forall q, (0 <= q)%Qc -> rt (Fin q) = Fin (root q)) ->
  (forall j, j < n - 1 -> (1 <= vol_factor n C j)%Qc) ->
  (1 < nth 0 (m_cols m) 0)%Z ->
  boot_cl gm rt (mkTri m "origin" "dev" "value") cl rl ind sims par rng = Ok b ->
  o_scale b = Fin c -> (0 < c)%Qc -> regular (o_fit_incr b) n M ->
  (forall s i j, s < sims -> i < n -> j < n -> fst (rng (o_dist b)) (s * (n * n) + i * n + j) = Fin (E s i j)) ->
  (forall ps s i j a, s < sims -> i < n -> j < n -> (0 <= a)%Qc ->
     nth (s * (n * n) + i * n + j) ps (NaN, NaN) = (Fin a, Fin c) ->
     snd (rng (o_dist b)) ps (s * (n * n) + i * n + j) = Fin (V s i j a)) ->
  let T s := resampled M (E s) root in
  (forall s j, s < sims -> j < n - 1 -> sumf 0 (n - 1 - j) (fun i => T s i j) <> 0%Qc) ->
  let first s i := (M i 0%nat + E s i 0%nat * root (M i 0%nat))%Qc in
  let latest s i := T s i (n - 1 - i) in
  let reserve s i := future n (T s) c (V s i) i in
  o_reserves b = flat_map (fun i => map (fun s =>
      mkR s (nth i (m_idx m) 0%Z)
        (Fin (if i =? 0 then latest s i - first s i else latest s i)%Qc)
        (Fin (latest s i + reserve s i - first s i)%Qc)
        (Fin (if i =? 0 then 0 else reserve s i - first s i)%Qc))
    (seq 0 sims)) (seq 0 n).
Proof. exact c74_label. Qed.
Print Assumptions C74_other_label_refuted.

(** A case meeting the hypotheses, and one of its records. *)
Definition ex_root (q : Qc) : Qc := if qceqb q 0 then 0%Qc else ((1 + q) / qz 2)%Qc.
Lemma ex_root_ok q : (0 <= q)%Qc -> ex_rt (Fin q) = Fin (ex_root q).
Proof.
  intro H. unfold ex_rt, ex_root. destruct (qcltb_spec q 0) as [A|A]; [exfalso; apply (Qclt_not_le _ _ A); auto|].
  destruct (qceqb q 0); auto.
Qed.
Definition ex_V (pos : nat) (c a : Qc) : Qc := ((if Nat.even pos then Q2Qc (3 # 4) else Q2Qc (5 # 4)) * (a * c))%Qc.
Lemma ex_V_ok l ps k a c : nth k ps (NaN, NaN) = (Fin a, Fin c) -> snd (ex_rng l) ps k = Fin (ex_V k c a).
Proof. intro H. unfold ex_rng. cbn [snd]. rewrite H. reflexivity. Qed.
Example C74_nonvacuous : regular bt_m 4 ex_C /\ nth 0 (m_cols bt_m) 0%Z = 1%Z /\ root_like ex_rt /\
  (forall j, j < 4 - 1 -> (1 <= vol_factor 4 ex_C j)%Qc) /\
  match ex_boot 1 with
  | Ok b =>
      let c := fq (o_scale b) in
      let M i j := fq (cell (m_cells (o_fit_incr b)) i j) in
      let E i j := fq (fst (ex_rng (o_dist b)) (i * 4 + j)) in
      let T := resampled M E ex_root in
      o_scale b = Fin c /\ qcltb 0 c = true /\
      forallb (fun k => match fst (ex_rng (o_dist b)) k with Fin _ => true | _ => false end) (seq 0 16) = true /\
      forallb (fun j => negb (qceqb (sumf 0 (4 - 1 - j) (fun i => T i j)) 0)) (seq 0 3) = true /\
      veqb (v_reserve (nth 1 (o_reserves b) (mkR 0 0 NaN NaN NaN)))
           (Fin (future 4 T c (fun j => ex_V (4 + j) c) 1)) = true /\
      veqb (v_latest (nth 1 (o_reserves b) (mkR 0 0 NaN NaN NaN))) (Fin (T 1 2)) = true
  | Err _ => False
  end.
Proof.
  split; [apply bt_regular|]. split; [reflexivity|]. split; [apply ex_rt_ok|]. split; [apply bt_factors|].
  vm_compute. repeat split.
Qed.
