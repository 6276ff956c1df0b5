(** C42 again: what happens in every triangle whose last development factor is below 1.

    [T s] is the resampled triangle of simulation [s] (SpecSim.v). *)

From Coq Require Import String QArith Qcanon ZArith List Bool Lia.
From Verif Require Import Val Frame Triangle A2A Base Mack Boot QcLib Spec Spec2 SpecSim SpecLeak ExTri BootSim PropsBoot SimClaims
  PropsSim LeakClaims.
Import ListNotations.
Open Scope string_scope.
Open Scope list_scope.
Open Scope nat_scope.

(** Every record of the simulated reserves.  An origin is developed with the factors of
    its own simulation up to the last one, which divides a total of its own simulation
    by a loss of the simulation before ([leaked] in SpecLeak.v).  The oldest origin's
    ultimate is missing. *)
Theorem C42_last_factor_below_1_refuted :
  forall (gm : list val -> val) (rt : val -> val) (root : Qc -> Qc) (m : lmat) (n : nat) (C M : nat -> nat -> Qc)
         (cl rl : list nat) (ind : list (list val)) (w : nat -> nat -> bool) (sims : nat) (par : bool)
         (rng : list val -> (nat -> val) * (list (val * val) -> nat -> val)) (b : boot_result) (c : Qc)
         (E : nat -> nat -> nat -> Qc) (V : nat -> nat -> nat -> Qc -> Qc),
  regular m n C -> positive n C -> 2 < n -> tail_fits (m_cols m) ->
  (forall i j, i + j < n - 1 -> cell ind i j = Fin (if w i j then 1 else 0)%Qc) ->
  (forall j, j < n - 1 -> w (n - 2 - j) j = true) ->
  clvi m = Ok cl -> rlvi m = Ok rl -> root_like rt -> (forall q, (0 <= q)%Qc -> rt (Fin q) = Fin (root q)) ->
  (forall j, j < n - 2 -> (1 <= vol_factor n C j)%Qc) -> (vol_factor n C (n - 2)%nat < 1)%Qc ->
  nth 0 (m_cols m) 0%Z = 1%Z ->
  boot_cl gm rt (mkTri m "origin" "dev" "value") cl rl ind sims par rng = Ok b ->
  o_scale b = Fin c -> (0 < c)%Qc -> regular (o_fit_incr b) n M ->
  (forall s i j, s < sims -> i < n -> j < n -> fst (rng (o_dist b)) (s * (n * n) + i * n + j) = Fin (E s i j)) ->
  (forall ps s i j a, s < sims -> i < n -> j < n -> (0 <= a)%Qc ->
     nth (s * (n * n) + i * n + j) ps (NaN, NaN) = (Fin a, Fin c) ->
     snd (rng (o_dist b)) ps (s * (n * n) + i * n + j) = Fin (V s i j a)) ->
  let T s := resampled M (E s) root in
  (forall s j, s < sims -> j < n - 1 -> sumf 0 (n - 1 - j) (fun i => T s i j) <> 0%Qc) ->
  let latest s i := T s i (n - 1 - i) in
  let reserve s i := future_by n (leaked n T s) (T s) c (V s i) i in
  o_reserves b = flat_map (fun i => map (fun s =>
      if i =? 0 then mkR s (nth 0 (m_idx m) 0%Z) NaN NaN (Fin 0%Qc)
      else mkR s (nth i (m_idx m) 0%Z) (Fin (latest s i)) (Fin (latest s i + reserve s i)%Qc) (Fin (reserve s i)))
    (seq 0 sims)) (seq 0 n).
Proof. exact c42_leak. Qed.
Print Assumptions C42_last_factor_below_1_refuted.

(** Gamma variates at their means: in the first simulation every ultimate of an origin
    with forecasts is 0; in every other one it is proportional to the reciprocal of the
    oldest origin's resampled loss of the simulation before. *)
Theorem C42_ultimates_cross_refuted :
  forall (gm : list val -> val) (rt : val -> val) (root : Qc -> Qc) (m : lmat) (n : nat) (C M : nat -> nat -> Qc)
         (cl rl : list nat) (ind : list (list val)) (w : nat -> nat -> bool) (sims : nat) (par : bool)
         (rng : list val -> (nat -> val) * (list (val * val) -> nat -> val)) (b : boot_result) (c : Qc)
         (E : nat -> nat -> nat -> Qc),
  regular m n C -> positive n C -> 2 < n -> tail_fits (m_cols m) ->
  (forall i j, i + j < n - 1 -> cell ind i j = Fin (if w i j then 1 else 0)%Qc) ->
  (forall j, j < n - 1 -> w (n - 2 - j) j = true) ->
  clvi m = Ok cl -> rlvi m = Ok rl -> root_like rt -> (forall q, (0 <= q)%Qc -> rt (Fin q) = Fin (root q)) ->
  (forall j, j < n - 2 -> (1 <= vol_factor n C j)%Qc) -> (vol_factor n C (n - 2)%nat < 1)%Qc ->
  nth 0 (m_cols m) 0%Z = 1%Z ->
  boot_cl gm rt (mkTri m "origin" "dev" "value") cl rl ind sims par rng = Ok b ->
  o_scale b = Fin c -> (0 < c)%Qc -> regular (o_fit_incr b) n M ->
  (forall s i j, s < sims -> i < n -> j < n -> fst (rng (o_dist b)) (s * (n * n) + i * n + j) = Fin (E s i j)) ->
  (forall ps k a, nth k ps (NaN, NaN) = (Fin a, Fin c) -> snd (rng (o_dist b)) ps k = Fin (a * c)%Qc) ->
  let T s := resampled M (E s) root in
  (forall s j, s < sims -> j < n - 1 -> sumf 0 (n - 1 - j) (fun i => T s i j) <> 0%Qc) ->
  forall r s i, In r (o_reserves b) -> v_sim r = s -> v_o r = nth i (m_idx m) 0%Z -> 0 < i < n ->
    let own := (T s i (n - 1 - i)%nat * prodf (n - 1 - i) (i - 1) (vol_factor n (T s)))%Qc in
    v_ultimate r = Fin match s with
                       | O => 0
                       | S q => own * (sumf 0 n (fun k => T s k 0%nat) / T q 0%nat (n - 2)%nat)
                       end%Qc.
Proof. exact c42_leak_mean. Qed.
Print Assumptions C42_ultimates_cross_refuted.

(** The triangle of C41_decreasing_refuted meets the hypotheses: last factor 140/150,
    two simulations with different residuals and variates at their means. *)
Definition lk_rng (l : list val) : (nat -> val) * (list (val * val) -> nat -> val) :=
  (fun k => if k <? 9 then Fin (Q2Qc (1 # 8)) else Fin 0%Qc, snd (mean_rng l)).
Definition lk_E (s i j : nat) : Qc := if s =? 0 then Q2Qc (1 # 8) else 0%Qc.
Example C42_leak_nonvacuous : regular dn_m 3 dn_C /\ positive 3 dn_C /\ tail_fits (m_cols dn_m) /\ root_like ex_rt /\
  (forall j, j < 3 - 2 -> (1 <= vol_factor 3 dn_C j)%Qc) /\ (vol_factor 3 dn_C (3 - 2)%nat < 1)%Qc /\
  nth 0 (m_cols dn_m) 0%Z = 1%Z /\
  (forall l ps k a c, nth k ps (NaN, NaN) = (Fin a, Fin c) -> snd (lk_rng l) ps k = Fin (a * c)%Qc) /\
  (forall l s i j, s < 2 -> i < 3 -> j < 3 -> fst (lk_rng l) (s * (3 * 3) + i * 3 + j) = Fin (lk_E s i j)) /\
  match boot_cl ex_gm ex_rt dn [2; 1; 0] [2; 1; 0] (a2aind_init dn_m) 2 false lk_rng with
  | Ok b =>
      let M i j := fq (cell (m_cells (o_fit_incr b)) i j) in
      let T s := resampled M (lk_E s) ex_root in
      let cross := (sumf 0 3 (fun k => T 1%nat k 0%nat) / T 0%nat 0%nat 1%nat)%Qc in
      qcltb 0 (fq (o_scale b)) = true /\
      forallb (fun s => forallb (fun j => negb (qceqb (sumf 0 (2 - j) (fun i => T s i j)) 0)) [0; 1]) [0; 1] = true /\
      map (fun r => (v_sim r, v_o r)) (o_reserves b) = [(0, 2001%Z); (1, 2001%Z); (0, 2002%Z); (1, 2002%Z); (0, 2003%Z); (1, 2003%Z)] /\
      vlistb (map v_ultimate (skipn 2 (o_reserves b)))
        [Fin 0%Qc; Fin (T 1%nat 1%nat 1%nat * cross)%Qc; Fin 0%Qc; Fin (T 1%nat 2%nat 0%nat * vol_factor 3 (T 1%nat) 0 * cross)%Qc] = true /\
      qceqb (T 0 0 1) (T 1 0 1) = false
  | Err _ => False
  end.
Proof.
  split; [apply dn_regular|]. split; [apply dn_positive|]. split.
  { split; [intros j Hj; cbn in Hj; destruct j as [|j]; [cbn; lia|]; lia|exists 0; cbn; lia]. }
  split; [apply ex_rt_ok|].
  split. { intros j Hj. destruct j; [|lia]. vm_compute. discriminate. }
  split; [reflexivity|]. split; [reflexivity|]. split.
  { intros l ps k a c H. unfold lk_rng, mean_rng. cbn [snd]. rewrite H. reflexivity. }
  split.
  { intros l s i j Hs Hi Hj. unfold lk_rng, lk_E. cbn [fst].
    destruct s as [|[|s]]; cbn [Nat.eqb]; [rewrite (proj2 (Nat.ltb_lt _ 9)) by lia|rewrite (proj2 (Nat.ltb_ge _ 9)) by lia|lia]; auto. }
  vm_compute. repeat split.
Qed.
