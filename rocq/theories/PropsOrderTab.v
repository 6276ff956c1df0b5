(** C102: the whole summary and the quantiles. *)

From Coq Require Import String QArith Qcanon ZArith List Bool Lia Permutation.
From Verif Require Import Val Frame Triangle A2A Base Mack Boot QcLib Spec Spec2 SpecSim Quant BootSum OrderTab.
Import ListNotations.
Open Scope string_scope.
Open Scope list_scope.
Open Scope nat_scope.

(** The simulations of [b'] are those of [b] in another order: all rows of the summary
    with standard errors and coefficients of variation, and the quantiles by every
    interpolation and for every request, are the same.  C102_nonvacuous in PropsOrder.v
    has two such runs. *)
Theorem C102_tables_partial :
  forall (gm : list val -> val) (rt : val -> val) (root : Qc -> Qc) (m : lmat) (n : nat) (C : nat -> nat -> Qc)
         (cl rl : list nat) (ind : list (list val)) (w : nat -> nat -> bool) (sims : nat) (par par' : bool)
         (rng rng' : list val -> (nat -> val) * (list (val * val) -> nat -> val)) (b b' : boot_result) (c : Qc)
         (E E' : nat -> nat -> nat -> Qc) (V V' : nat -> nat -> nat -> Qc -> Qc),
  regular m n C -> positive n C -> 2 < n -> tail_fits (m_cols m) ->
  (forall i j, i + j < n - 1 -> cell ind i j = Fin (if w i j then 1 else 0)%Qc) ->
  (forall j, j < n - 1 -> w (n - 2 - j) j = true) ->
  clvi m = Ok cl -> rlvi m = Ok rl -> root_like rt -> (forall q, (0 <= q)%Qc -> rt (Fin q) = Fin (root q)) ->
  (1 <= vol_factor n C (n - 2)%nat)%Qc ->
  boot_cl gm rt (mkTri m "origin" "dev" "value") cl rl ind sims par rng = Ok b ->
  boot_cl gm rt (mkTri m "origin" "dev" "value") cl rl ind sims par' rng' = Ok b' ->
  o_scale b = Fin c -> (0 < c)%Qc ->
  (forall s i j, s < sims -> i < n -> j < n -> fst (rng (o_dist b)) (s * (n * n) + i * n + j) = Fin (E s i j)) ->
  (forall ps s i j a, s < sims -> i < n -> j < n -> (0 <= a)%Qc ->
     nth (s * (n * n) + i * n + j) ps (NaN, NaN) = (Fin a, Fin c) ->
     snd (rng (o_dist b)) ps (s * (n * n) + i * n + j) = Fin (V s i j a)) ->
  (forall s i j, s < sims -> i < n -> j < n -> fst (rng' (o_dist b')) (s * (n * n) + i * n + j) = Fin (E' s i j)) ->
  (forall ps s i j a, s < sims -> i < n -> j < n -> (0 <= a)%Qc ->
     nth (s * (n * n) + i * n + j) ps (NaN, NaN) = (Fin a, Fin c) ->
     snd (rng' (o_dist b')) ps (s * (n * n) + i * n + j) = Fin (V' s i j a)) ->
  forall g : nat -> nat, 0 < sims -> Permutation (map g (seq 0 sims)) (seq 0 sims) ->
  (forall s i j, s < sims -> i < n -> j < n -> E' s i j = E (g s) i j) ->
  (forall s i j a, s < sims -> i < n -> j < n -> (0 <= a)%Qc -> V' s i j a = V (g s) i j a) ->
  boot_table b' = boot_table b /\
  (forall q me lb, boot_get_quantiles (o_reserves b') (m_idx m) q me lb = boot_get_quantiles (o_reserves b) (m_idx m) q me lb) /\
  (forall q two me, boot_summary_quantiles (o_reserves b') (m_idx m) q two me = boot_summary_quantiles (o_reserves b) (m_idx m) q two me).
Proof. exact c102_tables. Qed.
Print Assumptions C102_tables_partial.
