(** C102: which number a simulation has does not matter. *)

From Coq Require Import String QArith Qcanon ZArith List Bool Lia Permutation.
From Verif Require Import Val Frame Triangle A2A Base Mack Boot QcLib Spec Spec2 SpecSim RegFacts BaseClaims BootFit BootClaims ExTri
  PropsBoot BootSim PropsDraw OrderClaims.
Import ListNotations.
Open Scope string_scope.
Open Scope list_scope.
Open Scope nat_scope.

(** [b], [b']: runs on one triangle, or the same run twice, with the residuals [E], [E']
    and the gamma variates [V], [V'].  If simulation [s] of [b] and simulation [s'] of
    [b'] have the same draws they have the same records, provided the last factor is at
    least 1. *)
Theorem C102_same_draws_same_records_partial :
  forall (gm : list val -> val) (rt : val -> val) (root : Qc -> Qc) (m : lmat) (n : nat) (C : nat -> nat -> Qc)
         (cl rl : list nat) (ind : list (list val)) (w : nat -> nat -> bool) (sims sims' : nat) (par par' : bool)
         (rng rng' : list val -> (nat -> val) * (list (val * val) -> nat -> val)) (b b' : boot_result) (c : Qc)
         (E E' : nat -> nat -> nat -> Qc) (V V' : nat -> nat -> nat -> Qc -> Qc),
  regular m n C -> positive n C -> 2 < n -> tail_fits (m_cols m) ->
  (forall i j, i + j < n - 1 -> cell ind i j = Fin (if w i j then 1 else 0)%Qc) ->
  (forall j, j < n - 1 -> w (n - 2 - j) j = true) ->
  clvi m = Ok cl -> rlvi m = Ok rl -> root_like rt -> (forall q, (0 <= q)%Qc -> rt (Fin q) = Fin (root q)) ->
  (1 <= vol_factor n C (n - 2)%nat)%Qc ->
  boot_cl gm rt (mkTri m "origin" "dev" "value") cl rl ind sims par rng = Ok b ->
  boot_cl gm rt (mkTri m "origin" "dev" "value") cl rl ind sims' par' rng' = Ok b' ->
  o_scale b = Fin c -> (0 < c)%Qc ->
  (forall s i j, s < sims -> i < n -> j < n -> fst (rng (o_dist b)) (s * (n * n) + i * n + j) = Fin (E s i j)) ->
  (forall ps s i j a, s < sims -> i < n -> j < n -> (0 <= a)%Qc ->
     nth (s * (n * n) + i * n + j) ps (NaN, NaN) = (Fin a, Fin c) ->
     snd (rng (o_dist b)) ps (s * (n * n) + i * n + j) = Fin (V s i j a)) ->
  (forall s i j, s < sims' -> i < n -> j < n -> fst (rng' (o_dist b')) (s * (n * n) + i * n + j) = Fin (E' s i j)) ->
  (forall ps s i j a, s < sims' -> i < n -> j < n -> (0 <= a)%Qc ->
     nth (s * (n * n) + i * n + j) ps (NaN, NaN) = (Fin a, Fin c) ->
     snd (rng' (o_dist b')) ps (s * (n * n) + i * n + j) = Fin (V' s i j a)) ->
  forall s s', s < sims -> s' < sims' -> (forall i j, i < n -> j < n -> E s i j = E' s' i j) ->
  (forall i j a, i < n -> j < n -> (0 <= a)%Qc -> V s i j a = V' s' i j a) ->
  let figures q rs := map (fun r => (v_o r, v_latest r, v_ultimate r, v_reserve r)) (filter (fun r => v_sim r =? q) rs) in
  figures s (o_reserves b) = figures s' (o_reserves b').
Proof. exact c102_same. Qed.
Print Assumptions C102_same_draws_same_records_partial.

(** The simulations of [b'] are those of [b] in another order: the summary and its totals
    are the same, provided the last factor is at least 1. *)
Theorem C102_order_of_simulations_partial :
  forall (gm : list val -> val) (rt : val -> val) (root : Qc -> Qc) (m : lmat) (n : nat) (C : nat -> nat -> Qc)
         (cl rl : list nat) (ind : list (list val)) (w : nat -> nat -> bool) (sims : nat) (par par' : bool)
         (rng rng' : list val -> (nat -> val) * (list (val * val) -> nat -> val)) (b b' : boot_result) (c : Qc)
         (E E' : nat -> nat -> nat -> Qc) (V V' : nat -> nat -> nat -> Qc -> Qc),
  regular m n C -> positive n C -> 2 < n -> tail_fits (m_cols m) ->
  (forall i j, i + j < n - 1 -> cell ind i j = Fin (if w i j then 1 else 0)%Qc) ->
  (forall j, j < n - 1 -> w (n - 2 - j) j = true) ->
  clvi m = Ok cl -> rlvi m = Ok rl -> root_like rt -> (forall q, (0 <= q)%Qc -> rt (Fin q) = Fin (root q)) ->
  (1 <= vol_factor n C (n - 2)%nat)%Qc ->
  boot_cl gm rt (mkTri m "origin" "dev" "value") cl rl ind sims par rng = Ok b ->
  boot_cl gm rt (mkTri m "origin" "dev" "value") cl rl ind sims par' rng' = Ok b' ->
  o_scale b = Fin c -> (0 < c)%Qc ->
  (forall s i j, s < sims -> i < n -> j < n -> fst (rng (o_dist b)) (s * (n * n) + i * n + j) = Fin (E s i j)) ->
  (forall ps s i j a, s < sims -> i < n -> j < n -> (0 <= a)%Qc ->
     nth (s * (n * n) + i * n + j) ps (NaN, NaN) = (Fin a, Fin c) ->
     snd (rng (o_dist b)) ps (s * (n * n) + i * n + j) = Fin (V s i j a)) ->
  (forall s i j, s < sims -> i < n -> j < n -> fst (rng' (o_dist b')) (s * (n * n) + i * n + j) = Fin (E' s i j)) ->
  (forall ps s i j a, s < sims -> i < n -> j < n -> (0 <= a)%Qc ->
     nth (s * (n * n) + i * n + j) ps (NaN, NaN) = (Fin a, Fin c) ->
     snd (rng' (o_dist b')) ps (s * (n * n) + i * n + j) = Fin (V' s i j a)) ->
  forall g : nat -> nat, 0 < sims -> Permutation (map g (seq 0 sims)) (seq 0 sims) ->
  (forall s i j, s < sims -> i < n -> j < n -> E' s i j = E (g s) i j) ->
  (forall s i j a, s < sims -> i < n -> j < n -> (0 <= a)%Qc -> V' s i j a = V (g s) i j a) ->
  o_summary b' = o_summary b /\ o_total b' = o_total b.
Proof.
  intros gm rt root m n C cl rl ind w sims par par' rng rng' b b' c E E' V V' R P Hn Ev Hi Hl Cl Rl Rt Ro Lf B B' Sc Cp He Hv He' Hv' g Hs Pm H1 H2.
  exact (c102_order gm rt root m n C cl rl ind w sims sims par par' rng rng' b b' c E E' V V' R P Hn Ev Hi Hl Cl Rl Rt Ro Lf B B' Sc Cp He Hv He' Hv'
    g Hs eq_refl Pm H1 H2).
Qed.
Print Assumptions C102_order_of_simulations_partial.

(** Two simulations, one with residuals of 1/10 and one with none, in both orders. *)
Definition or_E (s i j : nat) : Qc := if s =? 0 then Q2Qc (1 # 10) else 0%Qc.
Definition or_rng (z : nat) (l : list val) : (nat -> val) * (list (val * val) -> nat -> val) :=
  (fun k => Fin (if (k <? 9) then or_E z 0 0 else or_E (1 - z) 0 0), snd (mean_rng l)).
Example C102_nonvacuous : exists b b',
  regular dr_m 3 dr_C /\ positive 3 dr_C /\ tail_fits (m_cols dr_m) /\
  (forall i j, i + j < 3 - 1 -> cell dr_ind i j = Fin (if true then 1 else 0)%Qc) /\
  clvi dr_m = Ok [2; 1; 0] /\ rlvi dr_m = Ok [2; 1; 0] /\ root_like dr_rt /\ (forall q, (0 <= q)%Qc -> dr_rt (Fin q) = Fin (dr_root q)) /\
  (1 <= vol_factor 3 dr_C (3 - 2)%nat)%Qc /\
  boot_cl ex_gm dr_rt (mkTri dr_m "origin" "dev" "value") [2; 1; 0] [2; 1; 0] dr_ind 2 false (or_rng 0) = Ok b /\
  boot_cl ex_gm dr_rt (mkTri dr_m "origin" "dev" "value") [2; 1; 0] [2; 1; 0] dr_ind 2 false (or_rng 1) = Ok b' /\
  o_scale b = Fin dr_c /\ (0 < dr_c)%Qc /\
  (forall z l s i j, s < 2 -> z < 2 -> i < 3 -> j < 3 -> fst (or_rng z l) (s * (3 * 3) + i * 3 + j) = Fin (or_E (if z =? 0 then s else 1 - s) i j)) /\
  (forall z l ps s i j a, s < 2 -> i < 3 -> j < 3 -> (0 <= a)%Qc -> nth (s * (3 * 3) + i * 3 + j) ps (NaN, NaN) = (Fin a, Fin dr_c) ->
     snd (or_rng z l) ps (s * (3 * 3) + i * 3 + j) = Fin (a * dr_c)%Qc) /\
  Permutation (map (fun s => 1 - s) (seq 0 2)) (seq 0 2).
Proof.
  destruct C101_nonvacuous as (_ & R & P & Ev & Hi & Cl & Rl & Rt & Ro & _ & _ & _ & _ & _ & _ & _ & _ & _ & _ & F1 & _).
  assert (Nd : (List.length (sampling_dist (ra dr_m 3 dr_C dr_rt)) =? 0) = false) by (vm_compute; reflexivity).
  assert (Be := fun rng => boot_eq dr_m 3 dr_C R P ltac:(lia) Ev dr_ind (fun _ _ => true) Hi ltac:(auto) ex_gm dr_rt [2; 1; 0] [2; 1; 0] 2 false rng).
  cbv zeta in Be. rewrite Nd in Be. cbn [negb andb Nat.ltb Nat.leb] in Be.
  eexists. eexists. split; [exact R|]. split; [exact P|]. split; [exact Ev|]. split; [exact Hi|]. split; [exact Cl|]. split; [exact Rl|].
  split; [exact Rt|]. split; [exact Ro|]. split; [apply F1; lia|]. split; [apply Be|]. split; [apply Be|].
  split; [exact (proj1 dr_scale)|]. split; [exact (proj2 dr_scale)|].
  split.
  { intros z l s i j Hs Hz Li Lj. unfold or_rng. cbn [fst].
    destruct s as [|[|s]]; [| |lia].
    - rewrite (proj2 (Nat.ltb_lt _ _)) by lia. destruct z as [|[|z]]; [reflexivity|reflexivity|lia].
    - rewrite (proj2 (Nat.ltb_ge _ _)) by lia. destruct z as [|[|z]]; [reflexivity|reflexivity|lia]. }
  split.
  { intros z l ps s i j a Hs Li Lj Ha H. unfold or_rng, mean_rng. cbn [snd]. rewrite H. reflexivity. }
  cbn. apply perm_swap.
Qed.

(** The last factor below 1 (140/150): two simulations of one run, both without noise,
    give different ultimates. *)
Theorem C102_same_draws_refuted : exists b,
  boot_cl ex_gm ex_rt dn [2; 1; 0] [2; 1; 0] (a2aind_init dn_m) 2 false mean_rng = Ok b /\
  (forall l k, fst (mean_rng l) k = Fin 0%Qc) /\
  (forall l ps k, snd (mean_rng l) ps k = vmul (fst (nth k ps (NaN, NaN))) (snd (nth k ps (NaN, NaN)))) /\
  vlistb (map v_ultimate (filter (fun r => v_sim r =? 0) (o_reserves b)))
         (map v_ultimate (filter (fun r => v_sim r =? 1) (o_reserves b))) = false.
Proof. eexists. split; [vm_compute; reflexivity|]. split; [reflexivity|]. split; [reflexivity|]. vm_compute. reflexivity. Qed.
Print Assumptions C102_same_draws_refuted.
