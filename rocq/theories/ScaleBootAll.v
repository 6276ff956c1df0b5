(** C92 for one accepted call, with the hypothesis on the root stated on the result. *)

From Coq Require Import String QArith Qcanon Qreals Reals ZArith List Bool Lia.
From Verif Require Import Val Frame Triangle A2A Base Mack Boot Quant Dist BootSum SpecUnits ListLib QcLib Spec Spec2 BuildFacts RegFacts MackFacts BaseClaims BootLib
  BootFit BootClaims ScaleBoot ScaleBootClaims ScaleBootTab.
Import ListNotations.
Open Scope string_scope.
Open Scope list_scope.
Open Scope nat_scope.

Lemma in_mk r c (f : nat -> nat -> val) i j : i < r -> j < c -> In (f i j) (List.concat (mk r c f)).
Proof.
  intros A B. apply in_concat. unfold mk. exists (map (fun j => f i j) (seq 0 c)). split.
  - apply (in_map (fun i => map (fun j => f i j) (seq 0 c))). apply in_seq. lia.
  - apply (in_map (fun j => f i j)). apply in_seq. lia.
Qed.

Lemma c92_all (gm : list val -> val) (rt : val -> val) (m m' : lmat) (n : nat) (C : nat -> nat -> Qc) (k : Qc) (cl rl : list nat)
    (ind : list (list val)) (w : nat -> nat -> bool) (sims : nat) (par : bool)
    (rng : list val -> (nat -> val) * (list (val * val) -> nat -> val)) (b : boot_result) :
  regular m n C -> positive n C -> 2 < n -> tail_fits (m_cols m) ->
  (forall i j, i + j < n - 1 -> cell ind i j = Fin (if w i j then 1 else 0)%Qc) ->
  (forall j, j < n - 1 -> w (n - 2 - j) j = true) ->
  (0 < k)%Qc -> regular m' n (fun i j => k * k * C i j)%Qc -> m_idx m' = m_idx m -> m_cols m' = m_cols m ->
  boot_cl gm rt (mkTri m "origin" "dev" "value") cl rl ind sims par rng = Ok b ->
  root_units rt k (List.concat (m_cells (o_fit_incr b))) -> draws_units k rng ->
  boot_cl gm rt (mkTri m' "origin" "dev" "value") cl rl ind sims par rng = Ok (sres k b).
Proof.
  intros R P Hn Ev Hi Hl Kp R' Ei Ec Hb Hr (G1, G2).
  assert (E : o_fit_incr b = rmat (m_idx m) (m_cols m) n (incr_of (fitc n C (vol_factor n C)))).
  { rewrite (boot_eq m n C R P Hn Ev ind w Hi Hl gm rt cl rl sims par rng) in Hb. cbv zeta in Hb.
    destruct (negb par && (0 <? sims) && _); [discriminate|]. injection Hb as <-. auto. }
  rewrite E in Hr. unfold rmat in Hr. cbn [m_cells] in Hr.
  rewrite (c92 m m' n C k Kp R R' Ei Ec P Hn Ev ind w Hi Hl gm rt) with (cl := cl) (rl := rl); auto.
  - rewrite Hb. auto.
  - intros i j L x. assert (Q := Hr _ (in_mk n n (rc n (incr_of (fitc n C (vol_factor n C)))) i j ltac:(lia) ltac:(lia))).
    unfold rc in Q. rewrite ltb_if in Q by lia. exact Q.
  - assert (Q := Hr _ (in_mk n n (rc n (incr_of (fitc n C (vol_factor n C)))) (n - 1) (n - 1) ltac:(lia) ltac:(lia))).
    unfold rc in Q. destruct (Nat.ltb_spec (n - 1 + (n - 1)) n); [lia|]. apply Q.
Qed.
