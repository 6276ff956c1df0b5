(** C97: the bootstrap of a triangle whose cumulative losses fall.

    The property: in every simulation an origin's latest loss is its resampled paid
    loss, whatever the development factors.  It holds when no factor is below 1; for
    every triangle with a factor below 1 (before the last) it fails, and the summary
    shows an origin without losses. *)

From Coq Require Import String QArith Qcanon ZArith List Bool Lia.
From Verif Require Import Val Frame Triangle A2A Base Mack Boot QcLib Spec Spec2 SpecSim ExTri BootSim PropsBoot SimClaims BelowOne.
Import ListNotations.
Open Scope string_scope.
Open Scope list_scope.
Open Scope nat_scope.

(** Factors of at least 1, first period labelled 1: every record's latest is the
    resampled loss [T s i] of its simulation and origin on the latest diagonal.
    Missing from the full property: factors below 1 (refuted below) and a column of a
    resampled triangle summing to 0. *)
Theorem C97_latest_resampled_partial :
  forall (gm : list val -> val) (rt : val -> val) (root : Qc -> Qc) (m : lmat) (n : nat) (C M : nat -> nat -> Qc)
         (cl rl : list nat) (ind : list (list val)) (w : nat -> nat -> bool) (sims : nat) (par : bool)
         (rng : list val -> (nat -> val) * (list (val * val) -> nat -> val)) (b : boot_result) (c : Qc)
         (E : nat -> nat -> nat -> Qc) (V : nat -> nat -> nat -> Qc -> Qc),
  regular m n C -> positive n C -> 2 < n -> tail_fits (m_cols m) ->
  (forall i j, i + j < n - 1 -> cell ind i j = Fin (if w i j then 1 else 0)%Qc) ->
  (forall j, j < n - 1 -> w (n - 2 - j) j = true) ->
  clvi m = Ok cl -> rlvi m = Ok rl -> root_like rt -> (forall q, (0 <= q)%Qc -> rt (Fin q) = Fin (root q)) ->
  (forall j, j < n - 1 -> (1 <= vol_factor n C j)%Qc) ->
  nth 0 (m_cols m) 0%Z = 1%Z ->
  boot_cl gm rt (mkTri m "origin" "dev" "value") cl rl ind sims par rng = Ok b ->
  o_scale b = Fin c -> (0 < c)%Qc -> regular (o_fit_incr b) n M ->
  (forall s i j, s < sims -> i < n -> j < n -> fst (rng (o_dist b)) (s * (n * n) + i * n + j) = Fin (E s i j)) ->
  (forall ps s i j a, s < sims -> i < n -> j < n -> (0 <= a)%Qc ->
     nth (s * (n * n) + i * n + j) ps (NaN, NaN) = (Fin a, Fin c) ->
     snd (rng (o_dist b)) ps (s * (n * n) + i * n + j) = Fin (V s i j a)) ->
  let T s := resampled M (E s) root in
  (forall s j, s < sims -> j < n - 1 -> sumf 0 (n - 1 - j) (fun i => T s i j) <> 0%Qc) ->
  forall r, In r (o_reserves b) -> exists s i, s < sims /\ i < n /\ v_sim r = s /\ v_o r = nth i (m_idx m) 0%Z /\
    v_latest r = Fin (T s i (n - 1 - i)).
Proof. exact c97_kept. Qed.
Print Assumptions C97_latest_resampled_partial.

(** The first factor below 1 is that of period [p], and [p] is not the last: take the
    origin whose latest period is the next one.  Whatever is drawn (a gamma variate of
    shape 0 being 0), in every simulation its latest, ultimate and reserve are 0 and
    its row of the summary reads: ultimate 0, reserve minus the whole latest loss. *)
Theorem C97_origin_wiped_out_refuted :
  forall (gm : list val -> val) (rt : val -> val) (m : lmat) (n : nat) (C : nat -> nat -> Qc)
         (cl rl : list nat) (ind : list (list val)) (w : nat -> nat -> bool) (sims : nat) (par : bool)
         (rng : list val -> (nat -> val) * (list (val * val) -> nat -> val)) (b : boot_result) (c : Qc) (p : nat),
  regular m n C -> positive n C -> tail_fits (m_cols m) ->
  (forall i j, i + j < n - 1 -> cell ind i j = Fin (if w i j then 1 else 0)%Qc) ->
  (forall j, j < n - 1 -> w (n - 2 - j) j = true) ->
  rlvi m = Ok rl -> root_like rt -> p + 2 < n ->
  (forall k, k < p -> (1 <= vol_factor n C k)%Qc) -> (vol_factor n C p < 1)%Qc ->
  nth 0 (m_cols m) 0%Z = 1%Z -> 0 < sims ->
  boot_cl gm rt (mkTri m "origin" "dev" "value") cl rl ind sims par rng = Ok b ->
  o_scale b = Fin c -> (0 < c)%Qc ->
  (forall k, k < sims * (n * n) -> exists q, fst (rng (o_dist b)) k = Fin q) ->
  (forall ps k, nth k ps (NaN, NaN) = (Fin 0%Qc, Fin c) -> snd (rng (o_dist b)) ps k = Fin 0%Qc) ->
  let o := nth (n - 2 - p) (m_idx m) 0%Z in
  let latest := C (n - 2 - p) (p + 1) in
  filter (fun r => (v_o r =? o)%Z) (o_reserves b)
    = map (fun s => mkR s o (Fin 0%Qc) (Fin 0%Qc) (Fin 0%Qc)) (seq 0 sims) /\
  In (o, Fin latest, Fin 0%Qc, Fin (- latest)%Qc) (o_summary b) /\ (0 < latest)%Qc.
Proof. exact c97_wiped. Qed.
Print Assumptions C97_origin_wiped_out_refuted.

(** The same under any development labels: that origin's reserve is 0 in every
    simulation, so it carries no uncertainty at all. *)
Theorem C97_no_uncertainty_refuted :
  forall (gm : list val -> val) (rt : val -> val) (m : lmat) (n : nat) (C : nat -> nat -> Qc)
         (cl rl : list nat) (ind : list (list val)) (w : nat -> nat -> bool) (sims : nat) (par : bool)
         (rng : list val -> (nat -> val) * (list (val * val) -> nat -> val)) (b : boot_result) (c : Qc) (p : nat),
  regular m n C -> positive n C -> tail_fits (m_cols m) ->
  (forall i j, i + j < n - 1 -> cell ind i j = Fin (if w i j then 1 else 0)%Qc) ->
  (forall j, j < n - 1 -> w (n - 2 - j) j = true) ->
  rlvi m = Ok rl -> root_like rt -> p + 2 < n ->
  (forall k, k < p -> (1 <= vol_factor n C k)%Qc) -> (vol_factor n C p < 1)%Qc ->
  boot_cl gm rt (mkTri m "origin" "dev" "value") cl rl ind sims par rng = Ok b ->
  o_scale b = Fin c -> (0 < c)%Qc ->
  (forall k, k < sims * (n * n) -> exists q, fst (rng (o_dist b)) k = Fin q) ->
  (forall ps k, nth k ps (NaN, NaN) = (Fin 0%Qc, Fin c) -> snd (rng (o_dist b)) ps k = Fin 0%Qc) ->
  forall r, In r (o_reserves b) -> v_o r = nth (n - 2 - p) (m_idx m) 0%Z ->
    v_reserve r = Fin 0%Qc /\ v_latest r = v_ultimate r.
Proof. exact c97_flat. Qed.
Print Assumptions C97_no_uncertainty_refuted.

(** A triangle with first factor 245/300: its third origin is wiped out. *)
Definition dip_C (i j : nat) : Qc :=
  match i, j with
  | 0, 0 => qz 100 | 0, 1 => qz 80 | 0, 2 => qz 120 | 0, 3 => qz 126
  | 1, 0 => qz 110 | 1, 1 => qz 90 | 1, 2 => qz 130
  | 2, 0 => qz 90 | 2, 1 => qz 75
  | _, _ => qz 95
  end.
Definition dip_m : lmat := mkMat (m_idx bt_m) (m_cols bt_m)
  [[vz 100; vz 80; vz 120; vz 126]; [vz 110; vz 90; vz 130; NaN]; [vz 90; vz 75; NaN; NaN]; [vz 95; NaN; NaN; NaN]].
Lemma dip_regular : regular dip_m 4 dip_C.
Proof.
  repeat split; simpl; auto.
  - repeat constructor.
  - repeat constructor.
  - intros row H. repeat (destruct H as [<-|H]; [reflexivity|]). contradiction.
  - intros i j Hi Hj. do 4 (destruct i as [|i]; [do 4 (destruct j as [|j]; [reflexivity|]); lia|]). lia.
Qed.
Example C97_nonvacuous : regular dip_m 4 dip_C /\ positive 4 dip_C /\ (vol_factor 4 dip_C 0 < 1)%Qc /\
  (forall c ps k, nth k ps (NaN, NaN) = (Fin 0%Qc, Fin c) -> forall l, snd (ex_rng l) ps k = Fin 0%Qc) /\
  match boot_cl ex_gm ex_rt (mkTri dip_m "origin" "dev" "value") [3; 2; 1; 0] [3; 2; 1; 0] ex_ind 2 false ex_rng with
  | Ok b =>
      let c := fq (o_scale b) in
      o_scale b = Fin c /\ qcltb 0 c = true /\
      forallb (fun k => match fst (ex_rng (o_dist b)) k with Fin _ => true | _ => false end) (seq 0 32) = true /\
      (* the other origins are not zero *)
      veqb (v_ultimate (nth 2 (o_reserves b) (mkR 0 0 NaN NaN NaN))) (Fin 0%Qc) = false
  | Err _ => False
  end.
Proof.
  split; [apply dip_regular|]. split.
  { intros i j H. do 4 (destruct i as [|i]; [do 4 (destruct j as [|j]; [reflexivity|]); lia|]). lia. }
  split; [reflexivity|]. split.
  { intros c ps k H l. cbn [ex_rng snd]. cbv zeta. rewrite H. cbn [fst snd vmul]. f_equal. ring. }
  vm_compute. repeat split.
Qed.
