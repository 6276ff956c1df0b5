(** C98: every simulated record of every run-off triangle with positive losses,
    whatever its factors and labels.  The vocabulary is that of SpecAny.v. *)

From Coq Require Import String QArith Qcanon ZArith List Bool Lia.
From Verif Require Import Val Frame Triangle A2A Base Mack Boot QcLib Spec Spec2 SpecSim SpecAny ExTri BootSim PropsBoot SimClaims
  PropsSim AnyClaims.
Import ListNotations.
Open Scope string_scope.
Open Scope list_scope.
Open Scope nat_scope.

(** [M]: the fitted increments; [E s]: the residuals drawn for simulation [s];
    [V s i j a]: the gamma variate of shape [a].  An ultimate is missing for the oldest
    origin when its last period has no resampled loss; a record without a latest
    resampled loss shows the ultimate as latest, and reserve 0. *)
Theorem C98_simulated_records :
  forall (gm : list val -> val) (rt : val -> val) (root : Qc -> Qc) (m : lmat) (n : nat) (C M : nat -> nat -> Qc)
         (cl rl : list nat) (ind : list (list val)) (w : nat -> nat -> bool) (sims : nat) (par : bool)
         (rng : list val -> (nat -> val) * (list (val * val) -> nat -> val)) (b : boot_result) (c : Qc)
         (E : nat -> nat -> nat -> Qc) (V : nat -> nat -> nat -> Qc -> Qc),
  regular m n C -> positive n C -> 2 < n -> tail_fits (m_cols m) ->
  (forall i j, i + j < n - 1 -> cell ind i j = Fin (if w i j then 1 else 0)%Qc) ->
  (forall j, j < n - 1 -> w (n - 2 - j) j = true) ->
  clvi m = Ok cl -> rlvi m = Ok rl -> root_like rt -> (forall q, (0 <= q)%Qc -> rt (Fin q) = Fin (root q)) ->
  boot_cl gm rt (mkTri m "origin" "dev" "value") cl rl ind sims par rng = Ok b ->
  o_scale b = Fin c -> (0 < c)%Qc -> regular (o_fit_incr b) n M ->
  (forall s i j, s < sims -> i < n -> j < n -> fst (rng (o_dist b)) (s * (n * n) + i * n + j) = Fin (E s i j)) ->
  (forall ps s i j a, s < sims -> i < n -> j < n -> (0 <= a)%Qc ->
     nth (s * (n * n) + i * n + j) ps (NaN, NaN) = (Fin a, Fin c) ->
     snd (rng (o_dist b)) ps (s * (n * n) + i * n + j) = Fin (V s i j a)) ->
  let keep := alive n C in
  let T s := resampled_at keep M (E s) root in
  let losses s i := path n keep (factor n keep T s) (T s) i in
  let u s i := total n (m_cols m) (losses s i) c (V s i) i in
  let ultimate s i := if (i =? 0) && negb (keep (n - 1)) then NaN else Fin (u s i) in
  let has_latest i := negb (i =? 0) && keep (n - 1 - i) in
  o_reserves b = flat_map (fun i => map (fun s =>
      mkR s (nth i (m_idx m) 0%Z) (if has_latest i then Fin (T s i (n - 1 - i)) else ultimate s i) (ultimate s i)
          (Fin (if has_latest i then u s i - T s i (n - 1 - i)%nat else 0)%Qc))
    (seq 0 sims)) (seq 0 n).
Proof. exact c98_any. Qed.
Print Assumptions C98_simulated_records.

(** Every origin whose latest period is reached with a factor below 1 has reserve 0 in
    every simulation, whatever is drawn. *)
Theorem C98_origins_without_reserve :
  forall (gm : list val -> val) (rt : val -> val) (root : Qc -> Qc) (m : lmat) (n : nat) (C M : nat -> nat -> Qc)
         (cl rl : list nat) (ind : list (list val)) (w : nat -> nat -> bool) (sims : nat) (par : bool)
         (rng : list val -> (nat -> val) * (list (val * val) -> nat -> val)) (b : boot_result) (c : Qc)
         (E : nat -> nat -> nat -> Qc) (V : nat -> nat -> nat -> Qc -> Qc),
  regular m n C -> positive n C -> 2 < n -> tail_fits (m_cols m) ->
  (forall i j, i + j < n - 1 -> cell ind i j = Fin (if w i j then 1 else 0)%Qc) ->
  (forall j, j < n - 1 -> w (n - 2 - j) j = true) ->
  clvi m = Ok cl -> rlvi m = Ok rl -> root_like rt -> (forall q, (0 <= q)%Qc -> rt (Fin q) = Fin (root q)) ->
  boot_cl gm rt (mkTri m "origin" "dev" "value") cl rl ind sims par rng = Ok b ->
  o_scale b = Fin c -> (0 < c)%Qc -> regular (o_fit_incr b) n M ->
  (forall s i j, s < sims -> i < n -> j < n -> fst (rng (o_dist b)) (s * (n * n) + i * n + j) = Fin (E s i j)) ->
  (forall ps s i j a, s < sims -> i < n -> j < n -> (0 <= a)%Qc ->
     nth (s * (n * n) + i * n + j) ps (NaN, NaN) = (Fin a, Fin c) ->
     snd (rng (o_dist b)) ps (s * (n * n) + i * n + j) = Fin (V s i j a)) ->
  forall r i p, In r (o_reserves b) -> v_o r = nth i (m_idx m) 0%Z -> i + S p = n - 1 -> (vol_factor n C p < 1)%Qc ->
    v_reserve r = Fin 0%Qc /\ v_latest r = v_ultimate r.
Proof. exact c98_lost. Qed.
Print Assumptions C98_origins_without_reserve.

(** First and last factor below 1, the one between above: periods 1 and 3 have no
    resampled losses, and the factor out of period 2 spans two simulations. *)
Definition gap_C (i j : nat) : Qc :=
  match i, j with
  | 0, 0 => qz 100 | 0, 1 => qz 80 | 0, 2 => qz 120 | 0, 3 => qz 114
  | 1, 0 => qz 110 | 1, 1 => qz 90 | 1, 2 => qz 130
  | 2, 0 => qz 90 | 2, 1 => qz 75
  | _, _ => qz 95
  end.
Definition gap_m : lmat := mkMat (m_idx bt_m) (m_cols bt_m)
  [[vz 100; vz 80; vz 120; vz 114]; [vz 110; vz 90; vz 130; NaN]; [vz 90; vz 75; NaN; NaN]; [vz 95; NaN; NaN; NaN]].
Definition gap_rng (l : list val) : (nat -> val) * (list (val * val) -> nat -> val) :=
  (fun k => if k <? 16 then Fin (Q2Qc (1 # 8)) else Fin 0%Qc, snd (mean_rng l)).
Definition gap_E (s i j : nat) : Qc := if s =? 0 then Q2Qc (1 # 8) else 0%Qc.
Lemma gap_regular : regular gap_m 4 gap_C.
Proof.
  repeat split; simpl; auto.
  - repeat constructor.
  - repeat constructor.
  - intros row H. repeat (destruct H as [<-|H]; [reflexivity|]). contradiction.
  - intros i j Hi Hj. do 4 (destruct i as [|i]; [do 4 (destruct j as [|j]; [reflexivity|]); lia|]). lia.
Qed.
Example C98_nonvacuous : regular gap_m 4 gap_C /\ positive 4 gap_C /\ tail_fits (m_cols gap_m) /\ root_like ex_rt /\
  map (alive 4 gap_C) [0; 1; 2; 3] = [true; false; true; false] /\
  (forall l ps k a c, nth k ps (NaN, NaN) = (Fin a, Fin c) -> snd (gap_rng l) ps k = Fin (a * c)%Qc) /\
  (forall l s i j, s < 2 -> i < 4 -> j < 4 -> fst (gap_rng l) (s * (4 * 4) + i * 4 + j) = Fin (gap_E s i j)) /\
  match boot_cl ex_gm ex_rt (mkTri gap_m "origin" "dev" "value") [3; 2; 1; 0] [3; 2; 1; 0] ex_ind 2 false gap_rng with
  | Ok b =>
      let M i j := fq (cell (m_cells (o_fit_incr b)) i j) in
      let T s := resampled_at (alive 4 gap_C) M (gap_E s) ex_root in
      qcltb 0 (fq (o_scale b)) = true /\
      map (fun r => (v_sim r, v_o r)) (o_reserves b) =
        [(0, 2001%Z); (1, 2001%Z); (0, 2002%Z); (1, 2002%Z); (0, 2003%Z); (1, 2003%Z); (0, 2004%Z); (1, 2004%Z)] /\
      (* second simulation: the factor out of period 2 exists, and uses the first simulation *)
      match factor 4 (alive 4 gap_C) T 1 2 with
      | Some x => qceqb x (sumf 0 4 (fun i => T 1%nat i 0%nat) / T 0%nat 0%nat 2%nat) = true
      | None => False
      end /\ factor 4 (alive 4 gap_C) T 0 2 = None /\
      forallb (fun i => forallb (fun s => veqb (v_ultimate (nth (i * 2 + s) (o_reserves b) (mkR 0 0 NaN NaN NaN)))
          (Fin (total 4 (m_cols gap_m) (path 4 (alive 4 gap_C) (factor 4 (alive 4 gap_C) T s) (T s) i) (fq (o_scale b))
             (fun _ a => a * fq (o_scale b))%Qc i))) [0; 1]) [1; 2; 3] = true /\
      veqb (v_latest (nth 3 (o_reserves b) (mkR 0 0 NaN NaN NaN))) (Fin (T 1 1 2)) = true /\
      veqb (v_reserve (nth 5 (o_reserves b) (mkR 0 0 NaN NaN NaN))) (Fin 0%Qc) = true
  | Err _ => False
  end.
Proof.
  split; [apply gap_regular|]. split.
  { intros i j H. do 4 (destruct i as [|i]; [do 4 (destruct j as [|j]; [reflexivity|]); lia|]). lia. }
  split.
  { split; [intros j Hj; cbn in Hj; destruct j as [|[|j]]; [cbn; lia|cbn; lia|]; lia|exists 0; cbn; lia]. }
  split; [apply ex_rt_ok|]. split; [reflexivity|].
  split.
  { intros l ps k a c H. unfold gap_rng, mean_rng. cbn [snd]. rewrite H. reflexivity. }
  split.
  { intros l s i j Hs Hi Hj. unfold gap_rng, gap_E. cbn [fst].
    destruct s as [|[|s]]; cbn [Nat.eqb]; [rewrite (proj2 (Nat.ltb_lt _ 16)) by lia|rewrite (proj2 (Nat.ltb_ge _ 16)) by lia|lia]; auto. }
  vm_compute. repeat split.
Qed.
