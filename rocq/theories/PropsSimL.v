(** C74 and C41 under any development labels: the estimator books the increments of the
    simulated triangles by the label of their period, not by its position. *)

From Coq Require Import String QArith Qcanon ZArith List Bool Lia.
From Verif Require Import Val Frame Triangle A2A Base Mack Boot QcLib Spec Spec2 SpecSim SpecSimL ExTri BootSim PropsBoot SimLClaims.
Import ListNotations.
Open Scope string_scope.
Open Scope list_scope.
Open Scope nat_scope.

(** Every simulated record under any labels.  With the first period labelled 1 the
    booked increments are the increments (C74_simulated_records_partial). *)
Theorem C74_any_labels :
  forall (m : lmat) (n : nat) (C : nat -> nat -> Qc),
  regular m n C -> positive n C -> 2 < n -> tail_fits (m_cols m) ->
  forall (ind : list (list val)) (w : nat -> nat -> bool),
  (forall i j, i + j < n - 1 -> cell ind i j = Fin (if w i j then 1 else 0)%Qc) ->
  (forall j, j < n - 1 -> w (n - 2 - j) j = true) ->
  forall (gm : list val -> val) (rt : val -> val) (root : Qc -> Qc) (cl rl : list nat),
  clvi m = Ok cl -> rlvi m = Ok rl -> root_like rt -> (forall q, (0 <= q)%Qc -> rt (Fin q) = Fin (root q)) ->
  (forall j, j < n - 1 -> (1 <= vol_factor n C j)%Qc) ->
  forall (sims : nat) (par : bool) (rng : list val -> (nat -> val) * (list (val * val) -> nat -> val)) (b : boot_result)
         (c : Qc) (M : nat -> nat -> Qc) (E : nat -> nat -> nat -> Qc) (V : nat -> nat -> nat -> Qc -> Qc),
  boot_cl gm rt (mkTri m "origin" "dev" "value") cl rl ind sims par rng = Ok b ->
  o_scale b = Fin c -> (0 < c)%Qc -> regular (o_fit_incr b) n M ->
  (forall s i j, s < sims -> i < n -> j < n -> fst (rng (o_dist b)) (s * (n * n) + i * n + j) = Fin (E s i j)) ->
  (forall ps s i j a, s < sims -> i < n -> j < n -> (0 <= a)%Qc ->
     nth (s * (n * n) + i * n + j) ps (NaN, NaN) = (Fin a, Fin c) ->
     snd (rng (o_dist b)) ps (s * (n * n) + i * n + j) = Fin (V s i j a)) ->
  let T s := resampled M (E s) root in
  (forall s j, s < sims -> j < n - 1 -> sumf 0 (n - 1 - j) (fun i => T s i j) <> 0%Qc) ->
  let latest s i := T s i (n - 1 - i) in
  let ultimate s i := booked_ultimate (m_cols m) n (T s) c (V s i) i in
  o_reserves b = flat_map (fun i => map (fun s =>
      mkR s (nth i (m_idx m) 0%Z) (Fin (if i =? 0 then ultimate s i else latest s i)) (Fin (ultimate s i))
          (Fin (if i =? 0 then 0 else ultimate s i - latest s i)%Qc)) (seq 0 sims)) (seq 0 n).
Proof. exact c74L. Qed.
Print Assumptions C74_any_labels.

(** Without noise every simulated ultimate is the chain ladder ultimate times one and the
    same share, which depends on the labels: [booked_share] of them. *)
Theorem C41_any_labels :
  forall (gm : list val -> val) (rt : val -> val) (m : lmat) (n : nat) (C : nat -> nat -> Qc) (cl rl : list nat)
         (ind : list (list val)) (w : nat -> nat -> bool) (sims : nat) (par : bool)
         (rng : list val -> (nat -> val) * (list (val * val) -> nat -> val)) (b : boot_result) (c : Qc),
  regular m n C -> positive n C -> 2 < n -> tail_fits (m_cols m) ->
  (forall i j, i + j < n - 1 -> cell ind i j = Fin (if w i j then 1 else 0)%Qc) ->
  (forall j, j < n - 1 -> w (n - 2 - j) j = true) ->
  clvi m = Ok cl -> rlvi m = Ok rl -> root_like rt ->
  let t := mkTri m "origin" "dev" "value" in
  (forall j, j < n - 1 -> (1 <= vol_factor n C j)%Qc) ->
  (forall l k, fst (rng l) k = Fin 0%Qc) ->
  (forall l ps k, snd (rng l) ps k = vmul (fst (nth k ps (NaN, NaN))) (snd (nth k ps (NaN, NaN)))) ->
  boot_cl gm rt t cl rl ind sims par rng = Ok b -> o_scale b = Fin c -> (0 < c)%Qc ->
  exists r A U, base_cl gm t cl ind (SelLabel "all-weighted") (Fin 1%Qc) = (SelLabel "all-weighted", Ok r) /\
    o_ldfs b = c_ldfs r /\
    map s_origin (c_rows r) = m_idx m /\
    map s_latest (c_rows r) = map (fun i => Fin (A i)) (seq 0 n) /\
    map s_ultimate (c_rows r) = map (fun i => Fin (U i)) (seq 0 n) /\
    let u i := (U i * booked_share (m_cols m) n (vol_factor n C))%Qc in
    o_reserves b = flat_map (fun i => map (fun s =>
      mkR s (nth i (m_idx m) 0%Z) (Fin (if i =? 0 then u i else A i)) (Fin (u i))
          (Fin (if i =? 0 then 0 else u i - A i)%Qc)) (seq 0 sims)) (seq 0 n).
Proof. exact c41_labels. Qed.
Print Assumptions C41_any_labels.

(** With factors above 1 the noise-free ultimates are the chain ladder's when the first
    period is labelled 1, all too large when a later one is (labels 0, 1, 2, ...), and all
    too small when none is (labels 12, 24, ...). *)
Theorem C41_other_labels_refuted :
  forall (gm : list val -> val) (rt : val -> val) (m : lmat) (n : nat) (C : nat -> nat -> Qc) (cl rl : list nat)
         (ind : list (list val)) (w : nat -> nat -> bool) (sims : nat) (par : bool)
         (rng : list val -> (nat -> val) * (list (val * val) -> nat -> val)) (b : boot_result) (c : Qc),
  regular m n C -> positive n C -> 2 < n -> tail_fits (m_cols m) ->
  (forall i j, i + j < n - 1 -> cell ind i j = Fin (if w i j then 1 else 0)%Qc) ->
  (forall j, j < n - 1 -> w (n - 2 - j) j = true) ->
  clvi m = Ok cl -> rlvi m = Ok rl -> root_like rt ->
  let t := mkTri m "origin" "dev" "value" in
  (forall j, j < n - 1 -> (1 < vol_factor n C j)%Qc) ->
  (forall l k, fst (rng l) k = Fin 0%Qc) ->
  (forall l ps k, snd (rng l) ps k = vmul (fst (nth k ps (NaN, NaN))) (snd (nth k ps (NaN, NaN)))) ->
  boot_cl gm rt t cl rl ind sims par rng = Ok b -> o_scale b = Fin c -> (0 < c)%Qc ->
  exists r, base_cl gm t cl ind (SelLabel "all-weighted") (Fin 1%Qc) = (SelLabel "all-weighted", Ok r) /\
    forall row x, In row (c_rows r) -> In x (o_reserves b) -> v_o x = s_origin row ->
      exists u y, s_ultimate row = Fin u /\ v_ultimate x = Fin y /\
        (nth 0 (m_cols m) 0%Z = 1%Z -> y = u) /\
        (In 1%Z (tl (m_cols m)) -> (u < y)%Qc) /\
        (~ In 1%Z (m_cols m) -> (y < u)%Qc).
Proof. exact c41_cases. Qed.
Print Assumptions C41_other_labels_refuted.

(** Periods labelled 0, 1, 2, 3. *)
Definition z_m : lmat := mkMat (m_idx ex_m) [0; 1; 2; 3]%Z (m_cells ex_m).
Definition z_t : tri := mkTri z_m "origin" "dev" "value".
Definition z_boot : res boot_result := boot_cl ex_gm ex_rt z_t [3; 2; 1; 0] [3; 2; 1; 0] ex_ind 1 false mean_rng.
Example C74_labels_nonvacuous : regular z_m 4 ex_C /\ tail_fits (m_cols z_m) /\
  clvi z_m = Ok [3; 2; 1; 0] /\ rlvi z_m = Ok [3; 2; 1; 0] /\ In 1%Z (tl (m_cols z_m)) /\
  (forall j, j < 4 - 1 -> (1 < vol_factor 4 ex_C j)%Qc) /\
  match z_boot with
  | Ok b => match o_scale b with Fin c => qcltb 0 c = true | _ => False end /\
            List.length (o_reserves b) = 4 /\
            forallb (fun p => vltb (fst p) (snd p))
              (combine (map (fun i => Fin (ex_C i (3 - i)%nat)) (seq 0 4)) (map v_ultimate (o_reserves b))) = true
  | Err _ => False
  end.
Proof.
  split.
  { repeat split; simpl; auto.
    - repeat constructor.
    - repeat constructor.
    - intros row H. repeat (destruct H as [<-|H]; [reflexivity|]). contradiction.
    - intros i j Hi Hj. do 4 (destruct i as [|i]; [do 4 (destruct j as [|j]; [reflexivity|]); lia|]). lia. }
  split; [split; [intros j Hj; cbn in Hj; do 2 (destruct j as [|j]; [cbn; lia|]); lia|exists 0; cbn; lia]|].
  split; [vm_compute; reflexivity|]. split; [vm_compute; reflexivity|]. split; [left; reflexivity|].
  split; [intros j H; do 3 (destruct j as [|j]; [vm_compute; reflexivity|]); lia|].
  vm_compute. repeat split.
Qed.
