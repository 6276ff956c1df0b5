(** C99: the process stage of the bootstrap over all its variates.  The vocabulary is
    that of SpecProc.v and SpecAny.v. *)

From Coq Require Import String QArith Qcanon ZArith List Bool Lia.
From Verif Require Import Val Frame Triangle A2A Base Mack Boot Sims QcLib Spec Spec2 SpecSim SpecAny SpecProc RegFacts BaseClaims BootFit BootClaims ExTri
  PropsBoot PropsSim BootSim ProcClaims.
Import ListNotations.
Open Scope string_scope.
Open Scope list_scope.
Open Scope nat_scope.

(** [b0]: the run whose variates all equal their means; [b r], [r] below [N]: runs with
    the same residuals and other variates, of probability [p r].  [X]: the forecast
    increments (samp_incr) of one origin in one simulation, before process error.
    Averaged over the runs, a simulated ultimate or reserve is that of [b0], and its
    variance is the scale parameter times the total of the absolute increments. *)
Theorem C99_process_error :
  forall (gm : list val -> val) (rt : val -> val) (root : Qc -> Qc) (m : lmat) (n : nat) (C M : nat -> nat -> Qc)
         (cl rl : list nat) (ind : list (list val)) (w : nat -> nat -> bool) (sims : nat) (par : bool)
         (rng0 : list val -> (nat -> val) * (list (val * val) -> nat -> val)) (b0 : boot_result) (c : Qc)
         (E : nat -> nat -> nat -> Qc)
         (N : nat) (p : nat -> Qc) (rng : nat -> list val -> (nat -> val) * (list (val * val) -> nat -> val)) (b : nat -> boot_result)
         (V : nat -> nat -> nat -> nat -> Qc -> Qc),
  regular m n C -> positive n C -> 2 < n -> tail_fits (m_cols m) ->
  (forall i j, i + j < n - 1 -> cell ind i j = Fin (if w i j then 1 else 0)%Qc) ->
  (forall j, j < n - 1 -> w (n - 2 - j) j = true) ->
  clvi m = Ok cl -> rlvi m = Ok rl -> root_like rt -> (forall q, (0 <= q)%Qc -> rt (Fin q) = Fin (root q)) ->
  boot_cl gm rt (mkTri m "origin" "dev" "value") cl rl ind sims par rng0 = Ok b0 ->
  o_scale b0 = Fin c -> (0 < c)%Qc -> regular (o_fit_incr b0) n M ->
  (forall s i j, s < sims -> i < n -> j < n -> fst (rng0 (o_dist b0)) (s * (n * n) + i * n + j) = Fin (E s i j)) ->
  (forall ps s i j a, s < sims -> i < n -> j < n -> (0 <= a)%Qc ->
     nth (s * (n * n) + i * n + j) ps (NaN, NaN) = (Fin a, Fin c) ->
     snd (rng0 (o_dist b0)) ps (s * (n * n) + i * n + j) = Fin (a * c)%Qc) ->
  (forall r, r < N -> boot_cl gm rt (mkTri m "origin" "dev" "value") cl rl ind sims par (rng r) = Ok (b r)) ->
  (forall r s i j, r < N -> s < sims -> i < n -> j < n -> fst (rng r (o_dist b0)) (s * (n * n) + i * n + j) = Fin (E s i j)) ->
  (forall r ps s i j a, r < N -> s < sims -> i < n -> j < n -> (0 <= a)%Qc ->
     nth (s * (n * n) + i * n + j) ps (NaN, NaN) = (Fin a, Fin c) ->
     snd (rng r (o_dist b0)) ps (s * (n * n) + i * n + j) = Fin (V r s i j a)) ->
  let keep := alive n C in
  let T s := resampled_at keep M (E s) root in
  let losses s i := path n keep (factor n keep T s) (T s) i in
  let shape s i j := (abs_ (or_ 0 (step (m_cols m) (losses s i) j)) / c)%Qc in
  sumf 0 N p = 1%Qc ->
  gamma_moments N p sims n c shape (fun r s i j => V r s i j (shape s i j)) ->
  forall s i, s < sims -> 0 < i < n ->
  let o := nth i (m_idx m) 0%Z in
  let of_run bb := filter (fun r => (v_sim r =? s) && (v_o r =? o)%Z) (o_reserves bb) in
  exists (la0 : val) (w0 q0 : Qc) (la : nat -> val) (U Q : nat -> Qc) (X : list Qc),
    of_run b0 = [mkR s o la0 (Fin w0) (Fin q0)] /\
    (forall r, r < N -> of_run (b r) = [mkR s o (la r) (Fin (U r)) (Fin (Q r))]) /\
    map d_inc (filter (fun d => (d_sim d =? s) && (d_o d =? o)%Z && d_fc d) (sims_data rt (mkTri m "origin" "dev" "value") cl rl sims rng0 b0))
      = map Fin X /\
    average N p U = w0 /\ average N p Q = q0 /\
    average N p (fun r => (U r - w0) * (U r - w0))%Qc = (c * qsum (map abs_ X))%Qc /\
    average N p (fun r => (Q r - q0) * (Q r - q0))%Qc = (c * qsum (map abs_ X))%Qc.
Proof.
  intros gm rt root m n C M cl rl ind w sims par rng0 b0 c E N p rng b V R P Hn Ev Hi Hl Cl Rl Rt Ro B0 Sc Cp Rm He0 Hv0 B He Hv keep T losses shape P1 Gm.
  exact (c99_records gm rt root m n C M cl rl ind w sims par rng0 b0 c E N p rng b V R P Hn Ev Hi Hl Cl Rl Rt Ro B0 Sc Cp Rm He0 Hv0 B He Hv P1 Gm).
Qed.
Print Assumptions C99_process_error.

(** The same for the summary: averaged over the runs, the ultimate of every row and of
    the total is that of [b0]. *)
Theorem C99_summary_unbiased :
  forall (gm : list val -> val) (rt : val -> val) (root : Qc -> Qc) (m : lmat) (n : nat) (C M : nat -> nat -> Qc)
         (cl rl : list nat) (ind : list (list val)) (w : nat -> nat -> bool) (sims : nat) (par : bool)
         (rng0 : list val -> (nat -> val) * (list (val * val) -> nat -> val)) (b0 : boot_result) (c : Qc)
         (E : nat -> nat -> nat -> Qc)
         (N : nat) (p : nat -> Qc) (rng : nat -> list val -> (nat -> val) * (list (val * val) -> nat -> val)) (b : nat -> boot_result)
         (V : nat -> nat -> nat -> nat -> Qc -> Qc),
  regular m n C -> positive n C -> 2 < n -> tail_fits (m_cols m) ->
  (forall i j, i + j < n - 1 -> cell ind i j = Fin (if w i j then 1 else 0)%Qc) ->
  (forall j, j < n - 1 -> w (n - 2 - j) j = true) ->
  clvi m = Ok cl -> rlvi m = Ok rl -> root_like rt -> (forall q, (0 <= q)%Qc -> rt (Fin q) = Fin (root q)) ->
  boot_cl gm rt (mkTri m "origin" "dev" "value") cl rl ind sims par rng0 = Ok b0 ->
  o_scale b0 = Fin c -> (0 < c)%Qc -> regular (o_fit_incr b0) n M ->
  (forall s i j, s < sims -> i < n -> j < n -> fst (rng0 (o_dist b0)) (s * (n * n) + i * n + j) = Fin (E s i j)) ->
  (forall ps s i j a, s < sims -> i < n -> j < n -> (0 <= a)%Qc ->
     nth (s * (n * n) + i * n + j) ps (NaN, NaN) = (Fin a, Fin c) ->
     snd (rng0 (o_dist b0)) ps (s * (n * n) + i * n + j) = Fin (a * c)%Qc) ->
  (forall r, r < N -> boot_cl gm rt (mkTri m "origin" "dev" "value") cl rl ind sims par (rng r) = Ok (b r)) ->
  (forall r s i j, r < N -> s < sims -> i < n -> j < n -> fst (rng r (o_dist b0)) (s * (n * n) + i * n + j) = Fin (E s i j)) ->
  (forall r ps s i j a, r < N -> s < sims -> i < n -> j < n -> (0 <= a)%Qc ->
     nth (s * (n * n) + i * n + j) ps (NaN, NaN) = (Fin a, Fin c) ->
     snd (rng r (o_dist b0)) ps (s * (n * n) + i * n + j) = Fin (V r s i j a)) ->
  let keep := alive n C in
  let T s := resampled_at keep M (E s) root in
  let losses s i := path n keep (factor n keep T s) (T s) i in
  let shape s i j := (abs_ (or_ 0 (step (m_cols m) (losses s i) j)) / c)%Qc in
  sumf 0 N p = 1%Qc ->
  gamma_moments N p sims n c shape (fun r s i j => V r s i j (shape s i j)) ->
  0 < sims ->
  exists (s0 : nat -> Qc) (S : nat -> nat -> Qc),
    map (fun row => snd (fst row)) (o_summary b0) = map (fun i => Fin (s0 i)) (seq 0 n) /\
    (forall r, r < N -> map (fun row => snd (fst row)) (o_summary (b r)) = map (fun i => Fin (S r i)) (seq 0 n)) /\
    snd (fst (o_total b0)) = Fin (sumf 0 n s0) /\
    (forall r, r < N -> snd (fst (o_total (b r))) = Fin (sumf 0 n (S r))) /\
    (forall i, i < n -> average N p (fun r => S r i) = s0 i) /\
    average N p (fun r => sumf 0 n (S r)) = sumf 0 n s0.
Proof.
  intros gm rt root m n C M cl rl ind w sims par rng0 b0 c E N p rng b V R P Hn Ev Hi Hl Cl Rl Rt Ro B0 Sc Cp Rm He0 Hv0 B He Hv keep T losses shape P1 Gm.
  exact (c99_summary gm rt root m n C M cl rl ind w sims par rng0 b0 c E N p rng b V R P Hn Ev Hi Hl Cl Rl Rt Ro B0 Sc Cp Rm He0 Hv0 B He Hv P1 Gm).
Qed.
Print Assumptions C99_summary_unbiased.

(** Three origins, one simulation, residuals 0.  A variate of shape a is (a + 1) c with
    probability a / (a + 1) and 0 otherwise, independently in the three forecast cells:
    eight runs. *)
Definition pc_C (i j : nat) : Qc :=
  match i, j with
  | 0, 0 => qz 100 | 0, 1 => qz 150 | 0, 2 => qz 180
  | 1, 0 => qz 110 | 1, 1 => qz 176
  | _, _ => qz 90
  end.
Definition pc_m : lmat := mkMat [2001; 2002; 2003]%Z [1; 2; 3]%Z
  [[vz 100; vz 150; vz 180]; [vz 110; vz 176; NaN]; [vz 90; NaN; NaN]].
Definition pc_ind : list (list val) := [[vz 1; vz 1]; [vz 1; vz 1]].
Definition pc_bit (i j r : nat) : bool :=
  match i, j with 1, 2 => Nat.testbit r 0 | 2, 1 => Nat.testbit r 1 | _, _ => Nat.testbit r 2 end.
Definition pc_V (c : Qc) (r s i j : nat) (a : Qc) : Qc := if pc_bit i j r then ((a + 1) * c)%Qc else 0%Qc.
Definition pc_rng (r : nat) (l : list val) : (nat -> val) * (list (val * val) -> nat -> val) :=
  (fun _ => Fin 0%Qc, fun ps k => match nth k ps (NaN, NaN) with (Fin a, Fin c) => Fin (pc_V c r 0 (k / 3) (k mod 3) a) | _ => NaN end).
Definition pc_mean (l : list val) : (nat -> val) * (list (val * val) -> nat -> val) :=
  (fun _ => Fin 0%Qc, fun ps k => match nth k ps (NaN, NaN) with (Fin a, Fin c) => Fin (a * c)%Qc | _ => NaN end).
Definition pc_M : nat -> nat -> Qc := incr_of (fitc 3 pc_C (vol_factor 3 pc_C)).
Definition pc_c : Qc := fq (scale_param pc_m (ru pc_m 3 pc_C ex_rt)).
Definition pc_shape (s i j : nat) : Qc :=
  let T s := resampled_at (alive 3 pc_C) pc_M (fun _ _ => 0%Qc) ex_root in
  (abs_ (or_ 0 (step (m_cols pc_m) (path 3 (alive 3 pc_C) (factor 3 (alive 3 pc_C) T s) (T s) i) j)) / pc_c)%Qc.
Definition pc_p (r : nat) : Qc :=
  let q i j := (if pc_bit i j r then pc_shape 0 i j / (pc_shape 0 i j + 1) else 1 / (pc_shape 0 i j + 1))%Qc in
  (q 1%nat 2%nat * q 2%nat 1%nat * q 2%nat 2%nat)%Qc.
Lemma pc_scale : scale_param pc_m (ru pc_m 3 pc_C ex_rt) = Fin pc_c /\ (0 < pc_c)%Qc.
Proof.
  assert (Sp : match scale_param pc_m (ru pc_m 3 pc_C ex_rt) with Fin x => qcltb 0 x | _ => false end = true) by (vm_compute; reflexivity).
  unfold pc_c. destruct (scale_param pc_m (ru pc_m 3 pc_C ex_rt)) as [| | |x]; try discriminate. cbn [fq].
  destruct (qcltb_spec 0 x); [|discriminate]. split; auto.
Qed.
Lemma pc_shape_pos s i j : (pc_shape s i j + 1)%Qc <> 0%Qc.
Proof.
  apply qc_pos_neq. assert (0 <= pc_shape s i j)%Qc.
  { unfold pc_shape. apply qc_div_nonneg; [|apply pc_scale]. 
    generalize (or_ 0 (step (m_cols pc_m) (path 3 (alive 3 pc_C) (factor 3 (alive 3 pc_C) (fun _ => resampled_at (alive 3 pc_C) pc_M (fun _ _ => 0%Qc) ex_root) s)
      (resampled_at (alive 3 pc_C) pc_M (fun _ _ => 0%Qc) ex_root) i) j)).
    intro y. unfold abs_. destruct (qcltb_spec y 0); qlra. }
  qlra.
Qed.
Lemma pc_moments : sumf 0 8 pc_p = 1%Qc /\
  gamma_moments 8 pc_p 1 3 pc_c pc_shape (fun r s i j => pc_V pc_c r s i j (pc_shape s i j)).
Proof.
  assert (A1 := pc_shape_pos 0 1 2). assert (A2 := pc_shape_pos 0 2 1). assert (A3 := pc_shape_pos 0 2 2).
  split.
  { unfold sumf, pc_p. cbn [seq map qsum pc_bit Nat.testbit Nat.odd Nat.even Nat.div2 negb].
    generalize dependent (pc_shape 0 1 2). generalize dependent (pc_shape 0 2 1). generalize dependent (pc_shape 0 2 2).
    intros z Hz y Hy x Hx. field. auto. }
  intros s i j Hs Hi Hj. destruct s; [|lia].
  destruct i as [|[|[|i]]]; [lia| | |lia].
  - assert (j = 2) by lia. subst j. split; [|split; [|intros k Hk D; lia]];
    unfold average, sumf, pc_p, pc_V; cbn [seq map qsum pc_bit Nat.testbit Nat.odd Nat.even Nat.div2 negb];
    generalize dependent (pc_shape 0 1 2); generalize dependent (pc_shape 0 2 1); generalize dependent (pc_shape 0 2 2);
    intros z Hz y Hy x Hx; field; auto.
  - destruct j as [|[|[|j]]]; [lia| | |lia]; (split; [|split; [|intros k Hk D; destruct k as [|[|[|k]]]; [lia|try lia|try lia|lia]]]);
    unfold average, sumf, pc_p, pc_V; cbn [seq map qsum pc_bit Nat.testbit Nat.odd Nat.even Nat.div2 negb];
    generalize dependent (pc_shape 0 1 2); generalize dependent (pc_shape 0 2 1); generalize dependent (pc_shape 0 2 2);
    intros z Hz y Hy x Hx; field; auto.
Qed.
Example C99_nonvacuous : exists (b0 : boot_result) (b : nat -> boot_result),
  regular pc_m 3 pc_C /\ positive 3 pc_C /\ tail_fits (m_cols pc_m) /\
  (forall i j, i + j < 3 - 1 -> cell pc_ind i j = Fin (if true then 1 else 0)%Qc) /\
  clvi pc_m = Ok [2; 1; 0] /\ rlvi pc_m = Ok [2; 1; 0] /\ root_like ex_rt /\
  boot_cl ex_gm ex_rt (mkTri pc_m "origin" "dev" "value") [2; 1; 0] [2; 1; 0] pc_ind 1 false pc_mean = Ok b0 /\
  o_scale b0 = Fin pc_c /\ (0 < pc_c)%Qc /\ regular (o_fit_incr b0) 3 pc_M /\
  (forall r, r < 8 -> boot_cl ex_gm ex_rt (mkTri pc_m "origin" "dev" "value") [2; 1; 0] [2; 1; 0] pc_ind 1 false (pc_rng r) = Ok (b r)) /\
  (forall l ps k a, nth k ps (NaN, NaN) = (Fin a, Fin pc_c) -> snd (pc_mean l) ps k = Fin (a * pc_c)%Qc) /\
  (forall r l ps s i j a, s < 1 -> i < 3 -> j < 3 -> nth (s * (3 * 3) + i * 3 + j) ps (NaN, NaN) = (Fin a, Fin pc_c) ->
     snd (pc_rng r l) ps (s * (3 * 3) + i * 3 + j) = Fin (pc_V pc_c r s i j a)) /\
  sumf 0 8 pc_p = 1%Qc /\
  gamma_moments 8 pc_p 1 3 pc_c pc_shape (fun r s i j => pc_V pc_c r s i j (pc_shape s i j)) /\
  qcltb 0 (pc_shape 0 2 2) = true.
Proof.
  assert (R : regular pc_m 3 pc_C).
  { repeat split; simpl; auto.
    - repeat constructor.
    - repeat constructor.
    - intros row H. repeat (destruct H as [<-|H]; [reflexivity|]). contradiction.
    - intros i j Hi Hj. do 3 (destruct i as [|i]; [do 3 (destruct j as [|j]; [reflexivity|]); lia|]). lia. }
  assert (P : positive 3 pc_C).
  { intros i j H. do 3 (destruct i as [|i]; [do 3 (destruct j as [|j]; [reflexivity|]); lia|]). lia. }
  assert (Ev : tail_fits (m_cols pc_m)).
  { split; [intros j Hj; cbn in Hj; destruct j as [|j]; [cbn; lia|]; lia|exists 0; cbn; lia]. }
  assert (Hi : forall i j, i + j < 3 - 1 -> cell pc_ind i j = Fin (if true then 1 else 0)%Qc).
  { intros i j H. do 2 (destruct i as [|i]; [do 2 (destruct j as [|j]; [reflexivity|]); lia|]). lia. }
  assert (Nd : (List.length (sampling_dist (ra pc_m 3 pc_C ex_rt)) =? 0) = false) by (vm_compute; reflexivity).
  assert (Be := fun rng => boot_eq pc_m 3 pc_C R P ltac:(lia) Ev pc_ind (fun _ _ => true) Hi ltac:(auto) ex_gm ex_rt [2; 1; 0] [2; 1; 0] 1 false rng).
  cbv zeta in Be. rewrite Nd in Be. cbn [negb andb Nat.ltb Nat.leb] in Be.
  eexists. eexists. split; [exact R|]. split; [exact P|]. split; [exact Ev|]. split; [exact Hi|].
  split; [reflexivity|]. split; [reflexivity|]. split; [apply ex_rt_ok|]. split; [apply Be|].
  split; [exact (proj1 pc_scale)|]. split; [exact (proj2 pc_scale)|].
  split; [destruct (regular_rmat pc_m 3 pc_C R) as (_ & So & Sd & Lo & Ld); apply rmat_regular; auto; lia|].
  split; [intros r Hr; rewrite Be; reflexivity|].
  split; [intros l ps k a H; unfold pc_mean; cbn [snd]; rewrite H; reflexivity|].
  split.
  { intros r l ps s i j a Hs H1 H2 H. unfold pc_rng. cbn [snd]. rewrite H. destruct s as [|s]; [|lia].
    do 3 (destruct i as [|i]; [do 3 (destruct j as [|j]; [reflexivity|]); lia|]). lia. }
  split; [exact (proj1 pc_moments)|]. split; [exact (proj2 pc_moments)|]. vm_compute. reflexivity.
Qed.
