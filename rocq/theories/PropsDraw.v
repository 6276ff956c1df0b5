(** C101: the resampling stage of the bootstrap over all its draws.  The vocabulary is
    that of SpecProc.v and SpecDraw.v. *)

From Coq Require Import String QArith Qcanon ZArith List Bool Lia.
From Verif Require Import Val Frame Triangle A2A Base Mack Boot QcLib Spec Spec2 SpecSim SpecAny SpecProc SpecDraw RegFacts BaseClaims BootFit BootClaims ExTri
  PropsBoot BootSim DrawClaims.
Import ListNotations.
Open Scope string_scope.
Open Scope list_scope.
Open Scope nat_scope.

(** [b r], [r] below [N]: runs on one triangle with probabilities [p r], the residuals
    drawn [E r] of mean [mu] and mean square [ms].  [M]: the fitted increments.  [L r]:
    the latest loss of origin [i] in simulation [s] of run [r], for an origin whose latest
    period is reached with factors of at least 1 (the oldest origin: if the first period
    is labelled 1).  On average it is the observed latest loss plus [mu] times the total
    of the roots of the fitted increments; its variance is that of a residual times the
    observed latest loss, if the roots are exact.  [mu] is 0 for parametric draws. *)
Theorem C101_latest_moments_partial :
  forall (gm : list val -> val) (rt : val -> val) (root : Qc -> Qc) (m : lmat) (n : nat) (C M : nat -> nat -> Qc)
         (cl rl : list nat) (ind : list (list val)) (w : nat -> nat -> bool) (sims : nat) (par : bool) (c mu ms : Qc)
         (N : nat) (p : nat -> Qc) (rng : nat -> list val -> (nat -> val) * (list (val * val) -> nat -> val)) (b : nat -> boot_result)
         (E : nat -> nat -> nat -> nat -> Qc) (V : nat -> nat -> nat -> nat -> Qc -> Qc),
  regular m n C -> positive n C -> 2 < n -> tail_fits (m_cols m) ->
  (forall i j, i + j < n - 1 -> cell ind i j = Fin (if w i j then 1 else 0)%Qc) ->
  (forall j, j < n - 1 -> w (n - 2 - j) j = true) ->
  clvi m = Ok cl -> rlvi m = Ok rl -> root_like rt -> (forall q, (0 <= q)%Qc -> rt (Fin q) = Fin (root q)) ->
  (forall r, r < N -> boot_cl gm rt (mkTri m "origin" "dev" "value") cl rl ind sims par (rng r) = Ok (b r)) ->
  (forall r, r < N -> o_scale (b r) = Fin c) -> (0 < c)%Qc -> (forall r, r < N -> regular (o_fit_incr (b r)) n M) ->
  (forall r s i j, r < N -> s < sims -> i < n -> j < n -> fst (rng r (o_dist (b r))) (s * (n * n) + i * n + j) = Fin (E r s i j)) ->
  (forall r ps s i j a, r < N -> s < sims -> i < n -> j < n -> (0 <= a)%Qc ->
     nth (s * (n * n) + i * n + j) ps (NaN, NaN) = (Fin a, Fin c) ->
     snd (rng r (o_dist (b r))) ps (s * (n * n) + i * n + j) = Fin (V r s i j a)) ->
  sumf 0 N p = 1%Qc -> draw_moments N p sims n mu ms E ->
  forall s i, s < sims -> i < n -> (i = 0 -> nth 0 (m_cols m) 0%Z = 1%Z) ->
  (forall k, k < n - 1 - i -> (1 <= vol_factor n C k)%Qc) ->
  let o := nth i (m_idx m) 0%Z in
  let rho := sumf 0 (n - i) (fun j => root (M i j)) in
  exists L : nat -> Qc,
    (forall r, r < N -> map v_latest (filter (fun x => (v_sim x =? s) && (v_o x =? o)%Z) (o_reserves (b r))) = [Fin (L r)]) /\
    average N p L = (C i (n - 1 - i)%nat + mu * rho)%Qc /\ (0 < rho)%Qc /\
    ((forall j, i + j < n -> (root (M i j) * root (M i j) = M i j)%Qc) ->
       average N p (fun r => (L r - average N p L) * (L r - average N p L))%Qc = ((ms - mu * mu) * C i (n - 1 - i)%nat)%Qc).
Proof. exact c101. Qed.
Print Assumptions C101_latest_moments_partial.

(** Residuals drawn from the list [l] that boot_cl resamples, each with the same
    probability: the simulated latest losses are right on average exactly if the
    residuals add up to 0; otherwise all are too high, or all too low. *)
Theorem C101_unbiased_iff :
  forall (gm : list val -> val) (rt : val -> val) (root : Qc -> Qc) (m : lmat) (n : nat) (C M : nat -> nat -> Qc)
         (cl rl : list nat) (ind : list (list val)) (w : nat -> nat -> bool) (sims : nat) (c : Qc) (l : list Qc)
         (N : nat) (p : nat -> Qc) (rng : nat -> list val -> (nat -> val) * (list (val * val) -> nat -> val)) (b : nat -> boot_result)
         (E : nat -> nat -> nat -> nat -> Qc) (V : nat -> nat -> nat -> nat -> Qc -> Qc),
  regular m n C -> positive n C -> 2 < n -> tail_fits (m_cols m) ->
  (forall i j, i + j < n - 1 -> cell ind i j = Fin (if w i j then 1 else 0)%Qc) ->
  (forall j, j < n - 1 -> w (n - 2 - j) j = true) ->
  clvi m = Ok cl -> rlvi m = Ok rl -> root_like rt -> (forall q, (0 <= q)%Qc -> rt (Fin q) = Fin (root q)) ->
  (forall r, r < N -> boot_cl gm rt (mkTri m "origin" "dev" "value") cl rl ind sims false (rng r) = Ok (b r)) ->
  (forall r, r < N -> o_scale (b r) = Fin c) -> (0 < c)%Qc -> (forall r, r < N -> regular (o_fit_incr (b r)) n M) ->
  (forall r, r < N -> o_dist (b r) = map Fin l) -> l <> [] ->
  (forall r s i j, r < N -> s < sims -> i < n -> j < n -> fst (rng r (o_dist (b r))) (s * (n * n) + i * n + j) = Fin (E r s i j)) ->
  (forall r ps s i j a, r < N -> s < sims -> i < n -> j < n -> (0 <= a)%Qc ->
     nth (s * (n * n) + i * n + j) ps (NaN, NaN) = (Fin a, Fin c) ->
     snd (rng r (o_dist (b r))) ps (s * (n * n) + i * n + j) = Fin (V r s i j a)) ->
  sumf 0 N p = 1%Qc -> draw_moments N p sims n (mean_of l) (mean_of (map (fun x => x * x)%Qc l)) E ->
  forall s i, s < sims -> i < n -> (i = 0 -> nth 0 (m_cols m) 0%Z = 1%Z) ->
  (forall k, k < n - 1 - i -> (1 <= vol_factor n C k)%Qc) ->
  let o := nth i (m_idx m) 0%Z in
  let latest := C i (n - 1 - i) in
  exists L : nat -> Qc,
    (forall r, r < N -> map v_latest (filter (fun x => (v_sim x =? s) && (v_o x =? o)%Z) (o_reserves (b r))) = [Fin (L r)]) /\
    (average N p L = latest <-> qsum l = 0%Qc) /\
    ((latest < average N p L)%Qc <-> (0 < qsum l)%Qc) /\
    ((average N p L < latest)%Qc <-> (qsum l < 0)%Qc).
Proof.
  intros gm rt root m n C M cl rl ind w sims c l N p rng b E V R P Hn Ev Hi Hl Cl Rl Rt Ro B Sc Cp Rm Hd Nl He Hv P1 Dm s i Hs L D1 F1 o latest.
  destruct (c101 gm rt root m n C M cl rl ind w sims false c _ _ N p rng b E V R P Hn Ev Hi Hl Cl Rl Rt Ro B Sc Cp Rm He Hv P1 Dm s i Hs L D1 F1)
    as (La & H1 & H2 & H3 & _).
  exists La. split; [exact H1|]. rewrite H2. fold latest.
  exact (bias_sign latest l _ H3 Nl).
Qed.
Print Assumptions C101_unbiased_iff.

(** How large the residuals are: with [k] the factor that adjusts them (the root of
    cells / degrees of freedom), their squares add up to [k]^2 * dof * scale, which would
    be cells * scale with an exact root.  As zeros are left out of [l], the mean square is
    larger than the scale. *)
Theorem C101_squares :
  forall (gm : list val -> val) (rt : val -> val) (m : lmat) (n : nat) (C : nat -> nat -> Qc)
         (cl rl : list nat) (ind : list (list val)) (w : nat -> nat -> bool) (sims : nat) (par : bool)
         (rng : list val -> (nat -> val) * (list (val * val) -> nat -> val)) (b : boot_result) (c k : Qc)
         (X : nat -> nat -> Qc) (l : list Qc),
  regular m n C -> positive n C -> 2 < n -> tail_fits (m_cols m) ->
  (forall i j, i + j < n - 1 -> cell ind i j = Fin (if w i j then 1 else 0)%Qc) ->
  (forall j, j < n - 1 -> w (n - 2 - j) j = true) -> root_like rt ->
  boot_cl gm rt (mkTri m "origin" "dev" "value") cl rl ind sims par rng = Ok b ->
  (forall i j, i + j < n -> cell (m_cells (o_resid_us b)) i j = Fin (X i j) \/
                            (cell (m_cells (o_resid_us b)) i j = NaN /\ X i j = 0%Qc)) ->
  o_scale b = Fin c ->
  rt (vdiv (vz (Z.of_nat (n * (n + 1) / 2))) (vz (o_dof b))) = Fin k ->
  o_dist b = map Fin l ->
  qsum (map (fun x => x * x)%Qc l) = (k * k * qz (o_dof b) * c)%Qc.
Proof. exact c101_square. Qed.
Print Assumptions C101_squares.

(** Three origins, fitted increments 144, 36, 36; 256, 64; 400, all with exact roots.
    Four residuals other than 0, with total below 0.  Sixteen equally likely runs: the
    draws of the first two periods are independent, that of the third is their sum
    modulo 4, so that any two are independent. *)
Definition dr_C (i j : nat) : Qc :=
  match i, j with
  | 0, 0 => qz 150 | 0, 1 => qz 180 | 0, 2 => qz 216
  | 1, 0 => qz 250 | 1, 1 => qz 320
  | _, _ => qz 400
  end.
Definition dr_m : lmat := mkMat [2001; 2002; 2003]%Z [1; 2; 3]%Z
  [[vz 150; vz 180; vz 216]; [vz 250; vz 320; NaN]; [vz 400; NaN; NaN]].
Definition dr_ind : list (list val) := [[vz 1; vz 1]; [vz 1; vz 1]].
Definition dr_root (q : Qc) : Qc :=
  if qceqb q 0 then 0%Qc else if qceqb q (qz 144) then qz 12 else if qceqb q (qz 36) then qz 6 else if qceqb q (qz 256) then qz 16
  else if qceqb q (qz 64) then qz 8 else if qceqb q (qz 400) then qz 20 else ((1 + q) / qz 2)%Qc.
Definition dr_rt (v : val) : val :=
  match v with Fin q => if qcltb q 0 then NaN else Fin (dr_root q) | PInf => PInf | _ => NaN end.
Lemma dr_rt_ok : root_like dr_rt.
Proof.
  split; [reflexivity|]. split; [vm_compute; reflexivity|]. split.
  - intros q Q. exists (dr_root q). split.
    + unfold dr_root. destruct (qceqb_spec q 0) as [->|_]; [discriminate|]. do 5 (destruct (qceqb q _); [reflexivity|]).
      apply qc_div_pos; [qlra|reflexivity].
    + unfold dr_rt. destruct (qcltb_spec q 0) as [A|A]; [exfalso; qlra|reflexivity].
  - intros q Q. unfold dr_rt. destruct (qcltb_spec q 0) as [A|A]; [reflexivity|contradiction].
Qed.
Lemma dr_root_ok q : (0 <= q)%Qc -> dr_rt (Fin q) = Fin (dr_root q).
Proof. intro Q. unfold dr_rt. destruct (qcltb_spec q 0) as [A|A]; [exfalso; qlra|reflexivity]. Qed.
Definition dr_l : list Qc := map fq (sampling_dist (ra dr_m 3 dr_C dr_rt)).
Definition dr_E (r s i j : nat) : Qc :=
  nth (match j with 0 => r / 4 | 1 => r mod 4 | _ => (r / 4 + r mod 4) mod 4 end) dr_l 0%Qc.
Definition dr_rng (r : nat) (l : list val) : (nat -> val) * (list (val * val) -> nat -> val) :=
  (fun k => Fin (dr_E r 0 (k / 3) (k mod 3)), snd (mean_rng l)).
Definition dr_M : nat -> nat -> Qc := incr_of (fitc 3 dr_C (vol_factor 3 dr_C)).
Definition dr_c : Qc := fq (scale_param dr_m (ru dr_m 3 dr_C dr_rt)).
Definition dr_p (r : nat) : Qc := Q2Qc (1 # 16).
Lemma dr_moments : sumf 0 16 dr_p = 1%Qc /\ draw_moments 16 dr_p 1 3 (mean_of dr_l) (mean_of (map (fun x => x * x)%Qc dr_l)) dr_E.
Proof.
  split; [apply Qc_is_canon; vm_compute; reflexivity|].
  assert (L4 : List.length dr_l = 4) by (vm_compute; reflexivity).
  unfold draw_moments, dr_E, mean_of. destruct dr_l as [|x0 [|x1 [|x2 [|x3 [|x4 t]]]]]; try discriminate.
  assert (Q16 : Q2Qc (1 # 16) = (1 / qz 16)%Qc) by (apply Qc_is_canon; vm_compute; reflexivity).
  assert (N4 : qz 4 <> 0%Qc) by discriminate. assert (N16 : qz 16 = (qz 4 * qz 4)%Qc) by (apply Qc_is_canon; vm_compute; reflexivity).
  assert (S4 : qz 4 = (1 + 1 + 1 + 1)%Qc) by (apply Qc_is_canon; vm_compute; reflexivity).
  intros s i j Hs Hj. unfold average, dr_p. rewrite Q16, N16. change (qz (Z.of_nat (List.length (map (fun x => (x * x)%Qc) [x0; x1; x2; x3])))) with (qz 4).
  change (qz (Z.of_nat (List.length [x0; x1; x2; x3]))) with (qz 4). rewrite S4 in N4. rewrite S4. clear N16 Q16 S4 L4.
  split; [|split; [|intros k Hk D]].
  - destruct j as [|[|[|j]]]; [| | |lia]; unfold sumf;
    cbn [seq map qsum nth Nat.div Nat.modulo Nat.divmod Nat.sub Nat.add fst snd]; field; repeat split; try exact N4; discriminate.
  - destruct j as [|[|[|j]]]; [| | |lia]; unfold sumf;
    cbn [seq map qsum nth Nat.div Nat.modulo Nat.divmod Nat.sub Nat.add fst snd]; field; repeat split; try exact N4; discriminate.
  - destruct j as [|[|[|j]]]; [| | |lia]; (destruct k as [|[|[|k]]]; [| | |lia]); try lia; unfold sumf;
    cbn [seq map qsum nth Nat.div Nat.modulo Nat.divmod Nat.sub Nat.add fst snd]; field; repeat split; try exact N4; discriminate.
Qed.
Lemma dr_dist : sampling_dist (ra dr_m 3 dr_C dr_rt) = map Fin dr_l /\ dr_l <> [] /\ (qsum dr_l < 0)%Qc.
Proof. split; [vm_compute; reflexivity|split; [vm_compute; discriminate|vm_compute; reflexivity]]. Qed.
Lemma dr_scale : scale_param dr_m (ru dr_m 3 dr_C dr_rt) = Fin dr_c /\ (0 < dr_c)%Qc.
Proof. split; vm_compute; reflexivity. Qed.
Example C101_nonvacuous : exists (b : nat -> boot_result),
  regular dr_m 3 dr_C /\ positive 3 dr_C /\ tail_fits (m_cols dr_m) /\
  (forall i j, i + j < 3 - 1 -> cell dr_ind i j = Fin (if true then 1 else 0)%Qc) /\
  clvi dr_m = Ok [2; 1; 0] /\ rlvi dr_m = Ok [2; 1; 0] /\ root_like dr_rt /\ (forall q, (0 <= q)%Qc -> dr_rt (Fin q) = Fin (dr_root q)) /\
  (forall r, r < 16 -> boot_cl ex_gm dr_rt (mkTri dr_m "origin" "dev" "value") [2; 1; 0] [2; 1; 0] dr_ind 1 false (dr_rng r) = Ok (b r)) /\
  (forall r, r < 16 -> o_scale (b r) = Fin dr_c) /\ (0 < dr_c)%Qc /\ (forall r, r < 16 -> regular (o_fit_incr (b r)) 3 dr_M) /\
  (forall r, r < 16 -> o_dist (b r) = map Fin dr_l) /\ dr_l <> [] /\
  (forall r s i j, r < 16 -> s < 1 -> i < 3 -> j < 3 -> fst (dr_rng r (o_dist (b r))) (s * (3 * 3) + i * 3 + j) = Fin (dr_E r s i j)) /\
  (forall r ps s i j a, r < 16 -> s < 1 -> i < 3 -> j < 3 -> (0 <= a)%Qc ->
     nth (s * (3 * 3) + i * 3 + j) ps (NaN, NaN) = (Fin a, Fin dr_c) ->
     snd (dr_rng r (o_dist (b r))) ps (s * (3 * 3) + i * 3 + j) = Fin (a * dr_c)%Qc) /\
  sumf 0 16 dr_p = 1%Qc /\ draw_moments 16 dr_p 1 3 (mean_of dr_l) (mean_of (map (fun x => x * x)%Qc dr_l)) dr_E /\
  (forall k, k < 2 -> (1 <= vol_factor 3 dr_C k)%Qc) /\ (forall i j, i + j < 3 -> (dr_root (dr_M i j) * dr_root (dr_M i j) = dr_M i j)%Qc) /\
  (qsum dr_l < 0)%Qc.
Proof.
  assert (R : regular dr_m 3 dr_C).
  { repeat split; simpl; auto.
    - repeat constructor.
    - repeat constructor.
    - intros row H. repeat (destruct H as [<-|H]; [reflexivity|]). contradiction.
    - intros i j Hi Hj. do 3 (destruct i as [|i]; [do 3 (destruct j as [|j]; [reflexivity|]); lia|]). lia. }
  assert (P : positive 3 dr_C).
  { intros i j H. do 3 (destruct i as [|i]; [do 3 (destruct j as [|j]; [reflexivity|]); lia|]). lia. }
  assert (Ev : tail_fits (m_cols dr_m)).
  { split; [intros j Hj; cbn in Hj; destruct j as [|j]; [cbn; lia|]; lia|exists 0; cbn; lia]. }
  assert (Hi : forall i j, i + j < 3 - 1 -> cell dr_ind i j = Fin (if true then 1 else 0)%Qc).
  { intros i j H. do 2 (destruct i as [|i]; [do 2 (destruct j as [|j]; [reflexivity|]); lia|]). lia. }
  assert (Nd : (List.length (sampling_dist (ra dr_m 3 dr_C dr_rt)) =? 0) = false) by (vm_compute; reflexivity).
  assert (Be := fun rng => boot_eq dr_m 3 dr_C R P ltac:(lia) Ev dr_ind (fun _ _ => true) Hi ltac:(auto) ex_gm dr_rt [2; 1; 0] [2; 1; 0] 1 false rng).
  cbv zeta in Be. rewrite Nd in Be. cbn [negb andb Nat.ltb Nat.leb] in Be.
  eexists. split; [exact R|]. split; [exact P|]. split; [exact Ev|]. split; [exact Hi|].
  split; [reflexivity|]. split; [reflexivity|]. split; [apply dr_rt_ok|]. split; [exact dr_root_ok|].
  split; [intros r Hr; rewrite Be; reflexivity|].
  split; [intros r Hr; exact (proj1 dr_scale)|]. split; [exact (proj2 dr_scale)|].
  split; [intros r Hr; destruct (regular_rmat dr_m 3 dr_C R) as (_ & So & Sd & Lo & Ld); apply rmat_regular; auto; lia|].
  split; [intros r Hr; exact (proj1 dr_dist)|]. split; [exact (proj1 (proj2 dr_dist))|].
  split.
  { intros r s i j Hr Hs H1 H2. unfold dr_rng. cbn [fst]. destruct s as [|s]; [|lia].
    do 3 (destruct i as [|i]; [do 3 (destruct j as [|j]; [reflexivity|]); lia|]). lia. }
  split.
  { intros r ps s i j a Hr Hs H1 H2 Ha H. unfold dr_rng, mean_rng. cbn [snd]. rewrite H. reflexivity. }
  split; [exact (proj1 dr_moments)|]. split; [exact (proj2 dr_moments)|].
  split; [intros k Hk; do 2 (destruct k as [|k]; [vm_compute; discriminate|]); lia|].
  split; [|exact (proj2 (proj2 dr_dist))].
  intros i j H. apply Qc_is_canon. do 3 (destruct i as [|i]; [do 3 (destruct j as [|j]; [vm_compute; reflexivity|]); lia|]). lia.
Qed.

(** So, in these runs, the simulated latest loss of the youngest origin is below 400, the
    observed one, on average: resampling is biased. *)
Theorem C101_unbiased_refuted : exists (b : nat -> boot_result) (L : nat -> Qc),
  (forall r, r < 16 -> boot_cl ex_gm dr_rt (mkTri dr_m "origin" "dev" "value") [2; 1; 0] [2; 1; 0] dr_ind 1 false (dr_rng r) = Ok (b r)) /\
  (forall r, r < 16 -> o_dist (b r) = map Fin dr_l) /\
  draw_moments 16 (fun _ => Q2Qc (1 # 16)) 1 3 (mean_of dr_l) (mean_of (map (fun x => x * x)%Qc dr_l)) dr_E /\
  (forall r s i j, r < 16 -> s < 1 -> i < 3 -> j < 3 -> fst (dr_rng r (o_dist (b r))) (s * (3 * 3) + i * 3 + j) = Fin (dr_E r s i j)) /\
  (forall r, r < 16 -> map v_latest (filter (fun x => (v_sim x =? 0) && (v_o x =? 2003)%Z) (o_reserves (b r))) = [Fin (L r)]) /\
  (average 16 (fun _ => Q2Qc (1 # 16)) L < qz 400)%Qc.
Proof.
  destruct C101_nonvacuous as (b & R & P & Ev & Hi & Cl & Rl & Rt & Ro & B & Sc & Cp & Rm & Hd & Nl & He & Hv & P1 & Dm & F1 & _ & Sg).
  destruct (C101_unbiased_iff ex_gm dr_rt dr_root dr_m 3 dr_C dr_M [2; 1; 0] [2; 1; 0] dr_ind (fun _ _ => true) 1 dr_c dr_l 16 dr_p dr_rng b dr_E
    (fun _ _ _ _ a => (a * dr_c)%Qc) R P ltac:(lia) Ev Hi ltac:(auto) Cl Rl Rt Ro B Sc Cp Rm Hd Nl He Hv P1 Dm 0 2 ltac:(lia) ltac:(lia) ltac:(discriminate)
    ltac:(intros; lia)) as (L & H1 & _ & _ & H2).
  exists b, L. split; [exact B|]. split; [exact Hd|]. split; [exact Dm|]. split; [exact He|]. split; [exact H1|].
  exact (proj2 H2 Sg).
Qed.
Print Assumptions C101_unbiased_refuted.

(** The hypotheses of C101_squares: the same triangle, four residuals for six cells. *)
Definition dr_X (i j : nat) : Qc := fq (cell (m_cells (ru dr_m 3 dr_C dr_rt)) i j).
Definition dr_k : Qc := fq (dr_rt (vdiv (vz (Z.of_nat (3 * (3 + 1) / 2))) (vz (dof dr_m)))).
Lemma dr_X_ok : forall i j, i + j < 3 -> cell (m_cells (ru dr_m 3 dr_C dr_rt)) i j = Fin (dr_X i j) \/
  (cell (m_cells (ru dr_m 3 dr_C dr_rt)) i j = NaN /\ dr_X i j = 0%Qc).
Proof. intros i j H. do 3 (destruct i as [|i]; [do 3 (destruct j as [|j]; [first [exfalso; lia|left; vm_compute; reflexivity]|]); lia|]). lia. Qed.
Lemma dr_k_ok : dr_rt (vdiv (vz (Z.of_nat (3 * (3 + 1) / 2))) (vz (dof dr_m))) = Fin dr_k /\ (0 < dr_k)%Qc /\ List.length dr_l = 4.
Proof. split; [vm_compute; reflexivity|split; vm_compute; reflexivity]. Qed.
Example C101_squares_nonvacuous : exists b : boot_result,
  boot_cl ex_gm dr_rt (mkTri dr_m "origin" "dev" "value") [2; 1; 0] [2; 1; 0] dr_ind 1 false (dr_rng 0) = Ok b /\
  (forall i j, i + j < 3 -> cell (m_cells (o_resid_us b)) i j = Fin (dr_X i j) \/
                            (cell (m_cells (o_resid_us b)) i j = NaN /\ dr_X i j = 0%Qc)) /\
  o_scale b = Fin dr_c /\ dr_rt (vdiv (vz (Z.of_nat (3 * (3 + 1) / 2))) (vz (o_dof b))) = Fin dr_k /\ (0 < dr_k)%Qc /\
  o_dist b = map Fin dr_l /\ List.length dr_l = 4.
Proof.
  destruct C101_nonvacuous as (_ & R & P & Ev & Hi & _).
  assert (Nd : (List.length (sampling_dist (ra dr_m 3 dr_C dr_rt)) =? 0) = false) by (vm_compute; reflexivity).
  assert (Be := fun rng => boot_eq dr_m 3 dr_C R P ltac:(lia) Ev dr_ind (fun _ _ => true) Hi ltac:(auto) ex_gm dr_rt [2; 1; 0] [2; 1; 0] 1 false rng).
  cbv zeta in Be. rewrite Nd in Be. cbn [negb andb Nat.ltb Nat.leb] in Be.
  eexists. split; [apply Be|]. split; [exact dr_X_ok|]. split; [exact (proj1 dr_scale)|]. split; [exact (proj1 dr_k_ok)|].
  split; [exact (proj1 (proj2 dr_k_ok))|]. split; [exact (proj1 dr_dist)|exact (proj2 (proj2 dr_k_ok))].
Qed.
