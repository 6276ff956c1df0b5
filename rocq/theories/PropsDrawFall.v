(** C101: latest losses reached over factors below 1. *)

From Coq Require Import String QArith Qcanon ZArith List Bool Lia.
From Verif Require Import Val Frame Triangle A2A Base Mack Boot QcLib Spec Spec2 SpecSim SpecAny SpecProc SpecDraw RegFacts BaseClaims BootFit BootClaims ExTri
  PropsBoot BootSim PropsDraw DrawFall.
Import ListNotations.
Open Scope string_scope.
Open Scope list_scope.
Open Scope nat_scope.

(** Any factors, every origin but the oldest whose latest period has resampled losses
    ([alive]: it is the first one, or is reached with a factor of at least 1).  The fitted
    increments of periods reached with a factor below 1 are negative and are left out: the
    simulated latest loss is on average too large by their total [lost], besides the bias
    of the residuals. *)
Theorem C101_falling_losses :
  forall (gm : list val -> val) (rt : val -> val) (root : Qc -> Qc) (m : lmat) (n : nat) (C M : nat -> nat -> Qc)
         (cl rl : list nat) (ind : list (list val)) (w : nat -> nat -> bool) (sims : nat) (par : bool) (c mu ms : Qc)
         (N : nat) (p : nat -> Qc) (rng : nat -> list val -> (nat -> val) * (list (val * val) -> nat -> val)) (b : nat -> boot_result)
         (E : nat -> nat -> nat -> nat -> Qc) (V : nat -> nat -> nat -> nat -> Qc -> Qc),
  regular m n C -> positive n C -> 2 < n -> tail_fits (m_cols m) ->
  (forall i j, i + j < n - 1 -> cell ind i j = Fin (if w i j then 1 else 0)%Qc) ->
  (forall j, j < n - 1 -> w (n - 2 - j) j = true) ->
  clvi m = Ok cl -> rlvi m = Ok rl -> root_like rt -> (forall q, (0 <= q)%Qc -> rt (Fin q) = Fin (root q)) ->
  (forall r, r < N -> boot_cl gm rt (mkTri m "origin" "dev" "value") cl rl ind sims par (rng r) = Ok (b r)) ->
  (forall r, r < N -> o_scale (b r) = Fin c) -> (0 < c)%Qc -> (forall r, r < N -> regular (o_fit_incr (b r)) n M) ->
  (forall r s i j, r < N -> s < sims -> i < n -> j < n -> fst (rng r (o_dist (b r))) (s * (n * n) + i * n + j) = Fin (E r s i j)) ->
  (forall r ps s i j a, r < N -> s < sims -> i < n -> j < n -> (0 <= a)%Qc ->
     nth (s * (n * n) + i * n + j) ps (NaN, NaN) = (Fin a, Fin c) ->
     snd (rng r (o_dist (b r))) ps (s * (n * n) + i * n + j) = Fin (V r s i j a)) ->
  sumf 0 N p = 1%Qc -> draw_moments N p sims n mu ms E ->
  forall s i, s < sims -> 0 < i < n -> alive n C (n - 1 - i) = true ->
  let o := nth i (m_idx m) 0%Z in
  let rho := sumf 0 (n - i) (fun j => if alive n C j then root (M i j) else 0%Qc) in
  let lost := sumf 0 (n - i) (fun j => if alive n C j then 0 else - M i j)%Qc in
  exists L : nat -> Qc,
    (forall r, r < N -> map v_latest (filter (fun x => (v_sim x =? s) && (v_o x =? o)%Z) (o_reserves (b r))) = [Fin (L r)]) /\
    average N p L = (C i (n - 1 - i)%nat + lost + mu * rho)%Qc /\ (0 <= lost)%Qc /\
    ((exists k, k < n - 1 - i /\ (vol_factor n C k < 1)%Qc) -> (0 < lost)%Qc).
Proof. exact c101_fall. Qed.
Print Assumptions C101_falling_losses.

(** So draws of mean 0, such as the parametric ones, do not give the observed latest loss
    on average: with a factor below 1 on the way to it, it is overstated. *)
Theorem C101_overstated_refuted :
  forall (gm : list val -> val) (rt : val -> val) (root : Qc -> Qc) (m : lmat) (n : nat) (C M : nat -> nat -> Qc)
         (cl rl : list nat) (ind : list (list val)) (w : nat -> nat -> bool) (sims : nat) (par : bool) (c ms : Qc)
         (N : nat) (p : nat -> Qc) (rng : nat -> list val -> (nat -> val) * (list (val * val) -> nat -> val)) (b : nat -> boot_result)
         (E : nat -> nat -> nat -> nat -> Qc) (V : nat -> nat -> nat -> nat -> Qc -> Qc),
  regular m n C -> positive n C -> 2 < n -> tail_fits (m_cols m) ->
  (forall i j, i + j < n - 1 -> cell ind i j = Fin (if w i j then 1 else 0)%Qc) ->
  (forall j, j < n - 1 -> w (n - 2 - j) j = true) ->
  clvi m = Ok cl -> rlvi m = Ok rl -> root_like rt -> (forall q, (0 <= q)%Qc -> rt (Fin q) = Fin (root q)) ->
  (forall r, r < N -> boot_cl gm rt (mkTri m "origin" "dev" "value") cl rl ind sims par (rng r) = Ok (b r)) ->
  (forall r, r < N -> o_scale (b r) = Fin c) -> (0 < c)%Qc -> (forall r, r < N -> regular (o_fit_incr (b r)) n M) ->
  (forall r s i j, r < N -> s < sims -> i < n -> j < n -> fst (rng r (o_dist (b r))) (s * (n * n) + i * n + j) = Fin (E r s i j)) ->
  (forall r ps s i j a, r < N -> s < sims -> i < n -> j < n -> (0 <= a)%Qc ->
     nth (s * (n * n) + i * n + j) ps (NaN, NaN) = (Fin a, Fin c) ->
     snd (rng r (o_dist (b r))) ps (s * (n * n) + i * n + j) = Fin (V r s i j a)) ->
  sumf 0 N p = 1%Qc -> draw_moments N p sims n 0%Qc ms E ->
  forall s i k, s < sims -> 0 < i < n -> alive n C (n - 1 - i) = true -> k < n - 1 - i -> (vol_factor n C k < 1)%Qc ->
  let o := nth i (m_idx m) 0%Z in
  exists L : nat -> Qc,
    (forall r, r < N -> map v_latest (filter (fun x => (v_sim x =? s) && (v_o x =? o)%Z) (o_reserves (b r))) = [Fin (L r)]) /\
    (C i (n - 1 - i)%nat < average N p L)%Qc.
Proof.
  intros gm rt root m n C M cl rl ind w sims par c ms N p rng b E V R P Hn Ev Hi Hl Cl Rl Rt Ro B Sc Cp Rm He Hv P1 Dm s i k Hs L K Hk Fk o.
  destruct (c101_fall gm rt root m n C M cl rl ind w sims par c 0%Qc ms N p rng b E V R P Hn Ev Hi Hl Cl Rl Rt Ro B Sc Cp Rm He Hv P1 Dm s i Hs L K)
    as (La & H1 & H2 & _ & H3).
  exists La. split; [exact H1|]. specialize (H3 (ex_intro _ k (conj Hk Fk))). rewrite H2.
  rewrite Qcmult_0_l, Qcplus_0_r. qlra.
Qed.
Print Assumptions C101_overstated_refuted.

(** Four origins, first factor 295/330.  Eight equally likely parametric runs: the draws
    of the first three periods are independent signs, that of the fourth is the product
    of the first two. *)
Definition fl_C (i j : nat) : Qc := qz (nth j (nth i [[100; 90; 99; 110]; [110; 95; 104; 0]; [120; 110; 0; 0]; [130; 0; 0; 0]]%Z []) 0%Z).
Definition fl_m : lmat := mkMat [2001; 2002; 2003; 2004]%Z [1; 2; 3; 4]%Z
  [[vz 100; vz 90; vz 99; vz 110]; [vz 110; vz 95; vz 104; NaN]; [vz 120; vz 110; NaN; NaN]; [vz 130; NaN; NaN; NaN]].
Definition fl_ind : list (list val) := [[vz 1; vz 1; vz 1]; [vz 1; vz 1; vz 1]; [vz 1; vz 1; vz 1]].
Definition fl_M : nat -> nat -> Qc := incr_of (fitc 4 fl_C (vol_factor 4 fl_C)).
Definition fl_c : Qc := fq (scale_param fl_m (ru fl_m 4 fl_C dr_rt)).
Definition fl_E (r s i j : nat) : Qc :=
  let sg k := if Nat.testbit r k then 1%Qc else (- (1))%Qc in
  match j with 0 => sg 0 | 1 => sg 1 | 2 => sg 2 | _ => (sg 0%nat * sg 1%nat)%Qc end.
Definition fl_rng (r : nat) (l : list val) : (nat -> val) * (list (val * val) -> nat -> val) :=
  (fun k => Fin (fl_E r 0 (k / 4) (k mod 4)), snd (mean_rng l)).
Definition fl_p (r : nat) : Qc := Q2Qc (1 # 8).
Lemma fl_moments : sumf 0 8 fl_p = 1%Qc /\ draw_moments 8 fl_p 1 4 0%Qc 1%Qc fl_E.
Proof.
  split; [apply Qc_is_canon; vm_compute; reflexivity|].
  intros s i j Hs Hj. split; [|split; [|intros k Hk D]].
  - apply Qc_is_canon. do 4 (destruct j as [|j]; [vm_compute; reflexivity|]). lia.
  - apply Qc_is_canon. do 4 (destruct j as [|j]; [vm_compute; reflexivity|]). lia.
  - apply Qc_is_canon. do 4 (destruct j as [|j]; [do 4 (destruct k as [|k]; [first [exfalso; lia|vm_compute; reflexivity]|]); lia|]). lia.
Qed.
Lemma fl_scale : scale_param fl_m (ru fl_m 4 fl_C dr_rt) = Fin fl_c /\ (0 < fl_c)%Qc.
Proof. split; vm_compute; reflexivity. Qed.
Example C101_falling_nonvacuous : exists (b : nat -> boot_result),
  regular fl_m 4 fl_C /\ positive 4 fl_C /\ tail_fits (m_cols fl_m) /\
  (forall i j, i + j < 4 - 1 -> cell fl_ind i j = Fin (if true then 1 else 0)%Qc) /\
  clvi fl_m = Ok [3; 2; 1; 0] /\ rlvi fl_m = Ok [3; 2; 1; 0] /\ root_like dr_rt /\ (forall q, (0 <= q)%Qc -> dr_rt (Fin q) = Fin (dr_root q)) /\
  (forall r, r < 8 -> boot_cl ex_gm dr_rt (mkTri fl_m "origin" "dev" "value") [3; 2; 1; 0] [3; 2; 1; 0] fl_ind 1 true (fl_rng r) = Ok (b r)) /\
  (forall r, r < 8 -> o_scale (b r) = Fin fl_c) /\ (0 < fl_c)%Qc /\ (forall r, r < 8 -> regular (o_fit_incr (b r)) 4 fl_M) /\
  (forall r s i j, r < 8 -> s < 1 -> i < 4 -> j < 4 -> fst (fl_rng r (o_dist (b r))) (s * (4 * 4) + i * 4 + j) = Fin (fl_E r s i j)) /\
  (forall r ps s i j a, r < 8 -> s < 1 -> i < 4 -> j < 4 -> (0 <= a)%Qc ->
     nth (s * (4 * 4) + i * 4 + j) ps (NaN, NaN) = (Fin a, Fin fl_c) ->
     snd (fl_rng r (o_dist (b r))) ps (s * (4 * 4) + i * 4 + j) = Fin (a * fl_c)%Qc) /\
  sumf 0 8 fl_p = 1%Qc /\ draw_moments 8 fl_p 1 4 0%Qc 1%Qc fl_E /\
  alive 4 fl_C (4 - 1 - 1) = true /\ (vol_factor 4 fl_C 0 < 1)%Qc.
Proof.
  assert (R : regular fl_m 4 fl_C).
  { repeat split; simpl; auto.
    - repeat constructor.
    - repeat constructor.
    - intros row H. repeat (destruct H as [<-|H]; [reflexivity|]). contradiction.
    - intros i j Hi Hj. do 4 (destruct i as [|i]; [do 4 (destruct j as [|j]; [reflexivity|]); lia|]). lia. }
  assert (P : positive 4 fl_C).
  { intros i j H. do 4 (destruct i as [|i]; [do 4 (destruct j as [|j]; [first [exfalso; lia|reflexivity]|]); lia|]). lia. }
  assert (Ev : tail_fits (m_cols fl_m)).
  { split; [intros j Hj; cbn in Hj; do 2 (destruct j as [|j]; [cbn; lia|]); lia|exists 0; cbn; lia]. }
  assert (Hi : forall i j, i + j < 4 - 1 -> cell fl_ind i j = Fin (if true then 1 else 0)%Qc).
  { intros i j H. do 3 (destruct i as [|i]; [do 3 (destruct j as [|j]; [reflexivity|]); lia|]). lia. }
  assert (Be := fun rng => boot_eq fl_m 4 fl_C R P ltac:(lia) Ev fl_ind (fun _ _ => true) Hi ltac:(auto) ex_gm dr_rt [3; 2; 1; 0] [3; 2; 1; 0] 1 true rng).
  cbv zeta in Be. cbn [negb andb] in Be.
  eexists. split; [exact R|]. split; [exact P|]. split; [exact Ev|]. split; [exact Hi|].
  split; [reflexivity|]. split; [reflexivity|]. split; [apply dr_rt_ok|]. split; [exact dr_root_ok|].
  split; [intros r Hr; rewrite Be; reflexivity|].
  split; [intros r Hr; exact (proj1 fl_scale)|]. split; [exact (proj2 fl_scale)|].
  split; [intros r Hr; destruct (regular_rmat fl_m 4 fl_C R) as (_ & So & Sd & Lo & Ld); apply rmat_regular; auto; lia|].
  split.
  { intros r s i j Hr Hs H1 H2. unfold fl_rng. cbn [fst]. destruct s as [|s]; [|lia].
    do 4 (destruct i as [|i]; [do 4 (destruct j as [|j]; [reflexivity|]); lia|]). lia. }
  split.
  { intros r ps s i j a Hr Hs H1 H2 Ha H. unfold fl_rng, mean_rng. cbn [snd]. rewrite H. reflexivity. }
  split; [exact (proj1 fl_moments)|]. split; [exact (proj2 fl_moments)|]. split; [vm_compute; reflexivity|vm_compute; reflexivity].
Qed.
