(** C95: the youngest origin and the bootstrap. *)

From Coq Require Import String QArith Qcanon ZArith List Bool Lia.
From Verif Require Import Val Frame Triangle A2A Base Mack Boot ListLib QcLib Spec Spec2 SpecRel RegFacts BaseClaims BootClaims
  SpecAny YoungBoot ExTri PropsBase ExMack PropsBoot PropsSim PropsAny.
Import ListNotations.
Open Scope string_scope.
Open Scope list_scope.
Open Scope nat_scope.

(** Two triangles that differ in the youngest origin's single value only, the same
    draws: the same factors, residuals, scale and degrees of freedom, and the same
    simulated records and summary rows for every other origin.  A draw of the process
    stage is taken to depend on its position and its own parameters.  Missing: a last
    factor below 1, where it is false ([C95_last_factor_below_1_refuted]). *)
Theorem C95_youngest_origin_boot_cl_partial :
  forall (gm : list val -> val) (rt : val -> val) (m m' : lmat) (n : nat) (C C' : nat -> nat -> Qc) (cl rl : list nat)
         (ind : list (list val)) (w : nat -> nat -> bool) (sims : nat) (par : bool)
         (rng : list val -> (nat -> val) * (list (val * val) -> nat -> val)) (b : boot_result)
         (G : list val -> nat -> val * val -> val),
  regular m n C -> regular m' n C' -> positive n C -> positive n C' -> 2 < n ->
  m_idx m' = m_idx m -> m_cols m' = m_cols m -> same_but_youngest n C C' -> tail_fits (m_cols m) ->
  (forall i j, i + j < n - 1 -> cell ind i j = Fin (if w i j then 1 else 0)%Qc) ->
  (forall j, j < n - 1 -> w (n - 2 - j) j = true) ->
  root_like rt -> (1 <= vol_factor n C (n - 2))%Qc ->
  clvi m = Ok cl -> rlvi m = Ok rl ->
  boot_cl gm rt (mkTri m "origin" "dev" "value") cl rl ind sims par rng = Ok b ->
  (forall k, k < sims * (n * n) -> exists q, fst (rng (o_dist b)) k = Fin q) ->
  (forall l ps k, snd (rng l) ps k = G l k (nth k ps (NaN, NaN))) ->
  clvi m' = Ok cl /\ rlvi m' = Ok rl /\
  exists b', boot_cl gm rt (mkTri m' "origin" "dev" "value") cl rl ind sims par rng = Ok b' /\
    o_ldfs b' = o_ldfs b /\ o_dof b' = o_dof b /\ o_scale b' = o_scale b /\
    o_resid_us b' = o_resid_us b /\ o_resid_adj b' = o_resid_adj b /\ o_dist b' = o_dist b /\
    (forall i j, i < n - 1 -> j < n ->
       cell (m_cells (o_fit_cum b')) i j = cell (m_cells (o_fit_cum b)) i j /\
       cell (m_cells (o_fit_incr b')) i j = cell (m_cells (o_fit_incr b)) i j) /\
    (forall o, o <> nth (n - 1) (m_idx m) 0%Z ->
       filter (fun r => (v_o r =? o)%Z) (o_reserves b') = filter (fun r => (v_o r =? o)%Z) (o_reserves b)) /\
    firstn (n - 1) (o_summary b') = firstn (n - 1) (o_summary b).
Proof.
  intros gm rt m m' n C C' cl rl ind w sims par rng b G R R' P P' Hn Ei Ec Y Ev Hi Hl Rt F1.
  exact (c95 m m' n C C' R R' P P' Hn Ei Ec Y Ev ind w Hi Hl gm rt Rt F1 cl rl sims par rng b G).
Qed.
Print Assumptions C95_youngest_origin_boot_cl_partial.

Definition by_C (i j : nat) : Qc := if (i =? 3) && (j =? 0) then qz 7777 else ex_C i j.
Definition by_m : lmat := mkMat (m_idx bt_m) (m_cols bt_m)
  [[vz 100; vz 150; vz 180; vz 189]; [vz 110; vz 176; vz 200; NaN];
   [vz 90; vz 120; NaN; NaN]; [vz 7777; NaN; NaN; NaN]].
Lemma by_regular : regular by_m 4 by_C.
Proof.
  repeat split; simpl; auto.
  - repeat constructor.
  - repeat constructor.
  - intros row H. repeat (destruct H as [<-|H]; [reflexivity|]). contradiction.
  - intros i j Hi Hj. do 4 (destruct i as [|i]; [do 4 (destruct j as [|j]; [reflexivity|]); lia|]). lia.
Qed.
Example C95_nonvacuous : regular bt_m 4 ex_C /\ regular by_m 4 by_C /\ positive 4 ex_C /\ positive 4 by_C /\ same_but_youngest 4 ex_C by_C /\
  (1 <= vol_factor 4 ex_C (4 - 2))%Qc /\
  (forall l ps k, snd (ex_rng l) ps k = (fun l k p => vmul (Fin (if Nat.even k then Q2Qc (3 # 4) else Q2Qc (5 # 4))) (vmul (fst p) (snd p))) l k (nth k ps (NaN, NaN))) /\
  match ex_boot 2, boot_cl ex_gm ex_rt (mkTri by_m "origin" "dev" "value") [3; 2; 1; 0] [3; 2; 1; 0] ex_ind 2 false ex_rng with
  | Ok b, Ok b' =>
      (forall k, k < 2 * (4 * 4) -> exists q, fst (ex_rng (o_dist b)) k = Fin q) /\
      (* the youngest origin's own records do change, those of origin 3 do not *)
      vlistb (map v_ultimate (filter (fun r => (v_o r =? nth 3 (m_idx bt_m) 0)%Z) (o_reserves b)))
             (map v_ultimate (filter (fun r => (v_o r =? nth 3 (m_idx bt_m) 0)%Z) (o_reserves b'))) = false /\
      vlistb (map v_ultimate (filter (fun r => (v_o r =? nth 2 (m_idx bt_m) 0)%Z) (o_reserves b)))
             (map v_ultimate (filter (fun r => (v_o r =? nth 2 (m_idx bt_m) 0)%Z) (o_reserves b'))) = true /\
      List.length (filter (fun r => (v_o r =? nth 2 (m_idx bt_m) 0)%Z) (o_reserves b)) = 2
  | _, _ => False
  end.
Proof.
  split; [apply bt_regular|]. split; [apply by_regular|]. split; [apply ex_positive|]. split.
  { intros i j H. unfold by_C. destruct (_ && _); [reflexivity|]. apply ex_positive. auto. }
  split.
  { intros i j H Hi. unfold by_C. destruct (Nat.eqb_spec i 3); [lia|]. reflexivity. }
  split; [apply bt_factors; lia|]. split; [reflexivity|].
  assert (E : match ex_boot 2 with Ok b => forallb (fun v => match v with Fin _ => true | _ => false end) (o_dist b) && (0 <? List.length (o_dist b)) | Err _ => false end = true)
    by (vm_compute; reflexivity).
  match goal with |- match ?x with _ => _ end => assert (E2 : match x, boot_cl ex_gm ex_rt (mkTri by_m "origin" "dev" "value") [3; 2; 1; 0] [3; 2; 1; 0] ex_ind 2 false ex_rng with
  | Ok b, Ok b' =>
      vlistb (map v_ultimate (filter (fun r => (v_o r =? nth 3 (m_idx bt_m) 0)%Z) (o_reserves b)))
             (map v_ultimate (filter (fun r => (v_o r =? nth 3 (m_idx bt_m) 0)%Z) (o_reserves b'))) = false /\
      vlistb (map v_ultimate (filter (fun r => (v_o r =? nth 2 (m_idx bt_m) 0)%Z) (o_reserves b)))
             (map v_ultimate (filter (fun r => (v_o r =? nth 2 (m_idx bt_m) 0)%Z) (o_reserves b'))) = true /\
      List.length (filter (fun r => (v_o r =? nth 2 (m_idx bt_m) 0)%Z) (o_reserves b)) = 2
  | _, _ => False
  end) by (vm_compute; repeat split; reflexivity) end.
  destruct (ex_boot 2) as [b|]; [|contradiction]. destruct (boot_cl _ _ _ _ _ _ _ _ _) as [b'|]; [|contradiction].
  split; [|exact E2]. intros k Hk. apply andb_prop in E as (E & E3). apply Nat.ltb_lt in E3. rewrite forallb_forall in E.
  cbn [ex_rng fst]. assert (Q := E (nth (k mod List.length (o_dist b)) (o_dist b) NaN) ltac:(apply nth_In, Nat.mod_upper_bound; lia)).
  destruct (nth (k mod List.length (o_dist b)) (o_dist b) NaN) as [| | |q]; [discriminate..|]. exists q. reflexivity.
Qed.

(** A factor below 1 that is not the last one meets the hypotheses too. *)
Definition sag_C (i j : nat) : Qc := if (i =? 0) && (j =? 3) then qz 126 else gap_C i j.
Definition sag_m : lmat := mkMat (m_idx bt_m) (m_cols bt_m)
  [[vz 100; vz 80; vz 120; vz 126]; [vz 110; vz 90; vz 130; NaN]; [vz 90; vz 75; NaN; NaN]; [vz 95; NaN; NaN; NaN]].
Example C95_nonvacuous_below_1 : regular sag_m 4 sag_C /\ positive 4 sag_C /\ (vol_factor 4 sag_C 0 < 1)%Qc /\ (1 <= vol_factor 4 sag_C (4 - 2))%Qc /\
  match boot_cl ex_gm ex_rt (mkTri sag_m "origin" "dev" "value") [3; 2; 1; 0] [3; 2; 1; 0] ex_ind 2 false gap_rng with
  | Ok b => List.length (o_reserves b) = 8
  | Err _ => False
  end.
Proof.
  split.
  { repeat split; simpl; auto.
    - repeat constructor.
    - repeat constructor.
    - intros row H. repeat (destruct H as [<-|H]; [reflexivity|]). contradiction.
    - intros i j Hi Hj. do 4 (destruct i as [|i]; [do 4 (destruct j as [|j]; [reflexivity|]); lia|]). lia. }
  split.
  { intros i j H. do 4 (destruct i as [|i]; [do 4 (destruct j as [|j]; [reflexivity|]); lia|]). lia. }
  split; [reflexivity|]. split; [vm_compute; discriminate|]. vm_compute. reflexivity.
Qed.

(** With a last factor below 1 the youngest origin reaches the others: the factor out of
    the last period with resampled losses divides the total of the first period, which
    the youngest origin belongs to, so changing its loss changes the simulated records
    of another origin. *)
Definition gapy_C (i j : nat) : Qc := if (i =? 3) && (j =? 0) then qz 950 else gap_C i j.
Definition gapy_m : lmat := mkMat (m_idx bt_m) (m_cols bt_m)
  [[vz 100; vz 80; vz 120; vz 114]; [vz 110; vz 90; vz 130; NaN]; [vz 90; vz 75; NaN; NaN]; [vz 950; NaN; NaN; NaN]].
Theorem C95_last_factor_below_1_refuted :
  exists (gm : list val -> val) (rt : val -> val) (m m' : lmat) (n : nat) (C C' : nat -> nat -> Qc) (cl rl : list nat)
         (ind : list (list val)) (w : nat -> nat -> bool) (sims : nat)
         (rng : list val -> (nat -> val) * (list (val * val) -> nat -> val))
         (G : list val -> nat -> val * val -> val) (b b' : boot_result) (o : Z),
  regular m n C /\ regular m' n C' /\ positive n C /\ positive n C' /\ 2 < n /\
  m_idx m' = m_idx m /\ m_cols m' = m_cols m /\ same_but_youngest n C C' /\ tail_fits (m_cols m) /\
  (forall i j, i + j < n - 1 -> cell ind i j = Fin (if w i j then 1 else 0)%Qc) /\
  (forall j, j < n - 1 -> w (n - 2 - j) j = true) /\
  root_like rt /\ (vol_factor n C (n - 2) < 1)%Qc /\
  clvi m = Ok cl /\ rlvi m = Ok rl /\
  boot_cl gm rt (mkTri m "origin" "dev" "value") cl rl ind sims false rng = Ok b /\
  boot_cl gm rt (mkTri m' "origin" "dev" "value") cl rl ind sims false rng = Ok b' /\
  (forall k, k < sims * (n * n) -> exists q, fst (rng (o_dist b)) k = Fin q) /\
  (forall l ps k, snd (rng l) ps k = G l k (nth k ps (NaN, NaN))) /\
  o <> nth (n - 1) (m_idx m) 0%Z /\
  filter (fun r => (v_o r =? o)%Z) (o_reserves b') <> filter (fun r => (v_o r =? o)%Z) (o_reserves b).
Proof.
  assert (W : match boot_cl ex_gm ex_rt (mkTri gap_m "origin" "dev" "value") [3; 2; 1; 0] [3; 2; 1; 0] ex_ind 2 false gap_rng,
      boot_cl ex_gm ex_rt (mkTri gapy_m "origin" "dev" "value") [3; 2; 1; 0] [3; 2; 1; 0] ex_ind 2 false gap_rng with
    | Ok b, Ok b' => vlistb (map v_ultimate (filter (fun r => (v_o r =? 2002)%Z) (o_reserves b')))
                            (map v_ultimate (filter (fun r => (v_o r =? 2002)%Z) (o_reserves b)))
    | _, _ => true end = false) by (vm_compute; reflexivity).
  destruct (boot_cl ex_gm ex_rt (mkTri gap_m "origin" "dev" "value") [3; 2; 1; 0] [3; 2; 1; 0] ex_ind 2 false gap_rng) as [b|] eqn:B; [|discriminate].
  destruct (boot_cl ex_gm ex_rt (mkTri gapy_m "origin" "dev" "value") [3; 2; 1; 0] [3; 2; 1; 0] ex_ind 2 false gap_rng) as [b'|] eqn:B'; [|discriminate].
  exists ex_gm, ex_rt, gap_m, gapy_m, 4, gap_C, gapy_C, [3; 2; 1; 0], [3; 2; 1; 0], ex_ind, ex_w, 2, gap_rng.
  exists (fun _ _ p => vmul (fst p) (snd p)), b, b', 2002%Z.
  destruct C98_nonvacuous as (R & P & T & Rt & _).
  split; [exact R|]. split.
  { repeat split; simpl; auto.
    - repeat constructor.
    - repeat constructor.
    - intros row H. repeat (destruct H as [<-|H]; [reflexivity|]). contradiction.
    - intros i j Hi Hj. do 4 (destruct i as [|i]; [do 4 (destruct j as [|j]; [reflexivity|]); lia|]). lia. }
  split; [exact P|]. split.
  { intros i j H. unfold gapy_C. destruct (_ && _); [reflexivity|]. apply P. auto. }
  split; [lia|]. split; [reflexivity|]. split; [reflexivity|]. split.
  { intros i j H Hi. unfold gapy_C. destruct (Nat.eqb_spec i 3); [lia|]. reflexivity. }
  split; [exact T|]. split.
  { exact ex_ind_ok. }
  split.
  { intros j Hj. do 3 (destruct j as [|j]; [reflexivity|]). lia. }
  split; [exact Rt|]. split; [reflexivity|]. split; [reflexivity|]. split; [reflexivity|].
  split; [exact B|]. split; [exact B'|]. split.
  { intros k Hk. unfold gap_rng. cbn [fst]. destruct (k <? 16); eexists; reflexivity. }
  split.
  { reflexivity. }
  split; [discriminate|]. intro Q. rewrite Q in W.
  assert (Z : forall l, vlistb l l = true).
  { unfold vlistb. induction l as [|v l IH]; [reflexivity|]. cbn [listb]. rewrite IH, (proj2 (vsame_eq v v) eq_refl). reflexivity. }
  rewrite Z in W. discriminate.
Qed.
Print Assumptions C95_last_factor_below_1_refuted.
