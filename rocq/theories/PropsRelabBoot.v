(** C94: bootstrap results and the labels. *)

From Coq Require Import String QArith Qcanon Qreals Reals ZArith List Bool Lia.
From Verif Require Import Val Frame Triangle A2A Base Mack Boot Quant Dist BootSum SpecRelab ListLib QcLib Spec Spec2 RegFacts BaseClaims BootFit BootClaims
  RelabBoot RelabBootClaims ExTri PropsBase ExMack PropsBoot.
Import ListNotations.
Open Scope string_scope.
Open Scope list_scope.
Open Scope nat_scope.

(** The same losses under other origins and periods, the same draws: the same figures,
    provided that the label 1 stands at the same place, if at all. *)
Theorem C94_boot_labels_partial :
  forall (gm : list val -> val) (rt : val -> val) (m m' : lmat) (n : nat) (C : nat -> nat -> Qc) (cl rl : list nat)
         (ind : list (list val)) (w : nat -> nat -> bool) (sims : nat) (par : bool)
         (rng : list val -> (nat -> val) * (list (val * val) -> nat -> val)) (b : boot_result),
  regular m n C -> regular m' n C -> positive n C -> 2 < n -> tail_fits (m_cols m) -> tail_fits (m_cols m') ->
  (forall j, j < n -> nth j (m_cols m') 0%Z = 1%Z <-> nth j (m_cols m) 0%Z = 1%Z) ->
  (forall i j, i + j < n - 1 -> cell ind i j = Fin (if w i j then 1 else 0)%Qc) ->
  (forall j, j < n - 1 -> w (n - 2 - j) j = true) ->
  clvi m = Ok cl -> rlvi m = Ok rl ->
  boot_cl gm rt (mkTri m "origin" "dev" "value") cl rl ind sims par rng = Ok b ->
  clvi m' = Ok cl /\ rlvi m' = Ok rl /\
  exists b', boot_cl gm rt (mkTri m' "origin" "dev" "value") cl rl ind sims par rng = Ok b' /\
    map fst (o_ldfs b') = m_cols m' /\ map snd (o_ldfs b') = map snd (o_ldfs b) /\ o_dof b' = o_dof b /\
    m_cells (o_fit_cum b') = m_cells (o_fit_cum b) /\ m_cells (o_fit_incr b') = m_cells (o_fit_incr b) /\
    m_cells (o_resid_us b') = m_cells (o_resid_us b) /\ m_cells (o_resid_adj b') = m_cells (o_resid_adj b) /\
    o_dist b' = o_dist b /\ o_scale b' = o_scale b /\
    Forall2 (moved_rec (m_idx m) (m_idx m')) (o_reserves b) (o_reserves b') /\
    map row_figures (boot_table b') = map row_figures (boot_table b) /\
    (forall q two me, boot_summary_quantiles (o_reserves b') (m_idx m') q two me = boot_summary_quantiles (o_reserves b) (m_idx m) q two me) /\
    (forall q me lb, boot_get_quantiles (o_reserves b') (m_idx m') q me lb = boot_get_quantiles (o_reserves b) (m_idx m) q me lb).
Proof.
  intros gm rt m m' n C cl rl ind w sims par rng b R R' P Hn Ev Ev' H1 Hi Hl Hcl Hrl Hb.
  destruct (regular_rmat m n C R) as (E & So & Sd & Lo & Ld). destruct (regular_rmat m' n C R') as (E' & So' & Sd' & Lo' & Ld').
  rewrite E in Hcl, Hrl. rewrite r_clvi in Hcl by (auto; lia). rewrite r_rlvi in Hrl by (auto; lia).
  split; [rewrite E', r_clvi by (auto; lia); auto|]. split; [rewrite E', r_rlvi by (auto; lia); auto|].
  assert (Bd : forall l : list nat, Ok l = Ok (map (fun j => n - 1 - j) (seq 0 n)) -> forall j, nth j l O < n).
  { intros l Q j. injection Q as ->. destruct (Nat.lt_ge_cases j n) as [A|A].
    - rewrite (nth_map_seq (fun j => n - 1 - j)) by auto. lia.
    - rewrite nth_overflow by (rewrite map_length, seq_length; auto). lia. }
  destruct (c94 m m' n C R R' P Hn Ev Ev' H1 ind w Hi Hl gm rt cl rl (Bd cl (eq_sym Hcl)) (Bd rl (eq_sym Hrl)) sims par rng) as (Eb & Hx).
  destruct (Hx b Hb) as (Or & Os & Ef). rewrite Hb in Eb. assert (Le : List.length (m_idx m') = List.length (m_idx m)) by lia.
  exists (mres m m' n b). split; [exact Eb|]. split.
  { unfold mres. cbn [o_ldfs]. rewrite map_map. cbn [fst]. apply (nth_ext _ _ 0%Z 0%Z); [rewrite map_length, seq_length; auto|].
    intros j Hj. rewrite map_length, seq_length in Hj. apply (nth_map_seq (fun j => nth j (m_cols m') 0%Z)). auto. }
  split; [exact Ef|]. do 7 (split; [reflexivity|]).
  split; [exact (recs_mv m m' b So Le Or)|]. split; [exact (table_mv m m' n b So So' Le Or Os)|].
  split; [intros; exact (sq_mv m m' b So So' Le Or q two me)|intros; exact (gq_mv m m' b So So' Le Or q me lb)].
Qed.
Print Assumptions C94_boot_labels_partial.

(** Months instead of years: the first period's increments are not recognised (the code
    compares the label with 1), and every simulated ultimate changes. *)
Theorem C94_first_label_refuted : exists b b',
  m_cells ex_m = m_cells bt_m /\ m_idx ex_m = m_idx bt_m /\ regular ex_m 4 ex_C /\ tail_fits (m_cols ex_m) /\
  ex_boot 2 = Ok b /\
  boot_cl ex_gm ex_rt (mkTri ex_m "origin" "dev" "value") [3; 2; 1; 0] [3; 2; 1; 0] ex_ind 2 false ex_rng = Ok b' /\
  vlistb (o_dist b') (o_dist b) = true /\
  forallb (fun p => negb (vsame (v_ultimate (fst p)) (v_ultimate (snd p)))) (combine (o_reserves b) (o_reserves b')) = true.
Proof.
  eexists _, _. split; [reflexivity|]. split; [reflexivity|]. split; [apply ex_regular|]. split; [apply ex_spaced|].
  split; [vm_compute; reflexivity|]. split; [vm_compute; reflexivity|]. split; vm_compute; reflexivity.
Qed.
Print Assumptions C94_first_label_refuted.

(** Other origins, and quarters 1, 4, 7, 10 instead of years 1 to 4. *)
Definition bt_q : lmat := mkMat [1; 5; 6; 90]%Z [1; 4; 7; 10]%Z (m_cells ex_m).
Lemma bt_q_regular : regular bt_q 4 ex_C.
Proof.
  repeat split; simpl; auto.
  - repeat constructor.
  - repeat constructor.
  - intros row H. repeat (destruct H as [<-|H]; [reflexivity|]). contradiction.
  - intros i j Hi Hj. do 4 (destruct i as [|i]; [do 4 (destruct j as [|j]; [reflexivity|]); lia|]). lia.
Qed.
Lemma bt_q_spaced : tail_fits (m_cols bt_q).
Proof. split; [intros j Hj; cbn in Hj; do 2 (destruct j as [|j]; [cbn; lia|]); lia|exists 0; cbn; lia]. Qed.
Example C94_nonvacuous : regular bt_m 4 ex_C /\ regular bt_q 4 ex_C /\ positive 4 ex_C /\ tail_fits (m_cols bt_m) /\ tail_fits (m_cols bt_q) /\
  (forall j, j < 4 -> nth j (m_cols bt_q) 0%Z = 1%Z <-> nth j (m_cols bt_m) 0%Z = 1%Z) /\
  clvi bt_m = Ok [3; 2; 1; 0] /\ rlvi bt_m = Ok [3; 2; 1; 0] /\
  match ex_boot 2, boot_cl ex_gm ex_rt (mkTri bt_q "origin" "dev" "value") [3; 2; 1; 0] [3; 2; 1; 0] ex_ind 2 false ex_rng with
  | Ok b, Ok b' => map v_o (o_reserves b') = [1; 1; 5; 5; 6; 6; 90; 90]%Z /\
      map v_o (o_reserves b) = [2001; 2001; 2002; 2002; 2003; 2003; 2004; 2004]%Z /\
      vlistb (map v_reserve (o_reserves b')) (map v_reserve (o_reserves b)) = true /\
      existsb (fun r => vltb (vz 1) (v_reserve r)) (o_reserves b) = true
  | _, _ => False
  end.
Proof.
  split; [apply bt_regular|]. split; [apply bt_q_regular|]. split; [apply ex_positive|]. split; [apply bt_spaced|]. split; [apply bt_q_spaced|].
  split. { intros j Hj. do 4 (destruct j as [|j]; [cbn; lia|]). lia. }
  split; [apply bt_lvi|]. split; [apply bt_lvi|]. vm_compute. repeat split.
Qed.
