(** C92: bootstrap results and the currency unit. *)

From Coq Require Import String QArith Qcanon Qreals Reals ZArith List Bool Lia.
From Verif Require Import Val Frame Triangle A2A Base Mack Boot Quant Dist BootSum SpecUnits ListLib QcLib Spec Spec2 RegFacts BaseClaims BootClaims ScaleBoot
  ScaleBootClaims ScaleBootTab ScaleBootAll ExTri PropsBase ExMack PropsBoot.
Import ListNotations.
Open Scope string_scope.
Open Scope list_scope.
Open Scope nat_scope.

(** The same losses in a unit k^2 times smaller, the same random draws: factors, degrees of
    freedom and coefficients of variation are the same, residuals k times as large, and
    fitted values, scale parameter, simulated and summarised losses and reserves, standard
    errors and quantiles k^2 times as large. *)
Theorem C92_boot_units :
  forall (gm : list val -> val) (rt : val -> val) (m m' : lmat) (n : nat) (C : nat -> nat -> Qc) (k : Qc) (cl rl : list nat)
         (ind : list (list val)) (w : nat -> nat -> bool) (sims : nat) (par : bool)
         (rng : list val -> (nat -> val) * (list (val * val) -> nat -> val)) (b : boot_result),
  regular m n C -> positive n C -> 2 < n -> tail_fits (m_cols m) ->
  (forall i j, i + j < n - 1 -> cell ind i j = Fin (if w i j then 1 else 0)%Qc) ->
  (forall j, j < n - 1 -> w (n - 2 - j) j = true) ->
  (0 < k)%Qc -> regular m' n (fun i j => k * k * C i j)%Qc -> m_idx m' = m_idx m -> m_cols m' = m_cols m ->
  boot_cl gm rt (mkTri m "origin" "dev" "value") cl rl ind sims par rng = Ok b ->
  root_units rt k (List.concat (m_cells (o_fit_incr b))) -> draws_units k rng ->
  exists b', boot_cl gm rt (mkTri m' "origin" "dev" "value") cl rl ind sims par rng = Ok b' /\
    let sc := vmul (Fin (k * k)%Qc) in
    let sk := vmul (Fin k) in
    o_ldfs b' = o_ldfs b /\ o_dof b' = o_dof b /\
    m_cells (o_fit_cum b') = map (map sc) (m_cells (o_fit_cum b)) /\
    m_cells (o_fit_incr b') = map (map sc) (m_cells (o_fit_incr b)) /\
    m_cells (o_resid_us b') = map (map sk) (m_cells (o_resid_us b)) /\
    m_cells (o_resid_adj b') = map (map sk) (m_cells (o_resid_adj b)) /\
    o_dist b' = map sk (o_dist b) /\
    o_scale b' = sc (o_scale b) /\
    o_reserves b' = map (rec_units (k * k)%Qc) (o_reserves b) /\
    boot_table b' = map (row_units (k * k)%Qc) (boot_table b) /\
    (forall os q two me l, boot_summary_quantiles (o_reserves b) os q two me = Ok l ->
       boot_summary_quantiles (o_reserves b') os q two me = Ok (columns_units (k * k)%Qc l)) /\
    (forall os q me lb l, boot_get_quantiles (o_reserves b) os q me lb = Ok l ->
       boot_get_quantiles (o_reserves b') os q me (match lb with Some x => Some (k * k * x)%Qc | None => None end)
       = Ok (columns_units (k * k)%Qc l)).
Proof.
  intros gm rt m m' n C k cl rl ind w sims par rng b R P Hn Ev Hi Hl Kp R' Ei Ec Hb Hr G.
  exists (sres k b). split; [exact (c92_all gm rt m m' n C k cl rl ind w sims par rng b R P Hn Ev Hi Hl Kp R' Ei Ec Hb Hr G)|].
  assert (Cp : (0 < k * k)%Qc) by (apply qc_mul_pos; auto).
  cbv zeta. do 9 (split; [reflexivity|]). split; [exact (c92_table k b Kp)|]. split.
  - intros os q two me l Q. unfold sres. cbn [o_reserves]. rewrite (c92_summary_quantiles (k * k)%Qc Cp), Q. reflexivity.
  - intros os q me lb l Q. unfold sres. cbn [o_reserves]. rewrite (c92_get_quantiles (k * k)%Qc Cp), Q. reflexivity.
Qed.
Print Assumptions C92_boot_units.

(** Losses in millions and in units (k = 1000), with a root that agrees. *)
Definition mil : Qc := qz 1000.
Definition mil_rt (v : val) : val :=
  match v with
  | Fin q => if qcltb q (qz 100000) then ex_rt v else vmul (Fin mil) (ex_rt (Fin (q / (mil * mil))%Qc))
  | _ => ex_rt v
  end.
Definition bt_units : lmat := fmap (vmul (Fin (mil * mil)%Qc)) bt_m.
Lemma bt_units_regular : regular bt_units 4 (fun i j => mil * mil * ex_C i j)%Qc.
Proof.
  repeat split; simpl; auto.
  - repeat constructor.
  - repeat constructor.
  - intros row H. repeat (destruct H as [<-|H]; [reflexivity|]). contradiction.
  - intros i j Hi Hj. do 4 (destruct i as [|i]; [do 4 (destruct j as [|j]; [reflexivity|]); lia|]). lia.
Qed.
Lemma ex_rng_units : draws_units mil ex_rng.
Proof.
  assert (Mp : (0 < mil)%Qc) by reflexivity. assert (Cp : (0 < mil * mil)%Qc) by reflexivity. split.
  - intros l j. unfold ex_rng. cbn [fst]. rewrite map_length. change NaN with (vmul (Fin mil) NaN) at 1. apply map_nth.
  - intros l ps j. unfold ex_rng. cbn [snd].
    change (NaN, NaN) with ((fun p : val * val => (fst p, vmul (Fin (mil * mil)%Qc) (snd p))) (NaN, NaN)) at 1 2. rewrite map_nth.
    cbn [fst snd]. rewrite !(sc_mul_r _ Cp). reflexivity.
Qed.
Notation boot_mil := (boot_cl ex_gm mil_rt (mkTri bt_m "origin" "dev" "value") [3; 2; 1; 0] [3; 2; 1; 0] ex_ind 2 false ex_rng).
Definition root_okb (l : list val) : bool :=
  forallb (fun x => vsame (mil_rt (vmul (Fin (mil * mil)%Qc) x)) (vmul (Fin mil) (mil_rt x)) &&
                    vsame (mil_rt (vmul (Fin (mil * mil)%Qc) (vabs x))) (vmul (Fin mil) (mil_rt (vabs x)))) l.
Lemma root_okb_sound l : root_okb l = true -> root_units mil_rt mil l.
Proof.
  intros H x Hx. unfold root_okb in H. rewrite forallb_forall in H. apply H in Hx. apply andb_true_iff in Hx as (A & B).
  split; apply vsame_eq; assumption.
Qed.
Example C92_nonvacuous : regular bt_m 4 ex_C /\ positive 4 ex_C /\ tail_fits (m_cols bt_m) /\
  regular bt_units 4 (fun i j => mil * mil * ex_C i j)%Qc /\ draws_units mil ex_rng /\
  exists b b', boot_mil = Ok b /\ root_units mil_rt mil (List.concat (m_cells (o_fit_incr b))) /\
    boot_cl ex_gm mil_rt (mkTri bt_units "origin" "dev" "value") [3; 2; 1; 0] [3; 2; 1; 0] ex_ind 2 false ex_rng = Ok b' /\
    o_reserves b' = map (rec_units (mil * mil)%Qc) (o_reserves b) /\
    (exists r, In r (o_reserves b') /\ vltb (vz 1000000) (v_reserve r) = true) /\
    vsame (o_scale b') (o_scale b) = false.
Proof.
  split; [apply bt_regular|]. split; [apply ex_positive|]. split; [apply bt_spaced|]. split; [apply bt_units_regular|].
  split; [apply ex_rng_units|].
  assert (V : match boot_mil with
    | Ok b => root_okb (List.concat (m_cells (o_fit_incr b))) && existsb (fun r => vltb (vz 1000000) (vmul (Fin (mil * mil)%Qc) (v_reserve r))) (o_reserves b)
       && negb (vsame (vmul (Fin (mil * mil)%Qc) (o_scale b)) (o_scale b))
    | Err _ => false end = true) by (vm_compute; reflexivity).
  destruct boot_mil as [b|e] eqn:E; [|discriminate]. apply andb_true_iff in V as (V & V3). apply andb_true_iff in V as (V1 & V2).
  apply root_okb_sound in V1. exists b.
  destruct (C92_boot_units ex_gm mil_rt bt_m bt_units 4 ex_C mil [3; 2; 1; 0] [3; 2; 1; 0] ex_ind ex_w 2 false ex_rng b
    bt_regular ex_positive ltac:(lia) bt_spaced ex_ind_ok ex_w_latest eq_refl bt_units_regular eq_refl eq_refl E V1 ex_rng_units)
    as (b' & Hb & _ & _ & _ & _ & _ & _ & _ & Hs & Hr & _).
  exists b'. split; [reflexivity|]. split; [exact V1|]. split; [exact Hb|]. split; [exact Hr|].
  split.
  - apply existsb_exists in V2 as (r & Q & V2). exists (rec_units (mil * mil)%Qc r). split; [rewrite Hr; apply in_map; exact Q|cbn [rec_units v_reserve]; exact V2].
  - apply negb_true_iff in V3. rewrite Hs. exact V3.
Qed.
