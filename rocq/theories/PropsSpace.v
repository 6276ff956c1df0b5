(** Development periods at any spacing: C22, C53. *)

From Coq Require Import String QArith Qcanon ZArith List Bool Lia.
From Verif Require Import Val Frame Triangle A2A Base Mack QcLib Spec ExTri SpecSpace SpaceClaims PropsBase.
Import ListNotations.
Open Scope list_scope.
Open Scope nat_scope.

(** ** C22, any spacing.  base_cl with a selected row of averages treats the last
    period as if it were called [D], the period before it plus the smallest earlier
    step.  Its result is the one for the table with that label, shown under the
    original label; when the labels differ, the oldest origin's cumulative factor and
    emergence are missing and everything else is the same.  The labels agree exactly
    when the last step is the smallest of the earlier ones ([tail_fits]). *)
Theorem C22_any_spacing :
  forall (gm : list val -> val) (m : lmat) (n : nat) (C : nat -> nat -> Qc) (cl : list nat)
         (ind : list (list val)) (s : string) (tail : val) (v : string),
  regular m n C -> positive n C -> 2 < n -> clvi m = Ok cl ->
  exists g, smallest_early_step (m_cols m) g /\
    let d := nth (n - 1) (m_cols m) 0%Z in
    let D := (nth (n - 2) (m_cols m) 0 + g)%Z in
    let m2 := with_last_period m D in
    regular m2 n C /\ tail_fits (m_cols m2) /\ clvi m2 = Ok cl /\ (D = d <-> tail_fits (m_cols m)) /\
    snd (base_cl gm (mkTri m "origin" "dev" v) cl ind (SelLabel s) tail)
    = ok_map (show_last_in D d) (snd (base_cl gm (mkTri m2 "origin" "dev" v) cl ind (SelLabel s) tail)).
Proof. exact space_base. Qed.
Print Assumptions C22_any_spacing.

(** With the default selection: which origins show a cumulative factor. *)
Theorem C22_oldest_factor_shown_iff :
  forall (gm : list val -> val) (m : lmat) (n : nat) (C : nat -> nat -> Qc) (cl : list nat) (v : string) (tail : Qc),
  regular m n C -> positive n C -> 2 < n -> clvi m = Ok cl ->
  exists r row rest,
    snd (base_cl gm (mkTri m "origin" "dev" v) cl (a2aind_init m) (SelLabel "all-weighted") (Fin tail)) = Ok r /\
    c_rows r = row :: rest /\
    s_ultimate row = Fin (C 0%nat (n - 1)%nat * tail)%Qc /\
    (tail_fits (m_cols m) -> s_cldf row = Fin tail) /\
    (~ tail_fits (m_cols m) -> s_cldf row = NaN /\ s_emergence row = NaN) /\
    (forall row', In row' rest -> s_cldf row' <> NaN).
Proof. exact space_oldest. Qed.
Print Assumptions C22_oldest_factor_shown_iff.

(** ** C53, any spacing.  mack_cl likewise, for every alpha and all indicators: factors,
    variances, errors, ultimates and reserves are those of the relabelled table. *)
Theorem C53_mack_any_spacing :
  forall (m : lmat) (n : nat) (C : nat -> nat -> Qc) (cl : list nat)
         (ind : list (list val)) (al : nat) (tail : val) (v : string),
  regular m n C -> positive n C -> 2 < n -> clvi m = Ok cl ->
  exists g, smallest_early_step (m_cols m) g /\
    let d := nth (n - 1) (m_cols m) 0%Z in
    let D := (nth (n - 2) (m_cols m) 0 + g)%Z in
    let m2 := with_last_period m D in
    regular m2 n C /\ tail_fits (m_cols m2) /\ clvi m2 = Ok cl /\ (D = d <-> tail_fits (m_cols m)) /\
    mack_cl (mkTri m "origin" "dev" v) cl ind al tail
    = ok_map (show_last_mack D d) (mack_cl (mkTri m2 "origin" "dev" v) cl ind al tail).
Proof. exact space_mack. Qed.
Print Assumptions C53_mack_any_spacing.

(** Periods 12, 24, 48, 96: the tail factor is stored under 60 = 48 + 12. *)
Definition wide_m : lmat := mkMat (m_idx ex_m) [12; 24; 48; 96]%Z (m_cells ex_m).
Example C22_any_spacing_nonvacuous : regular wide_m 4 ex_C /\ positive 4 ex_C /\ clvi wide_m = Ok [3; 2; 1; 0] /\
  smallest_early_step (m_cols wide_m) 12 /\ ~ tail_fits (m_cols wide_m) /\
  m_cols (with_last_period wide_m (48 + 12)) = [12; 24; 48; 60]%Z /\
  match snd (base_cl ex_gm (mkTri wide_m "origin" "dev" "value") [3; 2; 1; 0] (a2aind_init wide_m)
               (SelLabel "simple-2") (vz 1)),
        snd (base_cl ex_gm (mkTri ex_m "origin" "dev" "value") [3; 2; 1; 0] (a2aind_init ex_m)
               (SelLabel "simple-2") (vz 1)) with
  | Ok r, Ok r0 => map s_cldf (c_rows r) = NaN :: tl (map s_cldf (c_rows r0)) /\
                   map s_maturity (c_rows r) = [96; 48; 24; 12]%Z /\ map fst (c_ldfs r) = [12; 24; 48; 60]%Z /\
                   c_total r = c_total r0
  | _, _ => False
  end.
Proof.
  destruct ex_regular as (A & B & L1 & L2 & H3 & H4).
  split; [split; [exact A|]; split; [repeat constructor|]; split; [exact L1|]; split; [reflexivity|]; split; [exact H3|exact H4]|].
  split; [apply ex_positive|]. split; [vm_compute; reflexivity|].
  split.
  { split; [intros j Hj; cbn in Hj; do 2 (destruct j as [|j]; [cbn; lia|]); lia|exists 0; cbn; lia]. }
  split.
  { intros (F & _). specialize (F 0). cbn in F. lia. }
  split; [reflexivity|]. vm_compute. repeat split; reflexivity.
Qed.
