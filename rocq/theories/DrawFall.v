(** Proofs of C101: latest losses reached over factors below 1. *)

From Coq Require Import String QArith Qcanon ZArith List Bool Lia Permutation Sorting.Sorted.
From Verif Require Import Val Frame Triangle A2A Base Mack Boot ListLib QcLib Spec Spec2 SpecSim SpecAny SpecProc SpecDraw TblFacts ConvFacts FillFacts
  TriClaims4 RegFacts AvgFacts MackFacts BuildFacts BaseClaims BootFit BootLib BootSim BootClaims BootNoise BootClaims2 BootForm SimClaims AnyClaims ProcClaims DrawClaims.
Import ListNotations.
Open Scope string_scope.
Open Scope list_scope.
Open Scope nat_scope.

Section Runs.
  Variables (gm : list val -> val) (rt : val -> val) (root : Qc -> Qc) (m : lmat) (n : nat) (C M : nat -> nat -> Qc)
         (cl rl : list nat) (ind : list (list val)) (w : nat -> nat -> bool) (sims : nat) (par : bool) (c mu ms : Qc)
         (N : nat) (p : nat -> Qc) (rng : nat -> list val -> (nat -> val) * (list (val * val) -> nat -> val)) (b : nat -> boot_result)
         (E : nat -> nat -> nat -> nat -> Qc) (V : nat -> nat -> nat -> nat -> Qc -> Qc).
  Hypothesis R : regular m n C.
  Hypothesis P : positive n C.
  Hypothesis Hn : 2 < n.
  Hypothesis Ev : tail_fits (m_cols m).
  Hypothesis Hi : forall i j, i + j < n - 1 -> cell ind i j = Fin (if w i j then 1 else 0)%Qc.
  Hypothesis Hl : forall j, j < n - 1 -> w (n - 2 - j) j = true.
  Hypothesis Cl : clvi m = Ok cl.
  Hypothesis Rl : rlvi m = Ok rl.
  Hypothesis Rt : root_like rt.
  Hypothesis Ro : forall q, (0 <= q)%Qc -> rt (Fin q) = Fin (root q).
  Hypothesis B : forall r, r < N -> boot_cl gm rt (mkTri m "origin" "dev" "value") cl rl ind sims par (rng r) = Ok (b r).
  Hypothesis Sc : forall r, r < N -> o_scale (b r) = Fin c.
  Hypothesis Cp : (0 < c)%Qc.
  Hypothesis Rm : forall r, r < N -> regular (o_fit_incr (b r)) n M.
  Hypothesis He : forall r s i j, r < N -> s < sims -> i < n -> j < n -> fst (rng r (o_dist (b r))) (s * (n * n) + i * n + j) = Fin (E r s i j).
  Hypothesis Hv : forall r ps s i j a, r < N -> s < sims -> i < n -> j < n -> (0 <= a)%Qc ->
    nth (s * (n * n) + i * n + j) ps (NaN, NaN) = (Fin a, Fin c) ->
    snd (rng r (o_dist (b r))) ps (s * (n * n) + i * n + j) = Fin (V r s i j a).
  Hypothesis P1 : sumf 0 N p = 1%Qc.
  Hypothesis Dm : draw_moments N p sims n mu ms E.

  Lemma run_there : 0 < N.
  Proof. destruct N; [|lia]. rewrite sumf_0 in P1. discriminate. Qed.

  Lemma lost_sign i j : i + j < n -> alive n C j = false -> (M i j < 0)%Qc.
  Proof.
    assert (N0 := run_there).
    intros L K. destruct j as [|j]; [discriminate|]. cbn [alive] in K.
    destruct (qcleb_spec 1 (vol_factor n C j)) as [A|A]; [discriminate|]. clear K.
    rewrite (fit_cells gm rt m n C M cl rl ind w sims par (rng 0) (b 0) R P Hn Ev Hi Hl (B 0 N0) (Rm 0 N0) i (S j) L). cbn [incr_of].
    assert (Vp : forall k, k < n - 1 -> (0 < vol_factor n C k)%Qc) by (intros k Hk; apply vol_pos; auto; lia).
    rewrite fitc_step by (auto; lia).
    assert (F : (0 < fitc n C (vol_factor n C) i j)%Qc) by (apply fitc_pos; auto; lia).
    assert (Q : (fitc n C (vol_factor n C) i j * vol_factor n C j - fitc n C (vol_factor n C) i j
                 = - (fitc n C (vol_factor n C) i j * (1 - vol_factor n C j)))%Qc) by ring.
    rewrite Q. assert (G : (0 < fitc n C (vol_factor n C) i j * (1 - vol_factor n C j))%Qc) by (apply qc_mul_pos; [exact F|qlra]). qlra.
  Qed.

  Lemma c101_fall s i : s < sims -> 0 < i < n -> alive n C (n - 1 - i) = true ->
    let o := nth i (m_idx m) 0%Z in
    let rho := sumf 0 (n - i) (fun j => if alive n C j then root (M i j) else 0%Qc) in
    let lost := sumf 0 (n - i) (fun j => if alive n C j then 0 else - M i j)%Qc in
    exists L : nat -> Qc,
      (forall r, r < N -> map v_latest (filter (fun x => (v_sim x =? s) && (v_o x =? o)%Z) (o_reserves (b r))) = [Fin (L r)]) /\
      average N p L = (C i (n - 1 - i)%nat + lost + mu * rho)%Qc /\ (0 <= lost)%Qc /\
      ((exists k, k < n - 1 - i /\ (vol_factor n C k < 1)%Qc) -> (0 < lost)%Qc).
  Proof.
    intros Hs [I0 L] Kl o rho lost.
    assert (N0 := run_there).
    assert (Fr : sumf 0 (n - i) (M i) = C i (n - 1 - i)).
    { exact (fit_row gm rt m n C M cl rl ind w sims par (rng 0) (b 0) R P Hn Ev Hi Hl (B 0 N0) (Rm 0 N0) i L). }
    assert (R' := R). apply regular_rmat in R' as (_ & So & Sd & Lo & Ld).
    exists (fun r => sumf 0 (n - i) (fun j => if alive n C j then (M i j + E r s i j * root (M i j))%Qc else 0%Qc)).
    split; [|split; [|split]].
    - intros r Hr.
      assert (Oi : forall y, y < n -> (nth y (m_idx m) 0%Z =? nth i (m_idx m) 0%Z)%Z = (y =? i)).
      { intros y Hy. destruct (Nat.eqb_spec y i) as [->|D]; [apply Z.eqb_refl|]. apply Z.eqb_neq.
        destruct (Nat.lt_ge_cases y i) as [Q|Q].
        - assert (W := zsorted_nth (m_idx m) y i 0%Z So ltac:(lia)). lia.
        - assert (W := zsorted_nth (m_idx m) i y 0%Z So ltac:(lia)). lia. }
      assert (Sel : forall (F : nat -> nat -> rrec), (forall y z, v_sim (F y z) = z /\ v_o (F y z) = nth y (m_idx m) 0%Z) ->
        filter (fun r => (v_sim r =? s) && (v_o r =? nth i (m_idx m) 0)%Z) (flat_map (fun y => map (F y) (seq 0 sims)) (seq 0 n)) = [F i s]).
      { intros F HF. rewrite (filter_flat_one _ n _ i L).
        - apply (filter_one _ sims (F i) s Hs). intros z Hz. destruct (HF i z) as (-> & ->). rewrite Oi, Nat.eqb_refl by auto. apply andb_true_r.
        - intros y Hy D. apply filter_none. intro z. destruct (HF y z) as (-> & ->). rewrite Oi by auto. rewrite (proj2 (Nat.eqb_neq y i) D). apply andb_false_r. }
      assert (W := c98_any gm rt root m n C M cl rl ind w sims par (rng r) (b r) c (E r) (V r) R P Hn Ev Hi Hl Cl Rl Rt Ro (B r Hr) (Sc r Hr) Cp (Rm r Hr)
        (fun s i j => He r s i j Hr) (fun ps s i j a => Hv r ps s i j a Hr)).
      cbv zeta in W. unfold o. rewrite W, Sel by (intros; split; reflexivity). clear W. cbn [map v_latest].
      rewrite Kl, (proj2 (Nat.eqb_neq i 0)) by lia. cbn [negb andb]. apply (f_equal (fun v => [Fin v])).
      unfold resampled_at. replace (S (n - 1 - i)) with (n - i) by lia. reflexivity.
    - rewrite (avg_sumf N p P1). unfold rho, lost. rewrite <- sumf_mulc, <- Fr, <- !sumf_add. apply sumf_ext. intros j Hj.
      destruct (Dm s i j Hs ltac:(lia)) as (D & _). destruct (alive n C j).
      + rewrite (avg_ext N p _ (fun r => M i j + root (M i j) * E r s i j)%Qc) by (intros; ring).
        rewrite avg_add, (avg_const N p P1), avg_mul, D. ring.
      + rewrite (avg_const N p P1). ring.
    - apply sumf_nonneg. intros j Hj. destruct (alive n C j) eqn:K; [apply Qcle_refl|].
      assert (W := lost_sign i j ltac:(lia) K). qlra.
    - intros (k & Hk & Fk). unfold lost.
      replace (n - i) with (S k + (n - i - S k)) by lia. rewrite sumf_split.
      assert (K : alive n C (S k) = false).
      { cbn [alive]. destruct (qcleb_spec 1 (vol_factor n C k)) as [A|A]; [exfalso; qlra|reflexivity]. }
      replace (n - i - S k) with (S (n - i - S k - 1)) by lia. rewrite (sumf_Sl (0 + S k)). cbn [Nat.add].
      assert (A1 : (0 <= sumf 0 (S k) (fun j => if alive n C j then 0 else - M i j))%Qc).
      { apply sumf_nonneg. intros j Hj. destruct (alive n C j) eqn:Kj; [apply Qcle_refl|]. assert (W := lost_sign i j ltac:(lia) Kj). qlra. }
      assert (A2 : (0 <= sumf (S (S k)) (n - i - S k - 1) (fun j => if alive n C j then 0 else - M i j))%Qc).
      { apply sumf_nonneg. intros j Hj. destruct (alive n C j) eqn:Kj; [apply Qcle_refl|]. assert (W := lost_sign i j ltac:(lia) Kj). qlra. }
      rewrite K. assert (W := lost_sign i (S k) ltac:(lia) K). qlra.
  Qed.
End Runs.
