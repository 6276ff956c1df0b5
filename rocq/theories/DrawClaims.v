(** Proofs of C101. *)

From Coq Require Import String QArith Qcanon ZArith List Bool Lia Permutation Sorting.Sorted.
From Verif Require Import Val Frame Triangle A2A Base Mack Boot ListLib QcLib Spec Spec2 SpecSim SpecAny SpecProc SpecDraw TblFacts ConvFacts FillFacts
  TriClaims4 RegFacts AvgFacts MackFacts BuildFacts BaseClaims BootFit BootLib BootSim BootClaims BootNoise BootClaims2 BootForm SimClaims AnyClaims ProcClaims.
Import ListNotations.
Open Scope string_scope.
Open Scope list_scope.
Open Scope nat_scope.

(** One run. *)
Section Run.
  Variables (gm : list val -> val) (rt : val -> val) (root : Qc -> Qc) (m : lmat) (n : nat) (C M : nat -> nat -> Qc)
         (cl rl : list nat) (ind : list (list val)) (w : nat -> nat -> bool) (sims : nat) (par : bool)
         (rng : list val -> (nat -> val) * (list (val * val) -> nat -> val)) (b : boot_result) (c : Qc)
         (E : nat -> nat -> nat -> Qc) (V : nat -> nat -> nat -> Qc -> Qc).
  Hypothesis R : regular m n C.
  Hypothesis P : positive n C.
  Hypothesis Hn : 2 < n.
  Hypothesis Ev : tail_fits (m_cols m).
  Hypothesis Hi : forall i j, i + j < n - 1 -> cell ind i j = Fin (if w i j then 1 else 0)%Qc.
  Hypothesis Hl : forall j, j < n - 1 -> w (n - 2 - j) j = true.
  Hypothesis Cl : clvi m = Ok cl.
  Hypothesis Rl : rlvi m = Ok rl.
  Hypothesis Rt : root_like rt.
  Hypothesis Ro : forall q, (0 <= q)%Qc -> rt (Fin q) = Fin (root q).
  Hypothesis B : boot_cl gm rt (mkTri m "origin" "dev" "value") cl rl ind sims par rng = Ok b.
  Hypothesis Rm : regular (o_fit_incr b) n M.

  Lemma fit_cells i j : i + j < n -> M i j = incr_of (fitc n C (vol_factor n C)) i j.
  Proof.
    assert (R' := R). apply regular_rmat in R' as (Em & So & Sd & Lo & Ld).
    assert (Of : o_fit_incr b = rmat (m_idx m) (m_cols m) n (incr_of (fitc n C (vol_factor n C)))).
    { assert (B' := B). rewrite (boot_eq m n C R P Hn Ev ind w Hi Hl) in B'. cbv zeta in B'.
      destruct (negb par && _ && _); [discriminate|]. injection B' as <-. reflexivity. }
    rewrite Of in Rm. revert i j. apply (regular_inj n Hn (rmat (m_idx m) (m_cols m) n (incr_of (fitc n C (vol_factor n C))))); auto.
    apply rmat_regular; auto.
  Qed.

  Lemma fit_row i : i < n -> sumf 0 (n - i) (M i) = C i (n - 1 - i).
  Proof.
    intro L. rewrite (sumf_ext _ _ _ (incr_of (fitc n C (vol_factor n C)) i)) by (intros; apply fit_cells; lia).
    replace (n - i) with (S (n - 1 - i)) by lia. rewrite incr_row_gen. apply fitc_last.
  Qed.

  Lemma fit_first i : i < n -> (0 < M i 0)%Qc.
  Proof.
    intro L. rewrite fit_cells by lia. cbn [incr_of]. apply fitc_pos; auto; [|lia]. intros k Hk. apply vol_pos; auto; lia.
  Qed.

  Lemma fit_nonneg i j : i + j < n -> (forall k, k < n - 1 - i -> (1 <= vol_factor n C k)%Qc) -> (0 <= M i j)%Qc.
  Proof.
    intros L F1. destruct j as [|j]; [apply Qclt_le_weak, fit_first; lia|]. rewrite fit_cells by lia. cbn [incr_of].
    assert (Vp : forall k, k < n - 1 -> (0 < vol_factor n C k)%Qc) by (intros k Hk; apply vol_pos; auto; lia).
    rewrite fitc_step by auto.
    assert (A : (0 < fitc n C (vol_factor n C) i j)%Qc) by (apply fitc_pos; auto; lia).
    assert (Q : (fitc n C (vol_factor n C) i j * vol_factor n C j - fitc n C (vol_factor n C) i j
                 = fitc n C (vol_factor n C) i j * (vol_factor n C j - 1))%Qc) by ring.
    rewrite Q. apply qc_mul_nonneg; [apply Qclt_le_weak; exact A|]. assert (W := F1 j ltac:(lia)). qlra.
  Qed.

  Lemma root_pos q : (0 < q)%Qc -> (0 < root q)%Qc.
  Proof.
    intro Q. destruct Rt as (_ & _ & Rp & _). destruct (Rp q Q) as (x & X & Ex).
    rewrite Ro in Ex by (apply Qclt_le_weak; auto). assert (root q = x) by congruence. congruence.
  Qed.
  Lemma root_nonneg q : (0 <= q)%Qc -> (0 <= root q)%Qc.
  Proof.
    intro Q. destruct (qc_lt_le_dec 0 q) as [A|A]; [apply Qclt_le_weak, root_pos; auto|].
    assert (q = 0)%Qc by (apply Qcle_antisym; auto). subst. destruct Rt as (_ & R0 & _). rewrite Ro in R0 by apply Qcle_refl.
    assert (Z : root 0 = 0%Qc) by congruence. rewrite Z. apply Qcle_refl.
  Qed.
  Lemma roots_pos i : i < n -> (forall k, k < n - 1 - i -> (1 <= vol_factor n C k)%Qc) -> (0 < sumf 0 (n - i) (fun j => root (M i j)))%Qc.
  Proof.
    intros L F1. replace (n - i) with (S (n - 1 - i)) by lia. rewrite sumf_Sl.
    assert (A := root_pos _ (fit_first i L)).
    assert (D : (0 <= sumf 1 (n - 1 - i) (fun j => root (M i j)))%Qc).
    { apply sumf_nonneg. intros j Hj. apply root_nonneg, fit_nonneg; auto; lia. }
    qlra.
  Qed.

  Hypothesis Sc : o_scale b = Fin c.
  Hypothesis Cp : (0 < c)%Qc.
  Hypothesis He : forall s i j, s < sims -> i < n -> j < n -> fst (rng (o_dist b)) (s * (n * n) + i * n + j) = Fin (E s i j).
  Hypothesis Hv : forall ps s i j a, s < sims -> i < n -> j < n -> (0 <= a)%Qc ->
    nth (s * (n * n) + i * n + j) ps (NaN, NaN) = (Fin a, Fin c) ->
    snd (rng (o_dist b)) ps (s * (n * n) + i * n + j) = Fin (V s i j a).

  Lemma latest_run s i : s < sims -> i < n -> (i = 0 -> nth 0 (m_cols m) 0%Z = 1%Z) ->
    (forall k, k < n - 1 - i -> (1 <= vol_factor n C k)%Qc) ->
    map v_latest (filter (fun r => (v_sim r =? s) && (v_o r =? nth i (m_idx m) 0)%Z) (o_reserves b))
    = [Fin (sumf 0 (n - i) (fun j => M i j + E s i j * root (M i j))%Qc)].
  Proof.
    intros Hs L D1 F1. assert (R' := R). apply regular_rmat in R' as (_ & So & Sd & Lo & Ld).
    assert (Kp : forall j, j <= n - 1 - i -> alive n C j = true).
    { intros j Hj. destruct j as [|j]; [reflexivity|]. cbn [alive]. destruct (qcleb_spec 1 (vol_factor n C j)) as [A|A]; [reflexivity|].
      exfalso. apply A. apply F1. lia. }
    set (T := fun s => resampled_at (alive n C) M (E s) root).
    assert (Et : forall j, j <= n - 1 - i -> T s i j = sumf 0 (S j) (fun k => M i k + E s i k * root (M i k))%Qc).
    { intros j Hj. unfold T, resampled_at. apply sumf_ext. intros k Hk. rewrite Kp by lia. reflexivity. }
    assert (Oi : forall y, y < n -> (nth y (m_idx m) 0%Z =? nth i (m_idx m) 0%Z)%Z = (y =? i)).
    { intros y Hy. destruct (Nat.eqb_spec y i) as [->|D]; [apply Z.eqb_refl|]. apply Z.eqb_neq.
      destruct (Nat.lt_ge_cases y i) as [Q|Q].
      - assert (W := zsorted_nth (m_idx m) y i 0%Z So ltac:(lia)). lia.
      - assert (W := zsorted_nth (m_idx m) i y 0%Z So ltac:(lia)). lia. }
    assert (Sel : forall (F : nat -> nat -> rrec), (forall y z, v_sim (F y z) = z /\ v_o (F y z) = nth y (m_idx m) 0%Z) ->
      filter (fun r => (v_sim r =? s) && (v_o r =? nth i (m_idx m) 0)%Z) (flat_map (fun y => map (F y) (seq 0 sims)) (seq 0 n)) = [F i s]).
    { intros F HF. rewrite (filter_flat_one _ n _ i L).
      - apply (filter_one _ sims (F i) s Hs). intros z Hz. destruct (HF i z) as (-> & ->). rewrite Oi, Nat.eqb_refl by auto. apply andb_true_r.
      - intros y Hy D. apply filter_none. intro z. destruct (HF y z) as (-> & ->). rewrite Oi by auto. rewrite (proj2 (Nat.eqb_neq y i) D). apply andb_false_r. }
    assert (W := c98_any gm rt root m n C M cl rl ind w sims par rng b c E V R P Hn Ev Hi Hl Cl Rl Rt Ro B Sc Cp Rm He Hv).
    cbv zeta in W. rewrite W, Sel by (intros; split; reflexivity). clear W. cbn [map v_latest].
    apply (f_equal (fun v => [v])). rewrite Kp by lia. rewrite andb_true_r. fold T.
    replace (n - i) with (S (n - 1 - i)) by lia. rewrite <- Et by lia.
    destruct (Nat.eqb_spec i 0) as [->|D]; [|reflexivity]. cbn [negb andb].
    replace (n - 1 - 0) with (n - 1) in * by lia. rewrite Kp by lia. cbn [negb].
    apply (f_equal Fin). unfold total. specialize (D1 eq_refl).
    assert (Pt : forall j, j < n -> path n (alive n C) (factor n (alive n C) T s) (T s) 0 j = Some (T s 0 j)).
    { intros j Hj. unfold path. cbn [Nat.eqb]. rewrite Kp by lia. reflexivity. }
    assert (Bk : forall j, j < n -> booked n (m_cols m) (path n (alive n C) (factor n (alive n C) T s) (T s) 0) c (V s 0) 0 j = incr_of (T s) 0 j).
    { intros j Hj. unfold booked. rewrite (proj2 (Nat.ltb_lt (0 + j) n)) by lia. unfold step. rewrite Pt by auto. cbn [or_].
      destruct j as [|j].
      - rewrite D1. cbn [Z.eqb Pos.eqb incr_of]. ring.
      - rewrite Pt by lia. cbn [incr_of]. destruct (Z.eqb_spec (nth (S j) (m_cols m) 0%Z) 1) as [Q|Q]; [|ring].
        exfalso. assert (W := zsorted_nth (m_cols m) 0 (S j) 0%Z Sd ltac:(lia)). lia. }
    rewrite (sumf_ext _ _ _ (incr_of (T s) 0)) by (intros; apply Bk; lia).
    replace n with (S (n - 1)) at 1 by lia. apply incr_row_gen.
  Qed.
End Run.

(** All runs. *)
Section Runs.
  Variables (gm : list val -> val) (rt : val -> val) (root : Qc -> Qc) (m : lmat) (n : nat) (C M : nat -> nat -> Qc)
         (cl rl : list nat) (ind : list (list val)) (w : nat -> nat -> bool) (sims : nat) (par : bool) (c mu ms : Qc)
         (N : nat) (p : nat -> Qc) (rng : nat -> list val -> (nat -> val) * (list (val * val) -> nat -> val)) (b : nat -> boot_result)
         (E : nat -> nat -> nat -> nat -> Qc) (V : nat -> nat -> nat -> nat -> Qc -> Qc).
  Hypothesis R : regular m n C.
  Hypothesis P : positive n C.
  Hypothesis Hn : 2 < n.
  Hypothesis Ev : tail_fits (m_cols m).
  Hypothesis Hi : forall i j, i + j < n - 1 -> cell ind i j = Fin (if w i j then 1 else 0)%Qc.
  Hypothesis Hl : forall j, j < n - 1 -> w (n - 2 - j) j = true.
  Hypothesis Cl : clvi m = Ok cl.
  Hypothesis Rl : rlvi m = Ok rl.
  Hypothesis Rt : root_like rt.
  Hypothesis Ro : forall q, (0 <= q)%Qc -> rt (Fin q) = Fin (root q).
  Hypothesis B : forall r, r < N -> boot_cl gm rt (mkTri m "origin" "dev" "value") cl rl ind sims par (rng r) = Ok (b r).
  Hypothesis Sc : forall r, r < N -> o_scale (b r) = Fin c.
  Hypothesis Cp : (0 < c)%Qc.
  Hypothesis Rm : forall r, r < N -> regular (o_fit_incr (b r)) n M.
  Hypothesis He : forall r s i j, r < N -> s < sims -> i < n -> j < n -> fst (rng r (o_dist (b r))) (s * (n * n) + i * n + j) = Fin (E r s i j).
  Hypothesis Hv : forall r ps s i j a, r < N -> s < sims -> i < n -> j < n -> (0 <= a)%Qc ->
    nth (s * (n * n) + i * n + j) ps (NaN, NaN) = (Fin a, Fin c) ->
    snd (rng r (o_dist (b r))) ps (s * (n * n) + i * n + j) = Fin (V r s i j a).
  Hypothesis P1 : sumf 0 N p = 1%Qc.
  Hypothesis Dm : draw_moments N p sims n mu ms E.

  Lemma some_run : 0 < N.
  Proof. destruct N; [|lia]. rewrite sumf_0 in P1. discriminate. Qed.

  Lemma c101 s i : s < sims -> i < n -> (i = 0 -> nth 0 (m_cols m) 0%Z = 1%Z) ->
    (forall k, k < n - 1 - i -> (1 <= vol_factor n C k)%Qc) ->
    let o := nth i (m_idx m) 0%Z in
    let rho := sumf 0 (n - i) (fun j => root (M i j)) in
    exists L : nat -> Qc,
      (forall r, r < N -> map v_latest (filter (fun x => (v_sim x =? s) && (v_o x =? o)%Z) (o_reserves (b r))) = [Fin (L r)]) /\
      average N p L = (C i (n - 1 - i)%nat + mu * rho)%Qc /\ (0 < rho)%Qc /\
      ((forall j, i + j < n -> (root (M i j) * root (M i j) = M i j)%Qc) ->
         average N p (fun r => (L r - average N p L) * (L r - average N p L))%Qc = ((ms - mu * mu) * C i (n - 1 - i)%nat)%Qc).
  Proof.
    intros Hs L D1 F1 o rho.
    assert (N0 := some_run).
    assert (Fr : sumf 0 (n - i) (M i) = C i (n - 1 - i)).
    { exact (fit_row gm rt m n C M cl rl ind w sims par (rng 0) (b 0) R P Hn Ev Hi Hl (B 0 N0) (Rm 0 N0) i L). }
    exists (fun r => sumf 0 (n - i) (fun j => M i j + E r s i j * root (M i j))%Qc).
    assert (Av : average N p (fun r => sumf 0 (n - i) (fun j => M i j + E r s i j * root (M i j))%Qc) = (C i (n - 1 - i)%nat + mu * rho)%Qc).
    { rewrite (avg_sumf N p P1). unfold rho. rewrite <- sumf_mulc, <- Fr, <- sumf_add. apply sumf_ext. intros j Hj.
      destruct (Dm s i j Hs ltac:(lia)) as (D & _).
      rewrite (avg_ext N p _ (fun r => M i j + root (M i j) * E r s i j)%Qc) by (intros; ring).
      rewrite avg_add, (avg_const N p P1), avg_mul, D. ring. }
    split; [|split; [exact Av|split]].
    - intros r Hr.
      exact (latest_run gm rt root m n C M cl rl ind w sims par (rng r) (b r) c (E r) (V r) R P Hn Ev Hi Hl Cl Rl Rt Ro (B r Hr) (Rm r Hr) (Sc r Hr) Cp
        (fun s i j => He r s i j Hr) (fun ps s i j a => Hv r ps s i j a Hr) s i Hs L D1 F1).
    - exact (roots_pos gm rt root m n C M cl rl ind w sims par (rng 0) (b 0) R P Hn Ev Hi Hl Rt Ro (B 0 N0) (Rm 0 N0) i L F1).
    - intro Sq. rewrite Av.
      set (D := fun r j => ((E r s i j - mu) * root (M i j))%Qc).
      rewrite (avg_ext N p _ (fun r => sumf 0 (n - i) (D r) * sumf 0 (n - i) (D r))%Qc).
      2:{ intros r Hr.
          assert (Q : (sumf 0 (n - i) (fun j => M i j + E r s i j * root (M i j)) - (C i (n - 1 - i)%nat + mu * rho) = sumf 0 (n - i) (D r))%Qc).
          { set (X := fun j => (M i j + E r s i j * root (M i j))%Qc). set (Y := fun j => (M i j + mu * root (M i j))%Qc).
            assert (Q1 : (C i (n - 1 - i)%nat + mu * rho = sumf 0 (n - i) Y)%Qc) by (unfold rho, Y; rewrite <- sumf_mulc, <- Fr, <- sumf_add; reflexivity).
            assert (Q2 : sumf 0 (n - i) (D r) = sumf 0 (n - i) (fun j => X j + (- (1)) * Y j)%Qc) by (apply sumf_ext; intros j Hj; unfold D, X, Y; ring).
            rewrite Q1, Q2, sumf_add, sumf_mulc. ring. }
          rewrite Q. reflexivity. }
      assert (Cov : forall j k e, average N p (fun r => E r s i j * E r s i k)%Qc = e -> j < n - i -> k < n - i ->
        average N p (fun r => D r j * D r k)%Qc = ((e - mu * mu) * (root (M i j) * root (M i k)))%Qc).
      { intros j k e He' Lj Lk. destruct (Dm s i j Hs ltac:(lia)) as (A1 & _). destruct (Dm s i k Hs ltac:(lia)) as (A2 & _).
        set (x := (root (M i j) * root (M i k))%Qc).
        rewrite (avg_ext N p _ (fun r => (x * (E r s i j * E r s i k) + (- (mu * x)) * E r s i j) + ((- (mu * x)) * E r s i k + mu * mu * x))%Qc)
          by (intros; unfold D, x; ring).
        rewrite !avg_add, !avg_mul, (avg_const N p P1), A1, A2, He'. ring. }
      rewrite (avg_square N p P1).
      + rewrite <- Fr, <- sumf_mulc. apply sumf_ext. intros j Hj. destruct (Dm s i j Hs ltac:(lia)) as (_ & A2 & _).
        rewrite (Cov j j ms A2) by lia. rewrite Sq by lia. reflexivity.
      + intros j k Hj Hk Djk. destruct (Dm s i j Hs ltac:(lia)) as (_ & _ & A3).
        rewrite (Cov j k (mu * mu)%Qc) by (try lia; apply A3; lia). ring.
  Qed.
End Runs.

(** The mean square of the residuals. *)
Definition sqv (v : val) : Qc := match v with Fin x => (x * x)%Qc | _ => 0%Qc end.

Lemma kept_squares vs l : (forall v, In v vs -> v = NaN \/ exists x, v = Fin x) -> filter keepv vs = map Fin l ->
  qsum (map (fun x => x * x)%Qc l) = qsum (map sqv vs).
Proof.
  revert l. induction vs as [|v vs IH]; intros l H Q.
  - cbn in Q. destruct l; [reflexivity|discriminate].
  - assert (H' : forall v, In v vs -> v = NaN \/ exists x, v = Fin x) by (intros; apply H; right; auto).
    cbn [filter] in Q. destruct (H v (or_introl eq_refl)) as [->|(x & ->)].
    + cbn [keepv isnan negb andb] in Q. cbn [map sqv qsum]; rewrite (IH l H' Q). ring.
    + unfold keepv at 1 in Q. cbn [isnan negb andb veqb] in Q. destruct (qceqb_spec x 0) as [Z|D]; cbn [negb] in Q.
      * cbn [map sqv qsum]. rewrite (IH l H' Q), Z. ring.
      * destruct l as [|y l]; [discriminate|]. cbn [map] in Q. injection Q as Q1 Q2. subst y.
        cbn [map sqv qsum]; rewrite (IH l H' Q2). reflexivity.
Qed.
Lemma qsum_rows (F : nat -> list Qc) k : forall a, qsum (List.concat (map F (seq a k))) = sumf a k (fun i => qsum (F i)).
Proof.
  induction k as [|k IH]; intro a; [reflexivity|]. cbn [seq map List.concat]. rewrite qsum_app, IH, sumf_Sl. reflexivity.
Qed.
Lemma sumf_exchange (f : nat -> nat -> Qc) a k b l : sumf a k (fun i => sumf b l (fun j => f i j)) = sumf b l (fun j => sumf a k (fun i => f i j)).
Proof.
  induction k as [|k IH].
  - rewrite sumf_0. symmetry. apply sumf_eq0_zero. intros. apply sumf_0.
  - rewrite sumf_Sr, IH, <- sumf_add. apply sumf_ext. intros j Hj. rewrite sumf_Sr. reflexivity.
Qed.

Section Square.
  Variables (gm : list val -> val) (rt : val -> val) (m : lmat) (n : nat) (C : nat -> nat -> Qc)
         (cl rl : list nat) (ind : list (list val)) (w : nat -> nat -> bool) (sims : nat) (par : bool)
         (rng : list val -> (nat -> val) * (list (val * val) -> nat -> val)) (b : boot_result) (c k : Qc)
         (X : nat -> nat -> Qc) (l : list Qc).
  Hypothesis R : regular m n C.
  Hypothesis P : positive n C.
  Hypothesis Hn : 2 < n.
  Hypothesis Ev : tail_fits (m_cols m).
  Hypothesis Hi : forall i j, i + j < n - 1 -> cell ind i j = Fin (if w i j then 1 else 0)%Qc.
  Hypothesis Hl : forall j, j < n - 1 -> w (n - 2 - j) j = true.
  Hypothesis Rt : root_like rt.
  Hypothesis B : boot_cl gm rt (mkTri m "origin" "dev" "value") cl rl ind sims par rng = Ok b.
  Hypothesis HX : forall i j, i + j < n -> cell (m_cells (o_resid_us b)) i j = Fin (X i j) \/
                            (cell (m_cells (o_resid_us b)) i j = NaN /\ X i j = 0%Qc).
  Hypothesis Sc : o_scale b = Fin c.
  Hypothesis Kr : rt (vdiv (vz (Z.of_nat (n * (n + 1) / 2))) (vz (o_dof b))) = Fin k.
  Hypothesis Dl : o_dist b = map Fin l.

  Lemma c101_square : qsum (map (fun x => x * x)%Qc l) = (k * k * qz (o_dof b) * c)%Qc.
  Proof.
    assert (Sc' := c40_scale m n C R P Hn Ev ind w Hi Hl gm rt cl rl sims par rng b X B HX).
    assert (Hd := c40 m n C R P Hn Ev ind w Hi Hl gm rt Rt cl rl sims par rng b B).
    destruct (c40_resid m n C R P Hn Ev ind w Hi Hl gm rt cl rl sims par rng b B) as (D & _ & _ & _ & Hc).
    assert (Ds := c39 m n C R P Hn Ev ind w Hi Hl gm rt cl rl sims par rng b B).
    assert (Sh : exists h, m_cells (o_resid_adj b) = mk n n h).
    { assert (B' := B). rewrite (boot_eq m n C R P Hn Ev ind w Hi Hl) in B'. cbv zeta in B'.
      destruct (negb par && _ && _); [discriminate|]. injection B' as <-. cbn [o_resid_adj ra m_cells]. eexists. reflexivity. }
    destruct Sh as (h & Sh).
    assert (Eh : forall i j, i < n -> j < n -> (h i j = NaN \/ exists x, h i j = Fin x) /\
                 sqv (h i j) = if i + j <? n then (k * k * (X i j * X i j))%Qc else 0%Qc).
    { intros i j Li Lj. destruct (Hc i j Li Lj) as (H1 & H2). rewrite Sh, cell_mk in H2 by auto. rewrite Kr in H2.
      destruct (Nat.ltb_spec (i + j) n) as [L|L].
      - destruct (HX i j L) as [Q|(Q & Z)]; rewrite Q in H2; rewrite H2; cbn [vmul sqv].
        + split; [eauto|ring].
        + split; [auto|]. rewrite Z. ring.
      - rewrite H1 in H2. rewrite H2. split; [auto|reflexivity]. }
    rewrite Dl, Sh in Hd. symmetry in Hd.
    rewrite (kept_squares (List.concat (mk n n h)) l).
    2:{ intros v Hv. apply in_concat in Hv as (row & Hr & Hv). unfold mk in Hr. apply in_map_iff in Hr as (i & <- & Hi').
        apply in_map_iff in Hv as (j & <- & Hj). apply in_seq in Hi', Hj. apply Eh; lia. }
    2:{ exact Hd. }
    rewrite concat_map. unfold mk. rewrite map_map, qsum_rows.
    rewrite (sumf_ext _ _ _ (fun i => sumf 0 n (fun j => if i + j <? n then (k * k * (X i j * X i j))%Qc else 0%Qc))).
    2:{ intros i Li. rewrite map_map. unfold sumf. f_equal. apply map_seq_ext. intros j Lj. apply Eh; lia. }
    rewrite sumf_exchange.
    rewrite (sumf_ext _ _ _ (fun j => (k * k) * sumf 0 (n - j) (fun i => X i j * X i j)))%Qc.
    2:{ intros j Lj. rewrite <- sumf_mulc. replace n with ((n - j) + j) at 1 by lia. rewrite sumf_split.
        rewrite (sumf_eq0_zero (0 + (n - j)) j) by (intros i Li; rewrite (proj2 (Nat.ltb_ge (i + j) n)) by lia; reflexivity).
        rewrite (sumf_ext _ _ _ (fun i => k * k * (X i j * X i j)))%Qc; [ring|].
        intros i Li. rewrite (proj2 (Nat.ltb_lt (i + j) n)) by lia. reflexivity. }
    rewrite sumf_mulc. rewrite Sc in Sc'. injection Sc' as Ec. rewrite Ec. 
    assert (Z : qz (o_dof b) <> 0%Qc).
    { assert (0 <= n * (n + 1) / 2) by apply Nat.le_0_l. intro Q. change (Q2Qc 0) with (qz 0) in Q. apply qz_inj in Q. lia. }
    field. exact Z.
  Qed.
End Square.

Lemma bias_sign (a : Qc) (l : list Qc) (rho : Qc) : (0 < rho)%Qc -> l <> [] ->
  ((a + mean_of l * rho)%Qc = a <-> qsum l = 0%Qc) /\
  ((a < a + mean_of l * rho)%Qc <-> (0 < qsum l)%Qc) /\
  ((a + mean_of l * rho < a)%Qc <-> (qsum l < 0)%Qc).
Proof.
  intros Hr Nl.
  assert (Kp : (0 < rho / qz (Z.of_nat (List.length l)))%Qc).
  { apply qc_div_pos; auto. change 0%Qc with (qz 0). apply qz_lt. destruct l; [congruence|cbn; lia]. }
  unfold mean_of. set (k := (rho / qz (Z.of_nat (List.length l)))%Qc) in *.
  replace (a + qsum l / qz (Z.of_nat (List.length l)) * rho)%Qc with (a + qsum l * k)%Qc by (unfold k, Qcdiv; ring).
  assert (S1 : (0 < qsum l -> 0 < qsum l * k)%Qc) by (intro; apply qc_mul_pos; auto).
  assert (S2 : (qsum l < 0 -> qsum l * k < 0)%Qc).
  { intro H. assert (Q : (0 < (- qsum l) * k)%Qc) by (apply qc_mul_pos; auto; qlra).
    assert (Q2 : (qsum l * k = - ((- qsum l) * k))%Qc) by ring. rewrite Q2. qlra. }
  assert (S3 : (qsum l = 0 -> qsum l * k = 0)%Qc) by (intros ->; ring).
  destruct (qc_lt_le_dec 0 (qsum l)) as [A|A]; [specialize (S1 A)|destruct (qc_lt_le_dec (qsum l) 0) as [A'|A']; [specialize (S2 A')|]].
  - clear S2 S3. repeat split; intro H; try qlra.
  - clear S1 S3. repeat split; intro H; try qlra.
  - assert (Z : qsum l = 0%Qc) by (apply Qcle_antisym; auto). specialize (S3 Z). rewrite S3, Z. clear.
    repeat split; intro H; try ring; try qlra.
Qed.
