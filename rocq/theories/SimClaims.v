(** Proof of C74: every record of the simulated reserves. *)

From Coq Require Import String QArith Qcanon ZArith List Bool Lia Permutation Sorting.Sorted.
From Verif Require Import Val Frame Triangle A2A Base Mack Boot ListLib QcLib Spec Spec2 SpecSim TblFacts ConvFacts FillFacts
  TriClaims4 RegFacts AvgFacts MackFacts BuildFacts BaseClaims BootFit BootLib BootSim BootClaims BootNoise BootClaims2 BootForm.
Import ListNotations.
Open Scope string_scope.
Open Scope list_scope.
Open Scope nat_scope.

Lemma abs_sign x : (sign_ x * abs_ x)%Qc = x.
Proof.
  unfold sign_, abs_. destruct (qcltb_spec 0 x) as [A|A]; destruct (qcltb_spec x 0) as [B|B].
  - exfalso. apply (Qclt_not_le _ _ A). apply Qclt_le_weak; auto.
  - ring.
  - ring.
  - apply Qcnot_lt_le in A, B. assert (x = 0)%Qc as -> by (apply Qcle_antisym; auto). ring.
Qed.

(** Variates at their means: the chain ladder on the resampled triangle. *)
Lemma future_mean n T c V i : (0 < c)%Qc -> i < n -> (forall j a, n - i <= j < n -> V j a = (a * c)%Qc) ->
  (T i (n - 1 - i)%nat + future n T c V i)%Qc = developed n T i (n - 1).
Proof.
  intros Cp Hi H. assert (Z0 : c <> 0%Qc) by (apply qc_pos_neq; auto). unfold future.
  rewrite (sumf_ext _ _ _ (fun j => forecast n T i j)).
  - assert (E : T i (n - 1 - i) = developed n T i (n - 1 - i)) by (unfold developed; rewrite ltb_if by lia; auto). rewrite E.
    assert (G : forall k, (developed n T i (n - 1 - i) + sumf (n - i) k (fun j => forecast n T i j))%Qc = developed n T i (n - 1 - i + k)).
    { induction k as [|k IH].
      - rewrite sumf_0, Nat.add_0_r. ring.
      - rewrite sumf_Sr, Qcplus_assoc, IH. replace (n - i + k) with (S (n - 1 - i + k)) by lia. unfold forecast. cbn [incr_of].
        replace (n - 1 - i + S k) with (S (n - 1 - i + k)) by lia. ring. }
    rewrite G. f_equal. lia.
  - intros j Hj. rewrite H by lia. replace (abs_ (forecast n T i j) / c * c)%Qc with (abs_ (forecast n T i j)) by (field; auto).
    apply abs_sign.
Qed.

Section Call.
  Variables (m : lmat) (n : nat) (C : nat -> nat -> Qc).
  Hypothesis R : regular m n C.
  Hypothesis P : positive n C.
  Hypothesis Hn : 2 < n.
  Hypothesis Ev : tail_fits (m_cols m).
  Variables (ind : list (list val)) (w : nat -> nat -> bool).
  Hypothesis Hi : forall i j, i + j < n - 1 -> cell ind i j = Fin (if w i j then 1 else 0)%Qc.
  Hypothesis Hl : forall j, j < n - 1 -> w (n - 2 - j) j = true.
  Variables (gm : list val -> val) (rt : val -> val) (root : Qc -> Qc).
  Variables (cl rl : list nat).
  Hypothesis Cl : clvi m = Ok cl.
  Hypothesis Rl : rlvi m = Ok rl.
  Hypothesis Rt : root_like rt.
  Hypothesis Ro : forall q, (0 <= q)%Qc -> rt (Fin q) = Fin (root q).
  Hypothesis F1 : forall j, j < n - 1 -> (1 <= vol_factor n C j)%Qc.
  Hypothesis D1 : (1 <= nth 0 (m_cols m) 0)%Z.

  Lemma regular_inj mm A B : regular mm n A -> regular mm n B -> forall i j, i + j < n -> A i j = B i j.
  Proof.
    intros (_ & _ & _ & _ & _ & _ & H1) (_ & _ & _ & _ & _ & _ & H2) i j L.
    assert (Q := H1 i j ltac:(lia) ltac:(lia)). rewrite H2 in Q by lia. rewrite !ltb_if in Q by auto. congruence.
  Qed.

  Lemma c74_gen sims par rng b c M E V :
    boot_cl gm rt (mkTri m "origin" "dev" "value") cl rl ind sims par rng = Ok b ->
    o_scale b = Fin c -> (0 < c)%Qc -> regular (o_fit_incr b) n M ->
    (forall s i j, s < sims -> i < n -> j < n -> fst (rng (o_dist b)) (s * (n * n) + i * n + j) = Fin (E s i j)) ->
    (forall ps s i j a, s < sims -> i < n -> j < n -> (0 <= a)%Qc ->
       nth (s * (n * n) + i * n + j) ps (NaN, NaN) = (Fin a, Fin c) ->
       snd (rng (o_dist b)) ps (s * (n * n) + i * n + j) = Fin (V s i j a)) ->
    let T s := resampled M (E s) root in
    (forall s j, s < sims -> j < n - 1 -> sumf 0 (n - 1 - j) (fun i => T s i j) <> 0%Qc) ->
    let seen s i := if (nth 0 (m_cols m) 0 =? 1)%Z then T s i (n - 1 - i) else (T s i (n - 1 - i)%nat - T s i 0%nat)%Qc in
    let ult s i := (seen s i + future n (T s) c (V s i) i)%Qc in
    o_reserves b = flat_map (fun i => map (fun s =>
        mkR s (nth i (m_idx m) 0%Z) (Fin (if i =? 0 then ult s i else T s i (n - 1 - i))) (Fin (ult s i))
            (Fin (if i =? 0 then 0 else ult s i - T s i (n - 1 - i)%nat)%Qc)) (seq 0 sims)) (seq 0 n).
  Proof.
    intros B Sc Cp Rm He Hv T Nz seen ult.
    assert (R' := R). apply regular_rmat in R' as (Em & So & Sd & Lo & Ld).
    assert (El : cl = map (fun j => n - 1 - j) (seq 0 n) /\ rl = map (fun i => n - 1 - i) (seq 0 n)).
    { rewrite Em in Cl, Rl. rewrite r_clvi in Cl by (auto; lia). rewrite r_rlvi in Rl by (auto; lia). split; congruence. }
    destruct El as (El & Er).
    rewrite (boot_eq m n C R P Hn Ev ind w Hi Hl) in B. cbv zeta in B.
    destruct (negb par && _ && _); [discriminate|]. injection B as <-.
    cbn [o_scale o_ldfs o_reserves o_summary o_total o_dist o_fit_incr] in *.
    set (fi := incr_of (fitc n C (vol_factor n C))) in *.
    set (resid := fst (rng (sampling_dist (ra m n C rt)))) in *.
    assert (Mf : forall i j, i + j < n -> M i j = fi i j).
    { apply (regular_inj (rmat (m_idx m) (m_cols m) n fi)); auto.
      apply rmat_regular; auto. }
    assert (Nn : forall i j, i + j < n -> (0 <= fi i j)%Qc) by (apply (fi_nn (m_idx m) (m_cols m)); auto; lia).
    assert (Kt : forall s i j, s < sims -> i + j < n -> K n fi rt resid s i j = T s i j).
    { intros s i j Hs L. unfold K, T, resampled. apply sumf_ext. intros k Hk. unfold X.
      rewrite He by lia. cbn [fq]. rewrite Ro by (apply Nn; lia). cbn [fq]. rewrite Mf by lia. ring. }
    assert (Rf : forall k, k < sims * (n * n) -> exists q, resid k = Fin q).
    { intros k Hk. set (q := k / (n * n)). set (r := k mod (n * n)). set (i := r / n). set (j := r mod n).
      assert (N0 : n * n <> 0) by nia. assert (n <> 0) by lia.
      assert (k = n * n * q + r) by (apply Nat.div_mod; auto).
      assert (r < n * n) by (apply Nat.mod_upper_bound; auto).
      assert (r = n * i + j) by (apply Nat.div_mod; auto).
      assert (j < n) by (apply Nat.mod_upper_bound; auto).
      assert (q < sims) by (apply Nat.div_lt_upper_bound; auto; lia).
      assert (i < n) by (apply Nat.div_lt_upper_bound; auto; lia).
      exists (E q i j). rewrite <- He by auto. f_equal. lia. }
    rewrite Sc, El, Er. rewrite Em at 1.
    assert (Vx : forall s j, s < sims -> j < n - 1 -> vol_factor n (K n fi rt resid s) j = vol_factor n (T s) j).
    { intros s j Hs Hj. unfold vol_factor. apply (f_equal2 Qcdiv); apply sumf_ext; intros i Hi'; apply Kt; auto; lia. }
    rewrite (form_simulate (m_idx m) (m_cols m) n C So Sd Lo Ld ltac:(lia) P F1 D1 rt Rt sims resid Rf) with (V := V); auto.
    - apply flat_map_seq_ext. intros i Hi'. apply map_seq_ext. intros s Hs. unfold form_rec.
      assert (S1 : BootForm.seen (m_cols m) n C rt resid s i = seen s i).
      { unfold BootForm.seen, seen. fold fi. rewrite !Kt by lia. destruct (nth 0 (m_cols m) 0 =? 1)%Z; ring. }
      assert (S2 : fut n C rt resid c V s i = future n (T s) c (V s i) i).
      { unfold fut, future. fold fi. apply sumf_ext. intros j Hj.
        assert (Fe : forecast n (fun i0 j0 => K n fi rt resid s i0 j0) i j = forecast n (T s) i j).
        { unfold forecast. destruct j as [|j]; [lia|]. cbn [incr_of].
          assert (De : forall j', j' < n -> developed n (fun i0 j0 => K n fi rt resid s i0 j0) i j' = developed n (T s) i j').
          { intros j' Hj'. unfold developed. destruct (Nat.ltb_spec (i + j') n) as [A|A].
            - apply Kt; lia.
            - rewrite Kt by lia. f_equal. apply prodf_ext. intros k Hk. apply Vx; lia. }
          rewrite !De by lia. auto. }
        change (forecast n (K n fi rt resid s) i j) with (forecast n (fun i0 j0 => K n fi rt resid s i0 j0) i j).
        rewrite Fe. auto. }
      rewrite S1, S2. fold fi. rewrite Kt by lia. unfold ult. destruct (Nat.eqb_spec i 0) as [->|D]; auto.
      f_equal. f_equal. unfold future. rewrite sumf_0. ring.
    - intros s j Hs Hj. fold fi. rewrite (sumf_ext _ _ _ (fun i => T s i j)); [apply Nz; auto|].
      intros i Hi'. apply Kt; auto. lia.
  Qed.
End Call.

Section Call2.
  Variables (gm : list val -> val) (rt : val -> val) (root : Qc -> Qc) (m : lmat) (n : nat) (C M : nat -> nat -> Qc)
         (cl rl : list nat) (ind : list (list val)) (w : nat -> nat -> bool) (sims : nat) (par : bool)
         (rng : list val -> (nat -> val) * (list (val * val) -> nat -> val)) (b : boot_result) (c : Qc)
         (E : nat -> nat -> nat -> Qc) (V : nat -> nat -> nat -> Qc -> Qc).

  Lemma c74 :
    regular m n C -> positive n C -> 2 < n -> tail_fits (m_cols m) ->
    (forall i j, i + j < n - 1 -> cell ind i j = Fin (if w i j then 1 else 0)%Qc) ->
    (forall j, j < n - 1 -> w (n - 2 - j) j = true) ->
    clvi m = Ok cl -> rlvi m = Ok rl -> root_like rt -> (forall q, (0 <= q)%Qc -> rt (Fin q) = Fin (root q)) ->
    (forall j, j < n - 1 -> (1 <= vol_factor n C j)%Qc) ->
    nth 0 (m_cols m) 0%Z = 1%Z ->
    boot_cl gm rt (mkTri m "origin" "dev" "value") cl rl ind sims par rng = Ok b ->
    o_scale b = Fin c -> (0 < c)%Qc -> regular (o_fit_incr b) n M ->
    (forall s i j, s < sims -> i < n -> j < n -> fst (rng (o_dist b)) (s * (n * n) + i * n + j) = Fin (E s i j)) ->
    (forall ps s i j a, s < sims -> i < n -> j < n -> (0 <= a)%Qc ->
       nth (s * (n * n) + i * n + j) ps (NaN, NaN) = (Fin a, Fin c) ->
       snd (rng (o_dist b)) ps (s * (n * n) + i * n + j) = Fin (V s i j a)) ->
    let T s := resampled M (E s) root in
    (forall s j, s < sims -> j < n - 1 -> sumf 0 (n - 1 - j) (fun i => T s i j) <> 0%Qc) ->
    let latest s i := T s i (n - 1 - i) in
    let reserve s i := future n (T s) c (V s i) i in
    o_reserves b = flat_map (fun i => map (fun s =>
        mkR s (nth i (m_idx m) 0%Z) (Fin (latest s i)) (Fin (latest s i + reserve s i)%Qc) (Fin (reserve s i)))
      (seq 0 sims)) (seq 0 n).
  Proof.
    intros R P Hn Ev Hi Hl Cl Rl Rt Ro F1 D1 B Sc Cp Rm He Hv T Nz latest reserve.
    assert (W := c74_gen m n C R P Hn Ev ind w Hi Hl gm rt root cl rl Cl Rl Rt Ro F1 ltac:(lia) sims par rng b c M E V B Sc Cp Rm He Hv Nz).
    cbv zeta in W. rewrite W. apply flat_map_seq_ext. intros i _. apply map_ext. intro s. rewrite D1. cbn [Z.eqb Pos.eqb].
    fold (T s). unfold reserve, latest. destruct (Nat.eqb_spec i 0) as [->|D]; f_equal; f_equal; try ring.
    all: unfold future; rewrite sumf_0; ring.
  Qed.

  Lemma c74_label :
    regular m n C -> positive n C -> 2 < n -> tail_fits (m_cols m) ->
    (forall i j, i + j < n - 1 -> cell ind i j = Fin (if w i j then 1 else 0)%Qc) ->
    (forall j, j < n - 1 -> w (n - 2 - j) j = true) ->
    clvi m = Ok cl -> rlvi m = Ok rl -> root_like rt -> (forall q, (0 <= q)%Qc -> rt (Fin q) = Fin (root q)) ->
    (forall j, j < n - 1 -> (1 <= vol_factor n C j)%Qc) ->
    (1 < nth 0 (m_cols m) 0)%Z ->
    boot_cl gm rt (mkTri m "origin" "dev" "value") cl rl ind sims par rng = Ok b ->
    o_scale b = Fin c -> (0 < c)%Qc -> regular (o_fit_incr b) n M ->
    (forall s i j, s < sims -> i < n -> j < n -> fst (rng (o_dist b)) (s * (n * n) + i * n + j) = Fin (E s i j)) ->
    (forall ps s i j a, s < sims -> i < n -> j < n -> (0 <= a)%Qc ->
       nth (s * (n * n) + i * n + j) ps (NaN, NaN) = (Fin a, Fin c) ->
       snd (rng (o_dist b)) ps (s * (n * n) + i * n + j) = Fin (V s i j a)) ->
    let T s := resampled M (E s) root in
    (forall s j, s < sims -> j < n - 1 -> sumf 0 (n - 1 - j) (fun i => T s i j) <> 0%Qc) ->
    let first s i := (M i 0%nat + E s i 0%nat * root (M i 0%nat))%Qc in
    let latest s i := T s i (n - 1 - i) in
    let reserve s i := future n (T s) c (V s i) i in
    o_reserves b = flat_map (fun i => map (fun s =>
        mkR s (nth i (m_idx m) 0%Z)
          (Fin (if i =? 0 then latest s i - first s i else latest s i)%Qc)
          (Fin (latest s i + reserve s i - first s i)%Qc)
          (Fin (if i =? 0 then 0 else reserve s i - first s i)%Qc))
      (seq 0 sims)) (seq 0 n).
  Proof.
    intros R P Hn Ev Hi Hl Cl Rl Rt Ro F1 D1 B Sc Cp Rm He Hv T Nz first latest reserve.
    assert (W := c74_gen m n C R P Hn Ev ind w Hi Hl gm rt root cl rl Cl Rl Rt Ro F1 ltac:(lia) sims par rng b c M E V B Sc Cp Rm He Hv Nz).
    cbv zeta in W. rewrite W. apply flat_map_seq_ext. intros i _. apply map_ext. intro s.
    destruct (Z.eqb_spec (nth 0 (m_cols m) 0%Z) 1) as [Q|_]; [lia|].
    fold (T s).
    assert (Fe : T s i 0 = first s i) by (unfold T, resampled, first; rewrite sumf_Sl, sumf_0; ring).
    rewrite Fe. unfold reserve, latest. destruct (Nat.eqb_spec i 0) as [->|D]; f_equal; f_equal; try ring.
    unfold future. rewrite sumf_0. ring.
  Qed.
End Call2.

Lemma c74_mean (gm : list val -> val) (rt : val -> val) (root : Qc -> Qc) (m : lmat) (n : nat) (C M : nat -> nat -> Qc)
  (cl rl : list nat) (ind : list (list val)) (w : nat -> nat -> bool) (sims : nat) (par : bool)
  (rng : list val -> (nat -> val) * (list (val * val) -> nat -> val)) (b : boot_result) (c : Qc)
  (E : nat -> nat -> nat -> Qc) :
  regular m n C -> positive n C -> 2 < n -> tail_fits (m_cols m) ->
  (forall i j, i + j < n - 1 -> cell ind i j = Fin (if w i j then 1 else 0)%Qc) ->
  (forall j, j < n - 1 -> w (n - 2 - j) j = true) ->
  clvi m = Ok cl -> rlvi m = Ok rl -> root_like rt -> (forall q, (0 <= q)%Qc -> rt (Fin q) = Fin (root q)) ->
  (forall j, j < n - 1 -> (1 <= vol_factor n C j)%Qc) ->
  nth 0 (m_cols m) 0%Z = 1%Z ->
  boot_cl gm rt (mkTri m "origin" "dev" "value") cl rl ind sims par rng = Ok b ->
  o_scale b = Fin c -> (0 < c)%Qc -> regular (o_fit_incr b) n M ->
  (forall s i j, s < sims -> i < n -> j < n -> fst (rng (o_dist b)) (s * (n * n) + i * n + j) = Fin (E s i j)) ->
  (forall ps k a, nth k ps (NaN, NaN) = (Fin a, Fin c) -> snd (rng (o_dist b)) ps k = Fin (a * c)%Qc) ->
  let T s := resampled M (E s) root in
  (forall s j, s < sims -> j < n - 1 -> sumf 0 (n - 1 - j) (fun i => T s i j) <> 0%Qc) ->
  map (fun r => (v_sim r, v_o r, v_ultimate r)) (o_reserves b)
  = flat_map (fun i => map (fun s => (s, nth i (m_idx m) 0%Z, Fin (developed n (T s) i (n - 1)))) (seq 0 sims)) (seq 0 n).
Proof.
  intros R P Hn Ev Hi Hl Cl Rl Rt Ro F1 D1 B Sc Cp Rm He Hv T Nz.
  assert (W := c74 gm rt root m n C M cl rl ind w sims par rng b c E (fun _ _ _ a => (a * c)%Qc) R P Hn Ev Hi Hl Cl Rl Rt Ro F1 D1 B Sc Cp Rm He
    (fun ps s i j a _ _ _ _ H => Hv ps _ a H) Nz).
  cbv zeta in W. rewrite W. rewrite flat_map_concat_map, concat_map, map_map, <- flat_map_concat_map.
  apply flat_map_seq_ext. intros i Hi'. rewrite map_map. apply map_ext. intro s. cbn [v_sim v_o v_ultimate]. fold (T s).
  rewrite (future_mean n (T s) c) by (auto; lia). auto.
Qed.
