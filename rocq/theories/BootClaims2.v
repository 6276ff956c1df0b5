(** Proofs of C41 - C43. *)

From Coq Require Import String QArith Qcanon ZArith List Bool Lia Permutation Sorting.Sorted.
From Verif Require Import Val Frame Triangle A2A Base Mack Boot ListLib QcLib Spec Spec2 TblFacts ConvFacts FillFacts
  TriClaims4 RegFacts AvgFacts MackFacts BuildFacts BaseClaims BootFit BootLib BootSim BootClaims BootNoise.
Import ListNotations.
Open Scope string_scope.
Open Scope list_scope.
Open Scope nat_scope.

Lemma filter_true {A} (p : A -> bool) l : (forall x, In x l -> p x = true) -> filter p l = l.
Proof. induction l as [|x l IH]; intro H; auto. cbn [filter]. rewrite H by (left; auto). f_equal. apply IH. intros; apply H; right; auto. Qed.
Lemma filter_false {A} (p : A -> bool) l : (forall x, In x l -> p x = false) -> filter p l = [].
Proof. induction l as [|x l IH]; intro H; auto. cbn [filter]. rewrite H by (left; auto). apply IH. intros; apply H; right; auto. Qed.
Lemma by_origin os sims (R : nat -> nat -> rrec) i : zsorted os -> i < List.length os ->
  (forall s k, s < sims -> k < List.length os -> v_o (R s k) = nth k os 0%Z) ->
  filter (fun r => (v_o r =? nth i os 0%Z)%Z) (flat_map (fun i => map (fun s => R s i) (seq 0 sims)) (seq 0 (List.length os)))
  = map (fun s => R s i) (seq 0 sims).
Proof.
  intros So Hi H. rewrite filter_flat_map. rewrite (flat_map_one _ (List.length os) i Hi).
  - apply filter_true. intros r Hr. apply in_map_iff in Hr as (s & <- & Hs). apply in_seq in Hs. rewrite H by lia. apply Z.eqb_refl.
  - intros k Hk D. apply filter_false. intros r Hr. apply in_map_iff in Hr as (s & <- & Hs). apply in_seq in Hs.
    rewrite H by lia. apply Z.eqb_neq. intro Q. apply D.
    apply (NoDup_nth os 0%Z) in Q; auto. apply zsorted_nodup; auto.
Qed.
Lemma by_sim nr sims (R : nat -> nat -> rrec) s : s < sims -> (forall s k, s < sims -> k < nr -> v_sim (R s k) = s) ->
  filter (fun r => v_sim r =? s) (flat_map (fun i => map (fun s => R s i) (seq 0 sims)) (seq 0 nr)) = map (R s) (seq 0 nr).
Proof.
  intros Hs H. rewrite filter_flat_map, <- flat_map_single. apply flat_map_seq_ext. intros i Hi.
  assert (G : forall k a, a <= s < a + k -> a + k <= sims -> filter (fun r => v_sim r =? s) (map (fun s => R s i) (seq a k)) = [R s i]).
  { induction k as [|k IH]; intros a A B; [lia|]. cbn [seq map filter]. rewrite H by lia. destruct (Nat.eqb_spec a s) as [->|D].
    - f_equal. apply filter_false. intros r Hr. apply in_map_iff in Hr as (s' & <- & Hs'). apply in_seq in Hs'.
      rewrite H by lia. apply Nat.eqb_neq. lia.
    - apply IH; lia. }
  apply G; lia.
Qed.
Lemma zmin_sorted os : zsorted os -> os <> [] -> zmin os = nth 0 os 0%Z.
Proof.
  intros So Ne. destruct os as [|o0 l]; [congruence|]. cbn [nth].
  assert (Q := zmin_in (o0 :: l) ltac:(discriminate)). destruct Q as [Q|Q]; auto.
  inversion So as [|? ? S' F]; subst. rewrite Forall_forall in F. specialize (F _ Q).
  assert (W : forall x, In x (o0 :: l) -> (zmin (o0 :: l) <= x)%Z).
  { clear. revert o0. induction l as [|d l IH]; intros o0 x Hx.
    - destruct Hx as [->|[]]. simpl. lia.
    - change (Z.min o0 (zmin (d :: l)) <= x)%Z. destruct Hx as [->|Hx]; [lia|].
      specialize (IH d x Hx). lia. }
  specialize (W o0 (or_introl eq_refl)). lia.
Qed.
Lemma vmean_const u k : 0 < k -> vmean (map (fun _ : nat => Fin u) (seq 0 k)) = Fin u.
Proof.
  intro Hk. rewrite <- (map_map (fun _ : nat => u) Fin), vmean_fin.
  - f_equal. rewrite map_length, seq_length.
    change (sumf 0 k (fun _ => u) / qn k = u)%Qc. rewrite sumf_const. field. intro Q.
    assert (0 < qn k)%Qc by (apply qn_pos; lia). rewrite Q in H. discriminate.
  - destruct k; [lia|]. discriminate.
Qed.

Section Call2.
  Variables (m : lmat) (n : nat) (C : nat -> nat -> Qc).
  Hypothesis R : regular m n C.
  Hypothesis P : positive n C.
  Hypothesis Hn : 2 < n.
  Hypothesis Ev : tail_fits (m_cols m).
  Variables (ind : list (list val)) (w : nat -> nat -> bool).
  Hypothesis Hi : forall i j, i + j < n - 1 -> cell ind i j = Fin (if w i j then 1 else 0)%Qc.
  Hypothesis Hl : forall j, j < n - 1 -> w (n - 2 - j) j = true.
  Variables (gm : list val -> val) (rt : val -> val).
  Variables (cl rl : list nat).
  Hypothesis Cl : clvi m = Ok cl.
  Hypothesis Rl : rlvi m = Ok rl.
  Hypothesis Rt : root_like rt.
  Hypothesis F1 : forall j, j < n - 1 -> (1 <= vol_factor n C j)%Qc.

  Let t := mkTri m "origin" "dev" "value".

  Lemma lvis : cl = map (fun j => n - 1 - j) (seq 0 n) /\ rl = map (fun i => n - 1 - i) (seq 0 n).
  Proof.
    assert (R' := R). apply regular_rmat in R' as (E & So & Sd & Lo & Ld).
    rewrite E in Cl, Rl. rewrite r_clvi in Cl by (auto; lia). rewrite r_rlvi in Rl by (auto; lia). split; congruence.
  Qed.

  (** ** C41 *)
  Lemma c41 sims par rng b c :
    nth 0 (m_cols m) 0%Z = 1%Z ->
    (forall l k, fst (rng l) k = Fin 0%Qc) ->
    (forall l ps k, snd (rng l) ps k = vmul (fst (nth k ps (NaN, NaN))) (snd (nth k ps (NaN, NaN)))) ->
    boot_cl gm rt t cl rl ind sims par rng = Ok b -> o_scale b = Fin c -> (0 < c)%Qc ->
    exists r, base_cl gm t cl ind (SelLabel "all-weighted") (Fin 1%Qc) = (SelLabel "all-weighted", Ok r) /\
      o_ldfs b = c_ldfs r /\
      o_reserves b = flat_map (fun row => map (fun s =>
          mkR s (s_origin row) (s_latest row) (s_ultimate row) (s_reserve row)) (seq 0 sims)) (c_rows r) /\
      (0 < sims -> o_summary b = map (fun row => (s_origin row, s_latest row, s_ultimate row, s_reserve row)) (c_rows r) /\
                   o_total b = c_total r).
  Proof.
    intros D1 R0 Gm B Sc Cp. destruct lvis as (El & Er).
    assert (R' := R). apply regular_rmat in R' as (E & So & Sd & Lo & Ld).
    unfold t in *. rewrite (boot_eq m n C R P Hn Ev ind w Hi Hl) in B. cbv zeta in B.
    destruct (negb par && _ && _); [discriminate|]. injection B as <-.
    cbn [o_scale o_ldfs o_reserves o_summary o_total] in *.
    set (g := fun j => if S j <? n then vol_factor n C j else 1%Qc).
    destruct (base_cl_label gm m n C ind w "value" cl Weighted 0 1 g R P Hn Ev Cl Hi Hl) as (r & Eb & Ec).
    { apply in_avg_specs; auto. }
    { intros j Hj. unfold g. rewrite ltb_if by lia. reflexivity. }
    { unfold g. destruct (Nat.ltb_spec (S (n - 1)) n); [lia|auto]. }
    change (avg_label Weighted 0) with "all-weighted" in Eb.
    exists r. split; auto. split; auto.
    assert (Rows := c23_rows gm m n C "value" cl ind _ _ _ r g R ltac:(lia) Cl Eb Ec). cbv zeta in Rows.
    assert (Ug : forall i, i < n -> (C i (n - 1 - i)%nat * prodf (n - 1 - i) (n - (n - 1 - i)) g)%Qc = ultc n C i).
    { intros i Li. unfold ultc. replace (n - (n - 1 - i)) with (S i) by lia. rewrite prodf_Sr.
      replace (n - 1 - i + i) with (n - 1) by lia. unfold g at 2. destruct (Nat.ltb_spec (S (n - 1)) n); [lia|].
      rewrite (prodf_ext _ _ g (vol_factor n C)); [ring|]. intros k Hk. unfold g. apply ltb_if. lia. }
    set (rec := fun s i => mkR s (nth i (m_idx m) 0%Z) (Fin (C i (n - 1 - i)%nat)) (Fin (ultc n C i)) (Fin (ultc n C i - C i (n - 1 - i)%nat)%Qc)).
    assert (Sim : simulate rt m cl rl (rmat (m_idx m) (m_cols m) n (incr_of (fitc n C (vol_factor n C)))) (scale_param m (ru m n C rt)) sims
        (fst (rng (sampling_dist (ra m n C rt)))) (snd (rng (sampling_dist (ra m n C rt))))
      = flat_map (fun i => map (fun s => rec s i) (seq 0 sims)) (seq 0 n)).
    { rewrite Sc, El, Er. rewrite E at 1. apply noise_simulate; auto; lia. }
    rewrite Sim. rewrite Rows. split.
    - rewrite flat_map_concat_map, (flat_map_concat_map _ (map _ _)), map_map. f_equal. apply map_seq_ext. intros i Hi'.
      cbn [s_origin s_latest s_ultimate s_reserve]. apply map_ext. intro s. unfold rec. rewrite Ug by lia. auto.
    - intro Hs.
      assert (Sum : map (fun p : Z * val => (fst p, snd p,
          if (fst p =? zmin (map fst (map (fun i => (nth i (m_idx m) 0%Z, Fin (C i (n - 1 - i)%nat))) (seq 0 n))))%Z
          then slookup (map (fun i => (nth i (m_idx m) 0%Z, Fin (C i (n - 1 - i)%nat))) (seq 0 n)) (fst p)
          else mean_by v_ultimate (flat_map (fun i => map (fun s => rec s i) (seq 0 sims)) (seq 0 n)) (fst p),
          vsub (if (fst p =? zmin (map fst (map (fun i => (nth i (m_idx m) 0%Z, Fin (C i (n - 1 - i)%nat))) (seq 0 n))))%Z
          then slookup (map (fun i => (nth i (m_idx m) 0%Z, Fin (C i (n - 1 - i)%nat))) (seq 0 n)) (fst p)
          else mean_by v_ultimate (flat_map (fun i => map (fun s => rec s i) (seq 0 sims)) (seq 0 n)) (fst p)) (snd p)))
          (map (fun i => (nth i (m_idx m) 0%Z, Fin (C i (n - 1 - i)%nat))) (seq 0 n))
        = map (fun i => (nth i (m_idx m) 0%Z, Fin (C i (n - 1 - i)%nat), Fin (ultc n C i), Fin (ultc n C i - C i (n - 1 - i)%nat)%Qc)) (seq 0 n)).
      { rewrite !map_map. apply map_seq_ext. intros i Hi'. cbn [fst snd].
        assert (U : (if (nth i (m_idx m) 0 =? zmin (map (fun x => nth x (m_idx m) 0%Z) (seq 0 n)))%Z
          then slookup (map (fun i => (nth i (m_idx m) 0%Z, Fin (C i (n - 1 - i)%nat))) (seq 0 n)) (nth i (m_idx m) 0%Z)
          else mean_by v_ultimate (flat_map (fun i => map (fun s => rec s i) (seq 0 sims)) (seq 0 n)) (nth i (m_idx m) 0%Z)) = Fin (ultc n C i)).
        { assert (Em : map (fun x => nth x (m_idx m) 0%Z) (seq 0 n) = m_idx m) by (rewrite <- Lo; apply list_map_nth).
          rewrite Em, (zmin_sorted _ So) by (intro Q; rewrite Q in Lo; simpl in Lo; lia).
          rewrite (o_inj _ _ n So Lo Ld) by lia.
          destruct (Nat.eqb_spec i 0) as [->|D].
          - rewrite (slookup_map (fun i => nth i (m_idx m) 0%Z) (fun i => Fin (C i (n - 1 - i)))).
            2:{ rewrite Em. apply zsorted_nodup; auto. }
            2:{ apply in_seq. lia. }
            f_equal. unfold ultc. rewrite prodf_0. ring.
          - unfold mean_by. rewrite <- Lo at 1. rewrite by_origin; auto; try lia.
            rewrite map_map. unfold rec. cbn [v_ultimate]. apply vmean_const. auto. }
        rewrite U. auto. }
      split.
      + etransitivity; [exact Sum|]. rewrite map_map. apply map_seq_ext. intros i Hi'. cbn [s_origin s_latest s_ultimate s_reserve].
        rewrite Ug by lia. auto.
      + assert (T := c23_general gm t cl ind _ _ _ r Eb). destruct T as (_ & _ & ->). rewrite Rows.
        etransitivity; [exact (f_equal (fun rows : list (Z * val * val * val) => (skipsum (map (fun r => snd (fst (fst r))) rows),
          skipsum (map (fun r => snd (fst r)) rows), skipsum (map (fun r => snd r) rows))) Sum)|].
        cbn beta. rewrite !map_map, !skipsum_nan_sum. cbn [s_latest s_ultimate s_reserve fst snd].
        f_equal; [f_equal|]; auto; f_equal; apply map_seq_ext; intros i Hi'; rewrite Ug by lia; auto.
  Qed.

End Call2.

(** ** C43: any triangle with increasing labels, any draws. *)
Lemma c43 gm rt m v cl rl ind sims par rng b :
  increasing (m_idx m) -> increasing (m_cols m) -> m_cols m <> [] ->
  boot_cl gm rt (mkTri m "origin" "dev" v) cl rl ind sims par rng = Ok b ->
  map (fun r => (v_o r, v_sim r)) (o_reserves b)
    = flat_map (fun o => map (fun s => (o, s)) (seq 0 sims)) (m_idx m) /\
  (forall r, In r (o_reserves b) -> forall u l, v_ultimate r = Fin u -> v_latest r = Fin l ->
     v_reserve r = Fin (u - l)%Qc) /\
  (forall r, In r (o_reserves b) -> v_o r = nth 0 (m_idx m) 0%Z ->
     v_latest r = v_ultimate r /\ v_reserve r = Fin 0%Qc).
Proof.
  intros So Sd Nd B.
  assert (Ex : exists fi sc resid gam, o_reserves b = simulate rt m cl rl fi sc sims resid gam).
  { unfold boot_cl in B. cbn [t_mat t_v] in B.
    destruct (ldfs_of_label _ _ _ _ _); [|discriminate]. cbn [bind] in B.
    destruct (latest_by_origin _); [|discriminate]. cbn [bind] in B.
    destruct (tri_fit_cum _ _); [|discriminate]. cbn [bind] in B.
    destruct (resid_us _ _ _); [|discriminate]. cbn [bind] in B.
    destruct (negb _); [discriminate|]. destruct (negb par && _ && _); [discriminate|]. injection B as <-. cbn. eauto. }
  destruct Ex as (fi & sc & resid & gam & ->).
  destruct (c43_gen rt m cl rl fi sc sims resid gam So Sd Nd) as (F & -> & H).
  split; [|split].
  - rewrite flat_map_concat_map, concat_map, map_map.
    rewrite <- (list_map_nth (m_idx m) 0%Z) at 2. rewrite (flat_map_concat_map _ (map _ _)), map_map. f_equal.
    apply map_seq_ext. intros i Hi. rewrite map_map. apply map_ext_in. intros s Hs. apply in_seq in Hs.
    destruct (H s i ltac:(lia) ltac:(lia)) as (la & u & -> & _). auto.
  - intros r Hr u l Hu Hl. apply in_flat_map in Hr as (i & Hi & Hr). apply in_map_iff in Hr as (s & <- & Hs).
    apply in_seq in Hi, Hs. destruct (H s i ltac:(lia) ltac:(lia)) as (la & u' & E & _). rewrite E in *.
    cbn [rec_of v_ultimate v_latest v_reserve] in *. subst u'. destruct (isnan la) eqn:N.
    + injection Hl as <-. apply isnan_true in N. subst la. cbn. f_equal. ring.
    + subst la. auto.
  - intros r Hr Ho. apply in_flat_map in Hr as (i & Hi & Hr). apply in_map_iff in Hr as (s & <- & Hs).
    apply in_seq in Hi, Hs. destruct (H s i ltac:(lia) ltac:(lia)) as (la & u' & E & Z0). rewrite E in *.
    cbn [rec_of v_o v_ultimate v_latest v_reserve] in *.
    assert (i = 0) as ->.
    { apply (NoDup_nth (m_idx m) 0%Z) in Ho; auto; try lia. apply zsorted_nodup; auto. }
    rewrite (Z0 eq_refl). cbn [isnan]. unfold vsub. rewrite vadd_nan_r. auto.
Qed.

(** The reserve of every record, missing values included. *)
Lemma c43_exact gm rt m v cl rl ind sims par rng b :
  increasing (m_idx m) -> increasing (m_cols m) -> m_cols m <> [] ->
  boot_cl gm rt (mkTri m "origin" "dev" v) cl rl ind sims par rng = Ok b ->
  forall r, In r (o_reserves b) ->
    v_reserve r = match vsub (v_ultimate r) (v_latest r) with NaN => Fin 0%Qc | x => x end.
Proof.
  intros So Sd Nd B r Hr.
  assert (Ex : exists fi sc resid gam, o_reserves b = simulate rt m cl rl fi sc sims resid gam).
  { unfold boot_cl in B. cbn [t_mat t_v] in B.
    destruct (ldfs_of_label _ _ _ _ _); [|discriminate]. cbn [bind] in B.
    destruct (latest_by_origin _); [|discriminate]. cbn [bind] in B.
    destruct (tri_fit_cum _ _); [|discriminate]. cbn [bind] in B.
    destruct (resid_us _ _ _); [|discriminate]. cbn [bind] in B.
    destruct (negb _); [discriminate|]. destruct (negb par && _ && _); [discriminate|]. injection B as <-. cbn. eauto. }
  destruct Ex as (fi & sc & resid & gam & Eq). rewrite Eq in Hr.
  destruct (c43_gen rt m cl rl fi sc sims resid gam So Sd Nd) as (F & E2 & H). rewrite E2 in Hr.
  apply in_flat_map in Hr as (i & Hi & Hr). apply in_map_iff in Hr as (s & <- & Hs).
  apply in_seq in Hi, Hs. destruct (H s i ltac:(lia) ltac:(lia)) as (la & u' & E & _). rewrite E.
  cbn [rec_of v_ultimate v_latest v_reserve]. unfold nan0. destruct (isnan la) eqn:N.
  - apply isnan_true in N. subst la. unfold vsub. cbn [vneg]. rewrite vadd_nan_r. cbn [isnan].
    destruct u' as [q| | |]; cbn; try reflexivity. f_equal. ring.
  - destruct (vsub u' la); reflexivity.
Qed.

Lemma c41_factors n C rt sims m fit cl : 0 < n -> regular m n C -> positive n C -> clvi m = Ok cl -> root_like rt ->
  (forall j, j < n - 1 -> (1 <= vol_factor n C j)%Qc) ->
  regular fit n (incr_of (fun i j => C i (n - 1 - i)%nat / prodf j (n - 1 - i - j) (vol_factor n C))%Qc) ->
  m_idx fit = m_idx m -> m_cols fit = m_cols m ->
  bs_ldfs m cl sims (samples rt m fit sims (fun _ => Fin 0%Qc))
  = flat_map (fun s => map (fun j => (s, nth j (m_cols m) 0%Z, Fin (vol_factor n C j))) (seq 0 (n - 1))) (seq 0 sims).
Proof.
  intros Hn R P Cl Rt F1 Rf Ei Ec.
  assert (R' := R). apply regular_rmat in R' as (E & So & Sd & Lo & Ld).
  apply regular_rmat in Rf as (Ef & _). rewrite Ei, Ec in Ef.
  rewrite E in Cl. rewrite r_clvi in Cl by auto. injection Cl as <-. rewrite E at 1 2. rewrite Ef.
  apply (noise_ldfs (m_idx m) (m_cols m) n C So Sd Lo Ld Hn P F1 rt Rt sims (fun _ => Fin 0%Qc)). auto.
Qed.
