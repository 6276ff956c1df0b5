(** Proofs of C75 for the call: the table kept as sims_data. *)

From Coq Require Import String QArith Qcanon ZArith List Bool Lia Permutation Sorting.Sorted.
From Verif Require Import Val Frame Triangle A2A Base Mack Boot Sims ListLib QcLib Spec Spec2 SpecSim TblFacts ConvFacts FillFacts
  TriClaims4 RegFacts AvgFacts MackFacts BuildFacts BaseClaims BootFit BootLib BootSim BootClaims BootNoise BootClaims2 BootForm
  SimClaims SimsFacts SimsForm.
Import ListNotations.
Open Scope string_scope.
Open Scope list_scope.
Open Scope nat_scope.

(** ** Every triangle *)

Lemma boot_parts gm rt t cl rl ind sims par rng b : boot_cl gm rt t cl rl ind sims par rng = Ok b ->
  o_reserves b = simulate rt (t_mat t) cl rl (o_fit_incr b) (o_scale b) sims (fst (rng (o_dist b))) (snd (rng (o_dist b))).
Proof.
  unfold boot_cl. intro H.
  destruct (ldfs_of_label _ _ _ _ _); [|discriminate]. cbn [bind] in H.
  destruct (latest_by_origin t); [|discriminate]. cbn [bind] in H.
  destruct (tri_fit_cum _ _); [|discriminate]. cbn [bind] in H.
  destruct (resid_us _ _ _); [|discriminate]. cbn [bind] in H.
  destruct (negb _); [discriminate|]. destruct (negb par && _ && _); [discriminate|].
  injection H as <-. reflexivity.
Qed.

Lemma c75_keys (gm : list val -> val) (rt : val -> val) (t : tri) (cl rl : list nat)
  (ind : list (list val)) (sims : nat) (par : bool)
  (rng : list val -> (nat -> val) * (list (val * val) -> nat -> val)) (b : boot_result) :
  increasing (m_idx (t_mat t)) -> increasing (m_cols (t_mat t)) ->
  boot_cl gm rt t cl rl ind sims par rng = Ok b ->
  map (fun r => (d_sim r, d_o r, d_d r, d_fc r)) (sims_data rt t cl rl sims rng b)
  = flat_map (fun s => flat_map (fun i => map (fun j =>
      (s, nth i (m_idx (t_mat t)) 0%Z, nth j (m_cols (t_mat t)) 0%Z, isnan (cell (m_cells (o_fit_incr b)) i j)))
      (seq 0 (length (m_cols (t_mat t))))) (seq 0 (length (m_idx (t_mat t))))) (seq 0 sims).
Proof. intros So Sd _. apply table_keys. auto. Qed.

Lemma c75_fields rt t cl rl sims rng b r : In r (sims_data rt t cl rl sims rng b) ->
  d_reserve r = vsub (d_ultimate r) (d_latest r) /\ d_shape r = vabs (vdiv (d_inc r) (o_scale b)).
Proof.
  unfold sims_data, sims_table. intro H. apply in_flat_map in H as (e & _ & H). unfold sims_group in H.
  apply in_map_iff in H as (p & <- & _). cbn. auto.
Qed.

Lemma zmax_last l : zsorted l -> l <> [] -> zmax l = last l 0%Z.
Proof.
  intros Sl Nl. assert (I : In (last l 0%Z) l) by (apply (@exists_last _ l) in Nl as (l' & a & ->); rewrite last_last; apply in_or_app; right; left; auto).
  apply Z.le_antisymm; [|apply BaseClaims.zmax_ge; auto].
  revert Sl Nl. clear I. induction l as [|d l IH]; intros Sl Nl; [congruence|]. destruct l as [|d' l].
  - simpl. lia.
  - inversion Sl as [|? ? S' F]; subst. specialize (IH S' ltac:(discriminate)).
    change (Z.max d (zmax (d' :: l)) <= last (d' :: l) 0%Z)%Z.
    assert (In (last (d' :: l) 0%Z) (d' :: l)).
    { assert (Q : d' :: l <> []) by discriminate. apply (@exists_last _ (d' :: l)) in Q as (l' & a & ->). rewrite last_last. apply in_or_app. right; left; auto. }
    rewrite Forall_forall in F. specialize (F _ H). lia.
Qed.
Lemma c75_reserves (gm : list val -> val) (rt : val -> val) (t : tri) (cl rl : list nat)
  (ind : list (list val)) (sims : nat) (par : bool)
  (rng : list val -> (nat -> val) * (list (val * val) -> nat -> val)) (b : boot_result) :
  increasing (m_idx (t_mat t)) -> increasing (m_cols (t_mat t)) -> m_cols (t_mat t) <> [] -> rlvi (t_mat t) = Ok rl ->
  boot_cl gm rt t cl rl ind sims par rng = Ok b ->
  Permutation (o_reserves b)
    (map (fun r => mkR (d_sim r) (d_o r)
            (match d_latest r with NaN => d_ultimate r | x => x end) (d_ultimate r)
            (match d_reserve r with NaN => Fin 0%Qc | x => x end))
       (filter (fun r => (d_d r =? last (m_cols (t_mat t)) 0)%Z) (sims_data rt t cl rl sims rng b))).
Proof.
  intros So Sd Nd Rl B. rewrite (boot_parts _ _ _ _ _ _ _ _ _ _ B). rewrite table_final by auto.
  rewrite ssort_perm. fold (sims_data rt t cl rl sims rng b). rewrite zmax_last by auto.
  apply Permutation_refl'. apply map_ext. intro r. unfold final_rec. f_equal; destruct (_ r); auto.
Qed.

(** ** Run-off triangles *)

Section Ext.
  Variables (n sims : nat) (T T' : nat -> nat -> nat -> Qc).
  Hypothesis Kt : forall s i j, s < sims -> i + j < n -> T s i j = T' s i j.
  Lemma vol_ext s j : s < sims -> j < n - 1 -> vol_factor n (T s) j = vol_factor n (T' s) j.
  Proof. intros Hs Hj. unfold vol_factor. apply (f_equal2 Qcdiv); apply sumf_ext; intros i Hi'; apply Kt; auto; lia. Qed.
  Lemma developed_ext s i j : s < sims -> i < n -> j < n -> developed n (T s) i j = developed n (T' s) i j.
  Proof.
    intros Hs Hi Hj. unfold developed. destruct (Nat.ltb_spec (i + j) n) as [A|A].
    - apply Kt; lia.
    - rewrite Kt by lia. f_equal. apply prodf_ext. intros k Hk. apply vol_ext; lia.
  Qed.
  Lemma forecast_ext s i j : s < sims -> i < n -> j < n -> forecast n (T s) i j = forecast n (T' s) i j.
  Proof.
    intros Hs Hi Hj. unfold forecast. destruct j as [|j]; cbn [incr_of]; rewrite ?developed_ext by lia; auto.
  Qed.
  Lemma paid_ext s c V i j : s < sims -> i < n -> j < n -> paid n (T s) c V i j = paid n (T' s) c V i j.
  Proof.
    intros Hs Hi Hj. unfold paid. destruct (Nat.ltb_spec (i + j) n) as [A|A]; [apply Kt; lia|].
    rewrite Kt by lia. f_equal. apply sumf_ext. intros k Hk. rewrite forecast_ext by lia. auto.
  Qed.
  Lemma form_ext os ds c V s i j : s < sims -> i < n -> j < n -> form_d os ds n c V T s i j = form_d os ds n c V T' s i j.
  Proof.
    intros Hs Hi Hj. unfold form_d. cbv zeta. rewrite forecast_ext, developed_ext, paid_ext by auto. rewrite (Kt s i (n - 1 - i)) by lia. auto.
  Qed.
End Ext.

Lemma c75 (gm : list val -> val) (rt : val -> val) (root : Qc -> Qc) (m : lmat) (n : nat) (C M : nat -> nat -> Qc)
  (cl rl : list nat) (ind : list (list val)) (w : nat -> nat -> bool) (sims : nat) (par : bool)
  (rng : list val -> (nat -> val) * (list (val * val) -> nat -> val)) (b : boot_result) (c : Qc)
  (E : nat -> nat -> nat -> Qc) (V : nat -> nat -> nat -> Qc -> Qc) :
  let t := mkTri m "origin" "dev" "value" in
  regular m n C -> positive n C -> 2 < n -> tail_fits (m_cols m) ->
  (forall i j, i + j < n - 1 -> cell ind i j = Fin (if w i j then 1 else 0)%Qc) ->
  (forall j, j < n - 1 -> w (n - 2 - j) j = true) ->
  clvi m = Ok cl -> rlvi m = Ok rl -> root_like rt -> (forall q, (0 <= q)%Qc -> rt (Fin q) = Fin (root q)) ->
  (forall j, j < n - 1 -> (1 <= vol_factor n C j)%Qc) ->
  nth 0 (m_cols m) 0%Z = 1%Z ->
  boot_cl gm rt t cl rl ind sims par rng = Ok b ->
  o_scale b = Fin c -> (0 < c)%Qc -> regular (o_fit_incr b) n M ->
  (forall s i j, s < sims -> i < n -> j < n -> fst (rng (o_dist b)) (s * (n * n) + i * n + j) = Fin (E s i j)) ->
  (forall ps s i j a, s < sims -> i < n -> j < n -> (0 <= a)%Qc ->
     nth (s * (n * n) + i * n + j) ps (NaN, NaN) = (Fin a, Fin c) ->
     snd (rng (o_dist b)) ps (s * (n * n) + i * n + j) = Fin (V s i j a)) ->
  let T s := resampled M (E s) root in
  (forall s j, s < sims -> j < n - 1 -> sumf 0 (n - 1 - j) (fun i => T s i j) <> 0%Qc) ->
  sims_data rt t cl rl sims rng b
  = flat_map (fun s => flat_map (fun i => map (fun j =>
      let x := forecast n (T s) i j in
      let u := paid n (T s) c (V s i) i j in
      let l := T s i (n - 1 - i) in
      let later := (0 <? i) && (n - 1 - i <=? j) in
      mkD s (nth i (m_idx m) 0%Z) (nth j (m_cols m) 0%Z) (n <=? i + j)
          (Fin x) (Fin (developed n (T s) i j)) (Fin (abs_ x / c)%Qc)
          (if later then Fin l else NaN) (Fin u) (if later then Fin (u - l)%Qc else NaN))
    (seq 0 n)) (seq 0 n)) (seq 0 sims).
Proof.
  intros t R P Hn Ev Hi Hl Cl Rl Rt Ro F1 D1 B Sc Cp Rm He Hv T Nz.
  assert (R' := R). apply regular_rmat in R' as (Em & So & Sd & Lo & Ld).
  assert (El : cl = map (fun j => n - 1 - j) (seq 0 n) /\ rl = map (fun i => n - 1 - i) (seq 0 n)).
  { rewrite Em in Cl, Rl. rewrite r_clvi in Cl by (auto; lia). rewrite r_rlvi in Rl by (auto; lia). split; congruence. }
  destruct El as (El & Er).
  rewrite (boot_eq m n C R P Hn Ev ind w Hi Hl) in B. cbv zeta in B.
  destruct (negb par && _ && _); [discriminate|]. injection B as <-.
  unfold sims_data.
  cbn [o_scale o_ldfs o_reserves o_summary o_total o_dist o_fit_incr t_mat t] in *.
  set (fi := incr_of (fitc n C (vol_factor n C))) in *.
  set (resid := fst (rng (sampling_dist (ra m n C rt)))) in *.
  assert (Mf : forall i j, i + j < n -> M i j = fi i j).
  { apply (regular_inj n Hn (rmat (m_idx m) (m_cols m) n fi)); auto. apply rmat_regular; auto. }
  assert (Nn : forall i j, i + j < n -> (0 <= fi i j)%Qc) by (apply (fi_nn (m_idx m) (m_cols m)); auto; lia).
  assert (Kt : forall s i j, s < sims -> i + j < n -> K n fi rt resid s i j = T s i j).
  { intros s i j Hs L. unfold K, T, resampled. apply sumf_ext. intros k Hk. unfold X.
    rewrite He by lia. cbn [fq]. rewrite Ro by (apply Nn; lia). cbn [fq]. rewrite Mf by lia. ring. }
  assert (Rf : forall k, k < sims * (n * n) -> exists q, resid k = Fin q).
  { intros k Hk. set (q := k / (n * n)). set (r := k mod (n * n)). set (i := r / n). set (j := r mod n).
    assert (N0 : n * n <> 0) by nia. assert (n <> 0) by lia.
    assert (k = n * n * q + r) by (apply Nat.div_mod; auto).
    assert (r < n * n) by (apply Nat.mod_upper_bound; auto).
    assert (r = n * i + j) by (apply Nat.div_mod; auto).
    assert (j < n) by (apply Nat.mod_upper_bound; auto).
    assert (q < sims) by (apply Nat.div_lt_upper_bound; auto; lia).
    assert (i < n) by (apply Nat.div_lt_upper_bound; auto; lia).
    exists (E q i j). rewrite <- He by auto. f_equal. lia. }
  rewrite Sc, El, Er. rewrite Em at 1.
  assert (W := form_table (m_idx m) (m_cols m) n C So Sd Lo Ld ltac:(lia) P F1 D1 rt Rt sims resid Rf).
  fold fi in W. rewrite W with (V := V); auto.
  - apply flat_map_seq_ext. intros s Hs. apply flat_map_seq_ext. intros i Hi'. apply map_seq_ext. intros j Hj.
    rewrite (form_ext n sims (fun s => K n fi rt resid s) T Kt) by lia. reflexivity.
  - intros s j Hs Hj. rewrite (sumf_ext _ _ _ (fun i => T s i j)); [apply Nz; auto|].
    intros i Hi'. apply Kt; auto. lia.
Qed.
