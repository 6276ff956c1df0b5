(** Proofs of C102. *)

From Coq Require Import String QArith Qcanon ZArith List Bool Lia Permutation Sorting.Sorted.
From Verif Require Import Val Frame Triangle A2A Base Mack Boot ListLib QcLib Spec Spec2 SpecSim SpecAny SpecBootSum TblFacts ConvFacts FillFacts
  TriClaims4 RegFacts AvgFacts MackFacts BuildFacts BaseClaims BootFit BootLib BootSim BootClaims BootNoise BootClaims2 BootForm SimClaims AnyClaims AnySims ProcClaims.
Import ListNotations.
Open Scope string_scope.
Open Scope list_scope.
Open Scope nat_scope.

(** The specification only looks at the simulation's own figures. *)
Lemma find_last (keep : nat -> bool) n k : keep (n - 1) = true -> k < n - 1 ->
  exists x, find keep (seq (S k) (n - 1 - k)) = Some x /\ k < x < n.
Proof.
  intros K L. destruct (find keep (seq (S k) (n - 1 - k))) as [x|] eqn:F.
  - exists x. split; auto. apply find_some in F as [F _]. apply in_seq in F. lia.
  - exfalso. rewrite (find_none _ _ F (n - 1)) in K; [discriminate|]. apply in_seq. lia.
Qed.
Lemma factor_own n keep (T T' : nat -> nat -> nat -> Qc) s s' k : keep (n - 1) = true -> k < n - 1 ->
  (forall i j, i < n -> j < n -> T s i j = T' s' i j) -> factor n keep T s k = factor n keep T' s' k.
Proof.
  intros K L H. unfold factor. destruct (keep k); auto. destruct (find_last keep n k K L) as (x & -> & Lx).
  rewrite (sumf_ext 0 (n - x) _ (fun i => T' s' i x)) by (intros; apply H; lia).
  rewrite (sumf_ext 0 (n - 1 - k) _ (fun i => T' s' i k)) by (intros; apply H; lia). reflexivity.
Qed.
Lemma path_ext n keep f f' (T T' : nat -> nat -> Qc) i j : i < n -> j < n -> (forall k, k < n - 1 -> f k = f' k) ->
  (forall i j, i < n -> j < n -> T i j = T' i j) -> path n keep f T i j = path n keep f' T' i j.
Proof.
  intros Li Lj Hf H. unfold path. rewrite (H i j) by auto. destruct (Nat.eqb_spec i 0) as [|D]; auto.
  destruct (Nat.ltb_spec j (n - 1 - i)); auto. destruct (negb (keep (n - 1 - i))); auto.
  destruct (Nat.eqb_spec j (n - 1 - i)) as [|D']; auto.
  rewrite (Hf (j - 1)) by lia. destruct (f' (j - 1)); auto. apply (f_equal Some).
  rewrite (H i (n - 1 - i)) by lia. rewrite (prodf_ext _ _ _ (fun k => or_ 1 (f' k))); auto.
  intros k Hk. rewrite Hf by lia. reflexivity.
Qed.
Lemma abs_nonneg x : (0 <= abs_ x)%Qc.
Proof. unfold abs_. destruct (qcltb_spec x 0); qlra. Qed.
Lemma total_ext n ds p p' c (V V' : nat -> Qc -> Qc) i : (0 < c)%Qc -> i < n -> (forall j, j < n -> p j = p' j) ->
  (forall j a, j < n -> (0 <= a)%Qc -> V j a = V' j a) -> total n ds p c V i = total n ds p' c V' i.
Proof.
  intros Cp Li Hp HV. unfold total. apply sumf_ext. intros j Hj. unfold booked.
  assert (St : step ds p j = step ds p' j).
  { unfold step. rewrite Hp by lia. destruct j as [|j]; auto. rewrite (Hp j) by lia. reflexivity. }
  rewrite St. destruct (i + j <? n); auto. rewrite HV; auto; [lia|]. apply qc_div_nonneg; auto. apply abs_nonneg.
Qed.

(** The records of one simulation. *)
Lemma one_sim (F : nat -> nat -> rrec) n sims s : s < sims -> (forall y z, v_sim (F y z) = z) ->
  filter (fun r => v_sim r =? s) (flat_map (fun y => map (F y) (seq 0 sims)) (seq 0 n)) = map (fun y => F y s) (seq 0 n).
Proof.
  intros Hs HF. generalize (seq 0 n). intro l. induction l as [|y l IH]; auto.
  cbn [flat_map map]. rewrite filter_app, IH.
  rewrite (filter_one _ sims (F y) s Hs) by (intros z Hz; rewrite HF; reflexivity). reflexivity.
Qed.

Section Two.
  Variables (gm : list val -> val) (rt : val -> val) (root : Qc -> Qc) (m : lmat) (n : nat) (C M : nat -> nat -> Qc)
         (cl rl : list nat) (ind : list (list val)) (w : nat -> nat -> bool) (sims sims' : nat) (par par' : bool)
         (rng rng' : list val -> (nat -> val) * (list (val * val) -> nat -> val)) (b b' : boot_result) (c : Qc)
         (E E' : nat -> nat -> nat -> Qc) (V V' : nat -> nat -> nat -> Qc -> Qc).
  Hypothesis R : regular m n C.
  Hypothesis P : positive n C.
  Hypothesis Hn : 2 < n.
  Hypothesis Ev : tail_fits (m_cols m).
  Hypothesis Hi : forall i j, i + j < n - 1 -> cell ind i j = Fin (if w i j then 1 else 0)%Qc.
  Hypothesis Hl : forall j, j < n - 1 -> w (n - 2 - j) j = true.
  Hypothesis Cl : clvi m = Ok cl.
  Hypothesis Rl : rlvi m = Ok rl.
  Hypothesis Rt : root_like rt.
  Hypothesis Ro : forall q, (0 <= q)%Qc -> rt (Fin q) = Fin (root q).
  Hypothesis Lf : (1 <= vol_factor n C (n - 2)%nat)%Qc.
  Hypothesis B : boot_cl gm rt (mkTri m "origin" "dev" "value") cl rl ind sims par rng = Ok b.
  Hypothesis B' : boot_cl gm rt (mkTri m "origin" "dev" "value") cl rl ind sims' par' rng' = Ok b'.
  Hypothesis Sc : o_scale b = Fin c.
  Hypothesis Cp : (0 < c)%Qc.
  Hypothesis He : forall s i j, s < sims -> i < n -> j < n -> fst (rng (o_dist b)) (s * (n * n) + i * n + j) = Fin (E s i j).
  Hypothesis Hv : forall ps s i j a, s < sims -> i < n -> j < n -> (0 <= a)%Qc ->
     nth (s * (n * n) + i * n + j) ps (NaN, NaN) = (Fin a, Fin c) ->
     snd (rng (o_dist b)) ps (s * (n * n) + i * n + j) = Fin (V s i j a).
  Hypothesis He' : forall s i j, s < sims' -> i < n -> j < n -> fst (rng' (o_dist b')) (s * (n * n) + i * n + j) = Fin (E' s i j).
  Hypothesis Hv' : forall ps s i j a, s < sims' -> i < n -> j < n -> (0 <= a)%Qc ->
     nth (s * (n * n) + i * n + j) ps (NaN, NaN) = (Fin a, Fin c) ->
     snd (rng' (o_dist b')) ps (s * (n * n) + i * n + j) = Fin (V' s i j a).

  Lemma same_fit : o_scale b' = o_scale b /\ regular (o_fit_incr b) n (incr_of (fitc n C (vol_factor n C))) /\
    regular (o_fit_incr b') n (incr_of (fitc n C (vol_factor n C))).
  Proof.
    assert (R' := R). apply regular_rmat in R' as (Em & So & Sd & Lo & Ld).
    assert (A := B). rewrite (boot_eq m n C R P Hn Ev ind w Hi Hl) in A. cbv zeta in A.
    destruct (negb par && _ && _); [discriminate|]. injection A as <-.
    assert (A := B'). rewrite (boot_eq m n C R P Hn Ev ind w Hi Hl) in A. cbv zeta in A.
    destruct (negb par' && _ && _); [discriminate|]. injection A as <-.
    split; [reflexivity|]. split; apply rmat_regular; auto.
  Qed.

  Let N := incr_of (fitc n C (vol_factor n C)).
  Let T s := resampled_at (alive n C) N (E s) root.
  Let T' s := resampled_at (alive n C) N (E' s) root.
  Definition own (m : lmat) (n : nat) (C : nat -> nat -> Qc) (c : Qc) (T : nat -> nat -> nat -> Qc) (V : nat -> nat -> nat -> Qc -> Qc) (s i : nat) : Qc :=
    total n (m_cols m) (path n (alive n C) (factor n (alive n C) T s) (T s) i) c (V s i) i.

  Lemma keep_last : alive n C (n - 1) = true.
  Proof.
    replace (n - 1) with (S (n - 2)) by lia. cbn [alive]. destruct (qcleb_spec 1 (vol_factor n C (n - 2))) as [A|A]; [reflexivity|contradiction].
  Qed.
  Lemma same_T s s' : (forall i j, i < n -> j < n -> E s i j = E' s' i j) -> forall i j, i < n -> j < n -> T s i j = T' s' i j.
  Proof.
    intros H i j Li Lj. unfold T, T', resampled_at. apply sumf_ext. intros k Hk. rewrite H by lia. reflexivity.
  Qed.
  Lemma same_own s s' : (forall i j, i < n -> j < n -> E s i j = E' s' i j) ->
    (forall i j a, i < n -> j < n -> (0 <= a)%Qc -> V s i j a = V' s' i j a) ->
    forall i, i < n -> own m n C c T V s i = own m n C c T' V' s' i.
  Proof.
    intros H1 H2 i Li. assert (St := same_T s s' H1). unfold own. apply total_ext; auto.
    intros j Hj. apply path_ext; auto. intros k Hk. apply factor_own; auto. apply keep_last.
  Qed.

  Lemma c102_same s s' : s < sims -> s' < sims' -> (forall i j, i < n -> j < n -> E s i j = E' s' i j) ->
    (forall i j a, i < n -> j < n -> (0 <= a)%Qc -> V s i j a = V' s' i j a) ->
    map (fun r => (v_o r, v_latest r, v_ultimate r, v_reserve r)) (filter (fun r => v_sim r =? s) (o_reserves b)) =
    map (fun r => (v_o r, v_latest r, v_ultimate r, v_reserve r)) (filter (fun r => v_sim r =? s') (o_reserves b')).
  Proof.
    intros Hs Hs' H1 H2. destruct same_fit as (Es & Rm & Rm').
    assert (Sc' : o_scale b' = Fin c) by (rewrite Es; exact Sc).
    assert (W := c98_any gm rt root m n C N cl rl ind w sims par rng b c E V R P Hn Ev Hi Hl Cl Rl Rt Ro B Sc Cp Rm He Hv).
    assert (W' := c98_any gm rt root m n C N cl rl ind w sims' par' rng' b' c E' V' R P Hn Ev Hi Hl Cl Rl Rt Ro B' Sc' Cp Rm' He' Hv').
    cbv zeta in W, W'. rewrite W, W'. rewrite !one_sim by (auto; reflexivity). clear W W'. rewrite !map_map.
    apply map_ext_in. intros i Hin. apply in_seq in Hin. cbn [v_o v_latest v_ultimate v_reserve].
    assert (Q := same_own s s' H1 H2 i ltac:(lia)). unfold own, T, T' in Q. rewrite Q.
    assert (Q2 := same_T s s' H1 i (n - 1 - i) ltac:(lia) ltac:(lia)). unfold T, T' in Q2. rewrite Q2. reflexivity.
  Qed.

  Lemma c102_order (g : nat -> nat) : 0 < sims -> sims' = sims -> Permutation (map g (seq 0 sims)) (seq 0 sims) ->
    (forall s i j, s < sims -> i < n -> j < n -> E' s i j = E (g s) i j) ->
    (forall s i j a, s < sims -> i < n -> j < n -> (0 <= a)%Qc -> V' s i j a = V (g s) i j a) ->
    o_summary b' = o_summary b /\ o_total b' = o_total b.
  Proof.
    intros Hs Sm Pm H1 H2. destruct same_fit as (Es & Rm & Rm').
    assert (Sc' : o_scale b' = Fin c) by (rewrite Es; exact Sc).
    destruct (c98_summary gm rt root m n C N cl rl ind w sims par rng b c E V R P Hn Ev Hi Hl Cl Rl Rt Ro B Sc Cp Rm He Hv Hs) as [W1 W2].
    destruct (c98_summary gm rt root m n C N cl rl ind w sims' par' rng' b' c E' V' R P Hn Ev Hi Hl Cl Rl Rt Ro B' Sc' Cp Rm' He' Hv' ltac:(lia)) as [W1' W2'].
    rewrite W1, W2, W1', W2'. clear W1 W2 W1' W2'. rewrite Sm.
    assert (Gl : forall s, s < sims -> g s < sims).
    { intros s L. assert (Hin : In (g s) (seq 0 sims)); [|apply in_seq in Hin; lia].
      apply (Permutation_in _ Pm). apply in_map. apply in_seq. lia. }
    assert (Mn : forall i, i < n -> sample_mean sims (fun s => own m n C c T' V' s i) = sample_mean sims (fun s => own m n C c T V s i)).
    { intros i Li. unfold sample_mean. apply (f_equal (fun x => (x / qn sims)%Qc)).
      rewrite (sumf_ext 0 sims _ (fun s => own m n C c T V (g s) i)).
      2: { intros s L. symmetry. apply same_own; auto.
           - intros. rewrite H1 by (auto; lia). reflexivity.
           - intros. rewrite H2 by (auto; lia). reflexivity. }
      unfold sumf. rewrite <- (map_map g (fun s => own m n C c T V s i)). apply qsum_perm. apply Permutation_map. exact Pm. }
    unfold own, T, T' in Mn.
    split.
    - apply map_ext_in. intros i Hin. apply in_seq in Hin. rewrite Mn by lia. reflexivity.
    - apply f_equal2; [apply f_equal2; [reflexivity|]|]; apply (f_equal Fin), sumf_ext; intros i Hin; rewrite Mn by lia; reflexivity.
  Qed.
End Two.
