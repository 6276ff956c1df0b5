(** Proofs of C102: standard errors and quantiles. *)

From Coq Require Import String QArith Qcanon ZArith List Bool Lia Permutation Sorting.Sorted.
From Verif Require Import Val Frame Triangle A2A Base Mack Boot ListLib QcLib Spec Spec2 SpecSim SpecAny SpecQuant SpecBootSum TblFacts ConvFacts FillFacts
  TriClaims4 RegFacts AvgFacts MackFacts BuildFacts BaseClaims BootFit BootLib BootSim BootClaims BootNoise BootClaims2 BootForm SimClaims AnyClaims AnySims
  ProcClaims OrderClaims Quant QuantClaims QuantCols Dist BootSum BootSumClaims.
Import ListNotations.
Open Scope string_scope.
Open Scope list_scope.
Open Scope nat_scope.

(** Samples that hold the same numbers. *)
Definition same_sample (l l' : list val) : Prop := exists xs xs', l = map Fin xs /\ l' = map Fin xs' /\ Permutation xs xs'.

Lemma variance_perm l l' : same_sample l l' -> variance1 l = variance1 l'.
Proof.
  intros (xs & xs' & -> & -> & Pm). destruct xs as [|x xs].
  { apply Permutation_nil in Pm. subst. reflexivity. }
  assert (Ne : xs' <> []) by (intros ->; apply Permutation_sym, Permutation_nil in Pm; discriminate).
  unfold variance1. rewrite !vmean_fin by (auto; discriminate).
  rewrite !map_map, !map_length. rewrite (qsum_perm _ _ Pm), (Permutation_length Pm).
  set (mu := (qsum xs' / qn (List.length xs'))%Qc).
  assert (Q : forall l, vsum (map (fun y => vmul (vsub (Fin y) (Fin mu)) (vsub (Fin y) (Fin mu))) l) = Fin (qsum (map (fun y => (y - mu) * (y - mu))%Qc l))).
  { intro l. rewrite <- vsum_fin, map_map. apply (f_equal vsum). apply map_ext. intro y. rewrite vsub_fin. reflexivity. }
  rewrite !Q. rewrite (qsum_perm _ _ (Permutation_map (fun y => (y - mu) * (y - mu))%Qc Pm)). reflexivity.
Qed.
Lemma pctl_perm me l l' q : same_sample l l' -> pctl me l q = pctl me l' q.
Proof.
  intros (xs & xs' & -> & -> & Pm). unfold pctl. rewrite !finite_map. unfold percentile.
  assert (Es : ssort Qccompare xs = ssort Qccompare xs').
  { apply (stats_unique xs); [apply ssort_stats|]. destruct (ssort_stats xs') as [A1 A2]. split; auto. apply (Permutation_trans Pm A1). }
  rewrite Es, (Permutation_length Pm).
  destruct xs as [|x xs]; destruct xs' as [|x' xs']; auto.
  - apply Permutation_nil in Pm. discriminate.
  - apply Permutation_sym, Permutation_nil in Pm. discriminate.
Qed.
Lemma Forall2_map {A B} (R : A -> A -> Prop) (f : A -> B) l l' : (forall x y, R x y -> f x = f y) -> Forall2 R l l' -> map f l = map f l'.
Proof. intros H F. induction F; cbn [map]; auto. rewrite (H x y), IHF; auto. Qed.
Lemma Forall2_mapM {A B} (R : A -> A -> Prop) (f : A -> res B) l l' : (forall x y, R x y -> f x = f y) -> Forall2 R l l' -> mapM f l = mapM f l'.
Proof. intros H F. induction F; cbn [mapM]; auto. rewrite (H x y), IHF; auto. Qed.

Lemma samples_perm n sims os (F F' : nat -> nat -> rrec) (x : nat -> nat -> Qc) (g : nat -> nat) :
  zsorted os -> List.length os = n -> 0 < n -> Permutation (map g (seq 0 sims)) (seq 0 sims) ->
  (forall s i, s < sims -> i < n -> v_o (F i s) = nth i os 0%Z /\ v_sim (F i s) = s /\ v_reserve (F i s) = Fin (x i s)) ->
  (forall s i, s < sims -> i < n -> v_o (F' i s) = nth i os 0%Z /\ v_sim (F' i s) = s /\ v_reserve (F' i s) = Fin (x i (g s))) ->
  Forall2 same_sample (samples (flat_map (fun i => map (fun s => F' i s) (seq 0 sims)) (seq 0 n)) os)
                      (samples (flat_map (fun i => map (fun s => F i s) (seq 0 sims)) (seq 0 n)) os).
Proof.
  intros So Lo Hn Pm H H'.
  assert (W := boot_samples n sims (fun s i => F i s) os x So Lo Hn H). cbv beta in W. rewrite W. clear W.
  assert (W := boot_samples n sims (fun s i => F' i s) os (fun i s => x i (g s)) So Lo Hn H'). cbv beta in W. rewrite W. clear W.
  assert (Q : forall f : nat -> Qc, same_sample (map (fun s => Fin (f (g s))) (seq 0 sims)) (map (fun s => Fin (f s)) (seq 0 sims))).
  { intro f. exists (map (fun s => f (g s)) (seq 0 sims)), (map f (seq 0 sims)). rewrite !map_map. split; auto. split; auto.
    rewrite <- (map_map g f). apply Permutation_map. exact Pm. }
  apply Forall2_app.
  - generalize (seq 0 n). intro l. induction l as [|i l IH]; cbn [map]; constructor; [exact (Q (x i))|exact IH].
  - constructor; [|constructor]. exact (Q (fun s => sumf 0 n (fun i => x i s))).
Qed.

Section Two.
  Variables (gm : list val -> val) (rt : val -> val) (root : Qc -> Qc) (m : lmat) (n : nat) (C : nat -> nat -> Qc)
         (cl rl : list nat) (ind : list (list val)) (w : nat -> nat -> bool) (sims : nat) (par par' : bool)
         (rng rng' : list val -> (nat -> val) * (list (val * val) -> nat -> val)) (b b' : boot_result) (c : Qc)
         (E E' : nat -> nat -> nat -> Qc) (V V' : nat -> nat -> nat -> Qc -> Qc).
  Hypothesis R : regular m n C.
  Hypothesis P : positive n C.
  Hypothesis Hn : 2 < n.
  Hypothesis Ev : tail_fits (m_cols m).
  Hypothesis Hi : forall i j, i + j < n - 1 -> cell ind i j = Fin (if w i j then 1 else 0)%Qc.
  Hypothesis Hl : forall j, j < n - 1 -> w (n - 2 - j) j = true.
  Hypothesis Cl : clvi m = Ok cl.
  Hypothesis Rl : rlvi m = Ok rl.
  Hypothesis Rt : root_like rt.
  Hypothesis Ro : forall q, (0 <= q)%Qc -> rt (Fin q) = Fin (root q).
  Hypothesis Lf : (1 <= vol_factor n C (n - 2)%nat)%Qc.
  Hypothesis B : boot_cl gm rt (mkTri m "origin" "dev" "value") cl rl ind sims par rng = Ok b.
  Hypothesis B' : boot_cl gm rt (mkTri m "origin" "dev" "value") cl rl ind sims par' rng' = Ok b'.
  Hypothesis Sc : o_scale b = Fin c.
  Hypothesis Cp : (0 < c)%Qc.
  Hypothesis He : forall s i j, s < sims -> i < n -> j < n -> fst (rng (o_dist b)) (s * (n * n) + i * n + j) = Fin (E s i j).
  Hypothesis Hv : forall ps s i j a, s < sims -> i < n -> j < n -> (0 <= a)%Qc ->
     nth (s * (n * n) + i * n + j) ps (NaN, NaN) = (Fin a, Fin c) ->
     snd (rng (o_dist b)) ps (s * (n * n) + i * n + j) = Fin (V s i j a).
  Hypothesis He' : forall s i j, s < sims -> i < n -> j < n -> fst (rng' (o_dist b')) (s * (n * n) + i * n + j) = Fin (E' s i j).
  Hypothesis Hv' : forall ps s i j a, s < sims -> i < n -> j < n -> (0 <= a)%Qc ->
     nth (s * (n * n) + i * n + j) ps (NaN, NaN) = (Fin a, Fin c) ->
     snd (rng' (o_dist b')) ps (s * (n * n) + i * n + j) = Fin (V' s i j a).
  Variable g : nat -> nat.
  Hypothesis Hs : 0 < sims.
  Hypothesis Pm : Permutation (map g (seq 0 sims)) (seq 0 sims).
  Hypothesis H1 : forall s i j, s < sims -> i < n -> j < n -> E' s i j = E (g s) i j.
  Hypothesis H2 : forall s i j a, s < sims -> i < n -> j < n -> (0 <= a)%Qc -> V' s i j a = V (g s) i j a.

  Lemma samples_two : Forall2 same_sample (samples (o_reserves b') (m_idx m)) (samples (o_reserves b) (m_idx m)).
  Proof.
    assert (R' := R). apply regular_rmat in R' as (_ & So & _ & Lo & _).
    destruct (same_fit gm rt m n C cl rl ind w sims sims par par' rng rng' b b' c E E' V V' R P Hn Ev Hi Hl B B' Sc He Hv He' Hv') as (Es & Rm & Rm').
    assert (Sc' : o_scale b' = Fin c) by (rewrite Es; exact Sc).
    set (N := incr_of (fitc n C (vol_factor n C))) in *.
    assert (W := c98_any gm rt root m n C N cl rl ind w sims par rng b c E V R P Hn Ev Hi Hl Cl Rl Rt Ro B Sc Cp Rm He Hv).
    assert (W' := c98_any gm rt root m n C N cl rl ind w sims par' rng' b' c E' V' R P Hn Ev Hi Hl Cl Rl Rt Ro B' Sc' Cp Rm' He' Hv').
    cbv zeta in W, W'. rewrite W, W'. clear W W'.
    set (T := fun s => resampled_at (alive n C) N (E s) root).
    apply (samples_perm n sims (m_idx m) _ _ (fun i s => if negb (i =? 0) && alive n C (n - 1 - i) then (own m n C c T V s i - T s i (n - 1 - i)%nat)%Qc else 0%Qc) g So Lo ltac:(lia) Pm).
    - intros s i Ls Li. cbn [v_o v_sim v_reserve]. split; auto.
    - intros s i Ls Li. cbn [v_o v_sim v_reserve]. split; auto. split; auto.
      assert (A1 : forall i j, i < n -> j < n -> E (g s) i j = E' s i j) by (intros; symmetry; apply H1; auto).
      assert (A2 : forall i j a, i < n -> j < n -> (0 <= a)%Qc -> V (g s) i j a = V' s i j a) by (intros; symmetry; apply H2; auto).
      assert (Q := same_own root m n C c E E' V V' Hn Lf Cp (g s) s A1 A2 i Li). fold N in Q. unfold T at 1. rewrite Q. unfold own, T.
      assert (Q2 := same_T root n C E E' Hn (g s) s A1 i (n - 1 - i) Li ltac:(lia)). cbv beta in Q2. fold N in Q2. rewrite Q2. reflexivity.
  Qed.

  Lemma origins_two : map (fun r => fst (fst (fst r))) (o_summary b) = m_idx m.
  Proof.
    assert (R' := R). apply regular_rmat in R' as (_ & So & _ & Lo & _).
    assert (A := B). rewrite (boot_eq m n C R P Hn Ev ind w Hi Hl) in A. cbv zeta in A.
    destruct (negb par && _ && _); [discriminate|]. injection A as <-. cbn [o_summary]. rewrite !map_map. cbn [fst].
    rewrite <- Lo at 1. apply map_nth_seq.
  Qed.

  Lemma c102_tables : boot_table b' = boot_table b /\
    (forall q me lb, boot_get_quantiles (o_reserves b') (m_idx m) q me lb = boot_get_quantiles (o_reserves b) (m_idx m) q me lb) /\
    (forall q two me, boot_summary_quantiles (o_reserves b') (m_idx m) q two me = boot_summary_quantiles (o_reserves b) (m_idx m) q two me).
  Proof.
    assert (S2 := samples_two).
    destruct (c102_order gm rt root m n C cl rl ind w sims sims par par' rng rng' b b' c E E' V V' R P Hn Ev Hi Hl Cl Rl Rt Ro Lf B B' Sc Cp He Hv He' Hv'
      g Hs eq_refl Pm H1 H2) as [O1 O2].
    split; [|split].
    - unfold boot_table. rewrite O1, O2. unfold boot_std_errors, boot_variances. rewrite O1, origins_two.
      rewrite (Forall2_map _ _ _ _ variance_perm S2). reflexivity.
    - intros q me lb. unfold boot_get_quantiles. destruct (result_formatter q) as [[qs hs]|e]; [|reflexivity]. cbn [bind fst snd].
      rewrite (mapM_ext (fun x => mapM (fun l => pctl me l x) (samples (o_reserves b') (m_idx m)))
                        (fun x => mapM (fun l => pctl me l x) (samples (o_reserves b) (m_idx m)))); auto.
      intros x _. apply (Forall2_mapM same_sample); auto. intros. apply pctl_perm. auto.
    - intros q two me. unfold boot_summary_quantiles. destruct (qtls_formatter q two) as [[qs hs]|e]; [|reflexivity]. cbn [bind fst snd].
      rewrite (mapM_ext (fun x => mapM (fun l => pctl me l x) (samples (o_reserves b') (m_idx m)))
                        (fun x => mapM (fun l => pctl me l x) (samples (o_reserves b) (m_idx m)))); auto.
      intros x _. apply (Forall2_mapM same_sample); auto. intros. apply pctl_perm. auto.
  Qed.
End Two.
