(** Proofs of the quantile, percentile and tick properties (C35-C37, C48). *)

From Coq Require Import String QArith Qcanon Qround ZArith List Bool Ascii Lia Lqa Sorting.Sorted Permutation.
From Verif Require Import Val QcLib Frame Triangle A2A Base Boot Quant ListLib SpecQuant QuantFacts.
Import ListNotations.
Open Scope list_scope.
Open Scope nat_scope.

(** ** C36 *)
Lemma formatter_hdrs q two qs hs : qtls_formatter q two = Ok (qs, hs) -> hs = map pcthdr qs.
Proof.
  unfold qtls_formatter. destruct (unit_all q); [|discriminate]. destruct (finite q); [|discriminate].
  intros H. pose proof (f_equal (fun r => match r with Ok p => p | Err _ => (qs, hs) end) H) as E. cbv beta iota in E.
  pose proof (f_equal fst E) as E1. pose proof (f_equal snd E) as E2. cbn [fst snd] in E1, E2.
  rewrite <- E1, <- E2. reflexivity.
Qed.
Lemma result_hdrs q qs hs : result_formatter q = Ok (qs, hs) -> hs = map ordhdr qs.
Proof.
  unfold result_formatter. destruct (unit_all q); [|discriminate]. destruct (finite q); [|discriminate].
  intros H. pose proof (f_equal (fun r => match r with Ok p => p | Err _ => (qs, hs) end) H) as E. cbv beta iota in E.
  pose proof (f_equal fst E) as E1. pose proof (f_equal snd E) as E2. cbn [fst snd] in E1, E2.
  rewrite <- E1, <- E2. reflexivity.
Qed.
Lemma c36_estimator q two qs hs : qtls_formatter q two = Ok (qs, hs) -> apart q two ->
  lists_wanted q two qs /\ NoDup hs /\ List.length hs = List.length qs.
Proof.
  intros E Ha. pose proof (c35 q two) as H. rewrite E in H. destruct H as [_ [Hs [Hi [Hu HL]]]].
  split; [split; assumption|]. split; [|exact HL]. rewrite (formatter_hdrs _ _ _ _ E).
  apply nodup_hdrs; [| |exact Hs].
  - intros x y Hx Hy. apply pcthdr_iff; apply Hu; assumption.
  - intros x y Hx Hy. apply Ha; apply Hi; assumption.
Qed.
Lemma c36_result q qs hs : result_formatter q = Ok (qs, hs) -> apart q false ->
  lists_wanted q false qs /\ NoDup hs /\ List.length hs = List.length qs.
Proof.
  intros E Ha. pose proof (c35_result q) as H. rewrite E in H. destruct H as [_ [Hs [Hi [Hu HL]]]].
  split; [split; assumption|]. split; [|exact HL]. rewrite (result_hdrs _ _ _ E).
  apply nodup_hdrs; [| |exact Hs].
  - intros x y Hx Hy. apply ordhdr_iff; apply Hu; assumption.
  - intros x y Hx Hy. apply Ha; apply Hi; assumption.
Qed.
Lemma c36_mack_get (A : Type) (ppf : list (Qc -> A)) q cols : mack_get_quantiles ppf q = Ok cols -> apart q false ->
  NoDup (map fst cols) /\
  exists qs, lists_wanted q false qs /\ map snd cols = map (fun x => map (fun f => f x) ppf) qs.
Proof.
  unfold mack_get_quantiles. destruct (result_formatter q) as [[qs hs]|e] eqn:E; [|discriminate].
  intros H Ha. cbv beta iota delta [bind fst snd] in H. injection H as <-.
  destruct (c36_result _ _ _ E Ha) as [Hw [Hn HL]]. rewrite columns_fold, dict_cols; [|exact Hn|rewrite map_length; exact HL].
  rewrite map_fst_combine, map_snd_combine by (rewrite map_length; exact HL). split; [exact Hn|]. exists qs. auto.
Qed.
Lemma c36_mack_summary (A : Type) (nan : A) ppf q two cols : mack_summary_quantiles nan ppf q two = Ok cols -> apart q two ->
  NoDup (map fst cols) /\
  exists qs, lists_wanted q two qs /\
    map snd cols = map (fun x => match ppf with [] => [] | _ :: fs => nan :: map (fun f => f x) fs end) qs.
Proof.
  unfold mack_summary_quantiles. destruct (qtls_formatter q two) as [[qs hs]|e] eqn:E; [|discriminate].
  intros H Ha. cbv beta iota delta [bind fst snd] in H. injection H as <-.
  destruct (c36_estimator _ _ _ _ E Ha) as [Hw [Hn HL]]. rewrite columns_fold, dict_cols; [|exact Hn|rewrite map_length; exact HL].
  rewrite map_fst_combine, map_snd_combine by (rewrite map_length; exact HL). split; [exact Hn|]. exists qs. auto.
Qed.
Lemma mapM_forall2 {A B} (f : A -> res B) l r : mapM f l = Ok r -> Forall2 (fun x y => f x = Ok y) l r.
Proof.
  revert r. induction l as [|x l IH]; intros r H; simpl in H.
  - injection H as <-. constructor.
  - destruct (f x) eqn:E; [|discriminate H]. simpl in H. destruct (mapM f l); [|discriminate H].
    injection H as <-. constructor; auto.
Qed.
Lemma forall2_len {A B} (R : A -> B -> Prop) l r : Forall2 R l r -> List.length l = List.length r.
Proof. induction 1; simpl; auto. Qed.
Lemma c36_boot_summary rs os q two m cols : boot_summary_quantiles rs os q two m = Ok cols -> apart q two ->
  NoDup (map fst cols) /\
  exists qs, lists_wanted q two qs /\
    Forall2 (fun x c => Forall2 (fun l v => pctl m l x = Ok v) (samples rs os) c) qs (map snd cols).
Proof.
  unfold boot_summary_quantiles. destruct (qtls_formatter q two) as [[qs hs]|e] eqn:E; [|discriminate].
  intros H Ha. cbn [bind fst snd] in H.
  destruct (mapM _ qs) as [cs|e] eqn:Em; [|discriminate H]. injection H as <-.
  destruct (c36_estimator _ _ _ _ E Ha) as [Hw [Hn HL]]. apply mapM_forall2 in Em.
  pose proof (forall2_len _ _ _ Em) as HL2. rewrite (dict_cols hs cs) by congruence.
  rewrite map_fst_combine, map_snd_combine by congruence. split; [exact Hn|]. exists qs. split; [exact Hw|].
  clear -Em. induction Em as [|x c qs cs H _ IH]; constructor; auto. apply mapM_forall2. exact H.
Qed.
Lemma c36_boot_get rs os q m lb cols : boot_get_quantiles rs os q m lb = Ok cols -> apart q false ->
  NoDup (map fst cols) /\
  exists qs, lists_wanted q false qs /\
    Forall2 (fun x c => Forall2 (fun l v => exists w, pctl m l x = Ok w /\ v = raise_to lb w) (samples rs os) c)
            qs (map snd cols).
Proof.
  unfold boot_get_quantiles. destruct (result_formatter q) as [[qs hs]|e] eqn:E; [|discriminate].
  intros H Ha. cbn [bind fst snd] in H.
  destruct (mapM _ qs) as [cs|e] eqn:Em; [|discriminate H]. injection H as <-.
  destruct (c36_result _ _ _ E Ha) as [Hw [Hn HL]]. apply mapM_forall2 in Em.
  pose proof (forall2_len _ _ _ Em) as HL2. rewrite (dict_cols hs cs) by congruence.
  rewrite !map_map. simpl.
  rewrite <- (map_map snd (map (raise_to lb))), map_snd_combine by congruence.
  change (map (fun p : string * list Qc => fst p) (combine hs cs)) with (map fst (combine hs cs)).
  rewrite map_fst_combine by congruence. split; [exact Hn|]. exists qs. split; [exact Hw|].
  clear -Em. induction Em as [|x c qs cs H _ IH]; simpl; constructor; auto. apply mapM_forall2 in H.
  clear -H. induction H; simpl; constructor; eauto.
Qed.

(** ** C37 *)
Lemma ssorted_nth s i j : StronglySorted Qcle s -> i <= j < List.length s -> (nth i s 0 <= nth j s 0)%Qc.
Proof.
  intros H. revert i j. induction H as [|a s Hs IH Ha]; intros i j Hij; simpl in Hij; [lia|].
  destruct i as [|i], j as [|j]; simpl; try lia.
  - apply Qcle_refl.
  - rewrite Forall_forall in Ha. apply Ha. apply nth_In. lia.
  - apply IH. lia.
Qed.
Lemma ssort_stats l : order_stats l (ssort Qccompare l).
Proof.
  split.
  - apply Permutation_sym. apply ssort_perm.
  - assert (H : StronglySorted (fun a b => Qccompare a b <> Gt) (ssort Qccompare l))
      by (apply ssort_sorted; [apply qcmp_opp|intros x y z; rewrite !qcmp_le; apply Qcle_trans]).
    apply (ssorted_map _ Qcle) in H; [exact H|]. intros a b. apply qcmp_le.
Qed.
Lemma stats_unique l s t : order_stats l s -> order_stats l t -> s = t.
Proof.
  intros [P1 S1] [P2 S2]. assert (P : Permutation s t) by (eapply Permutation_trans; [apply Permutation_sym; exact P1|exact P2]).
  clear l P1 P2. revert t S2 P. induction S1 as [|a s Hs IH Ha]; intros t S2 P.
  - apply Permutation_nil in P. symmetry. exact P.
  - destruct S2 as [|b t Ht Hb]; [apply Permutation_sym, Permutation_nil in P; discriminate P|].
    assert (E : a = b).
    { rewrite Forall_forall in Ha, Hb.
      assert (A1 : (b <= a)%Qc).
      { assert (In a (b :: t)) as [->|Hi] by (apply (Permutation_in _ P); left; reflexivity); [apply Qcle_refl|auto]. }
      assert (A2 : (a <= b)%Qc).
      { assert (In b (a :: s)) as [->|Hi] by (apply (Permutation_in _ (Permutation_sym P)); left; reflexivity); [apply Qcle_refl|auto]. }
      apply Qcle_antisym; assumption. }
    subst b. apply Permutation_cons_inv in P. f_equal. auto.
Qed.

Section Stats.
Variable s : list Qc.
Hypothesis Hs : StronglySorted Qcle s.
Hypothesis Hne : s <> [].
Let top : Z := (Z.of_nat (List.length s) - 1)%Z.
Let at_ (z : Z) : Qc := nth (Z.to_nat z) s 0%Qc.

Lemma top_nonneg : (0 <= top)%Z.
Proof. unfold top. destruct s; [congruence|]. simpl List.length. lia. Qed.
Lemma at_mono i j : (0 <= i)%Z -> (i <= j)%Z -> (j <= top)%Z -> (at_ i <= at_ j)%Qc.
Proof. intros H1 H2 H3. apply ssorted_nth; [exact Hs|]. unfold top in H3. lia. Qed.

Definition value (m : interp) (h : Qc) : Qc :=
  let lo := at_ (Qfloor h) in
  let hi := at_ (Qceiling h) in
  (match m with
   | Linear => lo + (h - qz (Qfloor h)) * (hi - lo)
   | Lower => lo
   | Higher => hi
   | Midpoint => (lo + hi) / qz 2
   | Nearest => at_ (round_half_even h)
   end)%Qc.

Lemma floor_z (z : Z) (h : Qc) : (qz z <= h)%Qc -> (z <= Qfloor h)%Z.
Proof.
  intros H. destruct (floor_spec h) as [_ B]. assert (qz z < qz (Qfloor h + 1))%Qc by (eapply Qcle_lt_trans; eassumption).
  apply (proj1 (qz_lt _ _)) in H0. lia.
Qed.
Lemma floor_le_z (z : Z) (h : Qc) : (h <= qz z)%Qc -> (Qfloor h <= z)%Z.
Proof.
  intros H. destruct (floor_spec h) as [A _]. apply (proj1 (qz_le _ _)). eapply Qcle_trans; eassumption.
Qed.
Lemma ceil_spec (x : Qc) : (x <= qz (Qceiling x))%Qc /\ (qz (Qceiling x - 1) < x)%Qc.
Proof.
  split.
  - unfold Qcle. rewrite this_qz. apply Qle_ceiling.
  - unfold Qclt. rewrite this_qz. apply Qceiling_lt.
Qed.
Lemma ceil_z (z : Z) (h : Qc) : (h <= qz z)%Qc -> (Qceiling h <= z)%Z.
Proof.
  intros H. destruct (ceil_spec h) as [_ B]. assert (qz (Qceiling h - 1) < qz z)%Qc by (eapply Qclt_le_trans; eassumption).
  apply (proj1 (qz_lt _ _)) in H0. lia.
Qed.
Lemma ceil_le_z (z : Z) (h : Qc) : (qz z <= h)%Qc -> (z <= Qceiling h)%Z.
Proof.
  intros H. destruct (ceil_spec h) as [A _]. apply (proj1 (qz_le _ _)). eapply Qcle_trans; eassumption.
Qed.
Lemma floor_mono (a b : Qc) : (a <= b)%Qc -> (Qfloor a <= Qfloor b)%Z.
Proof. intros H. apply floor_z. eapply Qcle_trans; [apply floor_spec|exact H]. Qed.
Lemma ceil_mono (a b : Qc) : (a <= b)%Qc -> (Qceiling a <= Qceiling b)%Z.
Proof. intros H. apply ceil_z. eapply Qcle_trans; [exact H|apply ceil_spec]. Qed.
Lemma floor_int z : Qfloor (qz z) = z.
Proof. apply Z.le_antisymm; [apply floor_le_z|apply floor_z]; apply Qcle_refl. Qed.
Lemma ceil_int z : Qceiling (qz z) = z.
Proof. apply Z.le_antisymm; [apply ceil_z|apply ceil_le_z]; apply Qcle_refl. Qed.
Lemma round_int z : round_half_even (qz z) = z.
Proof.
  unfold round_half_even. rewrite floor_int.
  assert (E : (qz z - qz z = 0)%Qc) by ring. rewrite E. reflexivity.
Qed.
Lemma floor_le_ceil (h : Qc) : (Qfloor h <= Qceiling h)%Z.
Proof. apply (proj1 (qz_le _ _)). apply (Qcle_trans _ h); [apply (floor_spec h)|apply (ceil_spec h)]. Qed.
Lemma ceil_floor (h : Qc) : (Qceiling h <= Qfloor h + 1)%Z.
Proof. apply ceil_z. apply Qclt_le_weak. apply floor_spec. Qed.
Lemma floor_ceil_eq (h : Qc) : Qfloor h = Qceiling h -> h = qz (Qfloor h).
Proof.
  intros E. apply Qcle_antisym; [rewrite E; apply ceil_spec|apply floor_spec].
Qed.
Lemma round_cases (h : Qc) : round_half_even h = Qfloor h \/ (round_half_even h = Qfloor h + 1)%Z.
Proof. unfold round_half_even. cbv zeta. destruct (qcltb _ _); [auto|]. destruct (qcltb _ _); [auto|]. destruct (Z.even _); auto. Qed.
Lemma round_mono a b : (a <= b)%Qc -> (round_half_even a <= round_half_even b)%Z.
Proof.
  intros H. pose proof (floor_mono a b H) as Hf.
  destruct (Z.eq_dec (Qfloor a) (Qfloor b)) as [E|E].
  - unfold round_half_even. rewrite <- E. generalize (Qfloor a). intros f.
    destruct (qcltb_spec (a - qz f) (1 / qz 2)) as [A|A].
    + destruct (qcltb _ _); [lia|]. destruct (qcltb _ _); [lia|]. destruct (Z.even f); lia.
    + destruct (qcltb_spec (b - qz f) (1 / qz 2)) as [B|B]; [exfalso; apply A; qlra|].
      destruct (qcltb_spec (1 / qz 2) (a - qz f)) as [C|C].
      * destruct (qcltb_spec (1 / qz 2) (b - qz f)) as [D|D]; [lia|exfalso; apply D; qlra].
      * destruct (qcltb _ _); destruct (Z.even f); lia.
  - destruct (round_cases a) as [-> | ->], (round_cases b) as [-> | ->]; lia.
Qed.
Lemma round_in (h : Qc) : (0 <= h)%Qc -> (h <= qz top)%Qc -> (0 <= round_half_even h <= top)%Z.
Proof.
  intros H1 H2. split.
  - apply round_nonneg. exact H1.
  - rewrite <- (round_int top). apply round_mono. exact H2.
Qed.
Lemma round_between (h : Qc) : (Qfloor h <= round_half_even h <= Qceiling h)%Z.
Proof.
  split.
  - rewrite <- (round_int (Qfloor h)) at 1. apply round_mono. apply floor_spec.
  - rewrite <- (round_int (Qceiling h)). apply round_mono. apply ceil_spec.
Qed.
Lemma floor_in (h : Qc) : (0 <= h)%Qc -> (h <= qz top)%Qc -> (0 <= Qfloor h <= top)%Z.
Proof. intros H1 H2. split; [apply floor_z; rewrite qz_0; exact H1|apply floor_le_z; exact H2]. Qed.
Lemma ceil_in (h : Qc) : (0 <= h)%Qc -> (h <= qz top)%Qc -> (0 <= Qceiling h <= top)%Z.
Proof. intros H1 H2. split; [apply ceil_le_z; rewrite qz_0; exact H1|apply ceil_z; exact H2]. Qed.

Lemma lin_eq k h : (qz k <= h)%Qc -> (h <= qz (k + 1))%Qc ->
  (value Linear h = at_ k + (h - qz k) * (at_ (k + 1) - at_ k))%Qc.
Proof.
  intros H1 H2. unfold value. destruct (Qc_eq_dec h (qz (k + 1))) as [E|E].
  - subst h. rewrite floor_int, ceil_int, qz_add, qz_1. ring.
  - assert (H3 : (h < qz (k + 1))%Qc) by (apply Qcle_lt_or_eq in H2; destruct H2; [assumption|contradiction]).
    assert (Ef : Qfloor h = k).
    { apply Z.le_antisymm; [|apply floor_z; exact H1].
      destruct (floor_spec h) as [A _]. assert (qz (Qfloor h) < qz (k + 1))%Qc by (eapply Qcle_lt_trans; eassumption).
      apply (proj1 (qz_lt _ _)) in H. lia. }
    rewrite Ef. destruct (Qc_eq_dec h (qz k)) as [E0|E0].
    + subst h. rewrite ceil_int. ring.
    + assert (Ec : Qceiling h = (k + 1)%Z); [|rewrite Ec; ring].
      apply Z.le_antisymm; [apply ceil_z; exact H2|].
      assert (k < Qceiling h)%Z; [|lia]. apply (proj1 (qz_lt _ _)).
      eapply Qclt_le_trans; [|apply ceil_spec]. apply Qcle_lt_or_eq in H1. destruct H1; [assumption|congruence].
Qed.
Lemma lin_floor h : (value Linear h = at_ (Qfloor h) + (h - qz (Qfloor h)) * (at_ (Qfloor h + 1) - at_ (Qfloor h)))%Qc.
Proof. apply lin_eq; [apply floor_spec|apply Qclt_le_weak, floor_spec]. Qed.

Lemma value_between m h : (0 <= h)%Qc -> (h <= qz top)%Qc ->
  (at_ (Qfloor h) <= value m h <= at_ (Qceiling h))%Qc.
Proof.
  intros H1 H2. destruct (floor_in h H1 H2) as [F1 F2]. destruct (ceil_in h H1 H2) as [C1 C2].
  pose proof (floor_le_ceil h) as FC. pose proof (at_mono _ _ F1 FC C2) as M.
  destruct m; unfold value.
  - destruct (floor_spec h) as [A B]. rewrite qz_add, qz_1 in B.
    revert A B M. generalize (at_ (Qfloor h)) (at_ (Qceiling h)) (qz (Qfloor h)). intros u v f A B M.
    split; qnra.
  - split; [apply Qcle_refl|exact M].
  - split; [exact M|apply Qcle_refl].
  - assert (Hz : (0 < qz 2)%Qc) by (vm_compute; reflexivity).
    assert (E2 : qz 2 = (1 + 1)%Qc) by (apply Qc_is_canon; reflexivity).
    split; [apply qc_le_div|apply qc_div_le]; auto; rewrite E2; qlra.
  - destruct (round_between h) as [R1 R2]. split; apply at_mono; lia.
Qed.
Lemma value_int m z : (value m (qz z) = at_ z)%Qc.
Proof.
  unfold value. rewrite floor_int, ceil_int, round_int. destruct m; try reflexivity; try ring.
  assert (E2 : qz 2 = (1 + 1)%Qc) by (apply Qc_is_canon; reflexivity). rewrite E2. field. discriminate.
Qed.
Lemma value_mono m a b : (0 <= a)%Qc -> (a <= b)%Qc -> (b <= qz top)%Qc -> (value m a <= value m b)%Qc.
Proof.
  intros Ha Hab Hb.
  assert (Hb0 : (0 <= b)%Qc) by (eapply Qcle_trans; eassumption).
  assert (Ha1 : (a <= qz top)%Qc) by (eapply Qcle_trans; eassumption).
  destruct (floor_in a Ha Ha1), (floor_in b Hb0 Hb), (ceil_in a Ha Ha1), (ceil_in b Hb0 Hb).
  pose proof (floor_mono _ _ Hab) as Fm. pose proof (ceil_mono _ _ Hab) as Cm.
  assert (M1 := at_mono (Qfloor a) (Qfloor b) ltac:(lia) ltac:(lia) ltac:(lia)).
  assert (M2 := at_mono (Qceiling a) (Qceiling b) ltac:(lia) ltac:(lia) ltac:(lia)).
  destruct m.
  - destruct (Z.eq_dec (Qfloor a) (Qfloor b)) as [E|E].
    + rewrite !lin_floor, <- E. destruct (Z.eq_dec (Qfloor a) top) as [Et|Et].
      * assert (a = b).
        { apply Qcle_antisym; [exact Hab|]. eapply Qcle_trans; [exact Hb|]. rewrite <- Et. apply floor_spec. }
        subst b. apply Qcle_refl.
      * assert (M3 := at_mono (Qfloor a) (Qfloor a + 1) ltac:(lia) ltac:(lia) ltac:(lia)).
        revert M3. generalize (at_ (Qfloor a)) (at_ (Qfloor a + 1)) (qz (Qfloor a)). intros u v f M3. qnra.
    + eapply Qcle_trans; [apply (value_between Linear a); assumption|].
      eapply Qcle_trans; [|apply (value_between Linear b); assumption].
      apply at_mono; try lia. pose proof (ceil_floor a). lia.
  - exact M1.
  - exact M2.
  - assert (Hz : (0 < qz 2)%Qc) by (vm_compute; reflexivity).
    unfold value. apply qc_div_le; [exact Hz|].
    assert (E2 : ((at_ (Qfloor b) + at_ (Qceiling b)) / qz 2 * qz 2 = at_ (Qfloor b) + at_ (Qceiling b))%Qc) by (field; discriminate).
    rewrite E2. qlra.
  - unfold value. pose proof (round_mono _ _ Hab). destruct (round_in a Ha Ha1), (round_in b Hb0 Hb).
    apply at_mono; lia.
Qed.
Lemma at_0_min : is_min s (at_ 0).
Proof.
  split.
  - apply nth_In. pose proof top_nonneg. unfold top in *. lia.
  - intros x Hx. destruct (In_nth s x 0%Qc Hx) as [i [Hi <-]]. apply ssorted_nth; [exact Hs|lia].
Qed.
Lemma at_top_max : is_max s (at_ top).
Proof.
  split.
  - apply nth_In. pose proof top_nonneg. unfold top in *. lia.
  - intros x Hx. destruct (In_nth s x 0%Qc Hx) as [i [Hi <-]]. apply ssorted_nth; [exact Hs|]. unfold top. lia.
Qed.
End Stats.

Lemma percentile_eq m l q : l <> [] ->
  percentile m l q = Ok (value (ssort Qccompare l) m (qn (List.length l - 1) * q)%Qc).
Proof. intros H. destruct l as [|x l]; [congruence|]. destruct m; reflexivity. Qed.

Section Percentile.
Variable l : list Qc.
Hypothesis Hne : l <> [].
Let s := ssort Qccompare l.
Lemma s_len : List.length s = List.length l.
Proof. apply ssort_length. Qed.
Lemma s_ne : s <> [].
Proof. intros E. apply Hne. apply length_zero_iff_nil. rewrite <- s_len, E. reflexivity. Qed.
Lemma s_sorted : StronglySorted Qcle s.
Proof. apply ssort_stats. Qed.
Lemma qn_top : qn (List.length l - 1) = qz (Z.of_nat (List.length s) - 1).
Proof. rewrite s_len. unfold qn. f_equal. destruct l; [congruence|]. simpl List.length. lia. Qed.
Lemma h_range q : (0 <= q <= 1)%Qc ->
  (0 <= qn (List.length l - 1) * q)%Qc /\ (qn (List.length l - 1) * q <= qz (Z.of_nat (List.length s) - 1))%Qc.
Proof.
  rewrite qn_top. intros [H1 H2]. pose proof (top_nonneg s s_sorted s_ne) as Ht.
  assert (0 <= qz (Z.of_nat (List.length s) - 1))%Qc by (rewrite <- qz_0; apply qz_le; exact Ht).
  split; qnra.
Qed.
Lemma is_min_perm (a b : list Qc) x : Permutation a b -> is_min a x -> is_min b x.
Proof.
  intros P [H1 H2]. split; [apply (Permutation_in _ P); exact H1|].
  intros y Hy. apply H2. apply (Permutation_in _ (Permutation_sym P)). exact Hy.
Qed.
Lemma is_max_perm (a b : list Qc) x : Permutation a b -> is_max a x -> is_max b x.
Proof.
  intros P [H1 H2]. split; [apply (Permutation_in _ P); exact H1|].
  intros y Hy. apply H2. apply (Permutation_in _ (Permutation_sym P)). exact Hy.
Qed.
Lemma p0 m : exists v, percentile m l 0 = Ok v /\ is_min l v.
Proof.
  rewrite percentile_eq by exact Hne. eexists. split; [reflexivity|]. rewrite Qcmult_0_r.
  change (0%Qc) with (qz 0). rewrite value_int. apply (is_min_perm s).
  - apply Permutation_sym, ssort_stats.
  - apply at_0_min; [apply s_sorted|apply s_ne].
Qed.
Lemma p1 m : exists v, percentile m l 1 = Ok v /\ is_max l v.
Proof.
  rewrite percentile_eq by exact Hne. eexists. split; [reflexivity|]. rewrite Qcmult_1_r, qn_top.
  rewrite value_int. apply (is_max_perm s).
  - apply Permutation_sym, ssort_stats.
  - apply at_top_max; [apply s_sorted|apply s_ne].
Qed.
Lemma pmono m a b : (0 <= a)%Qc -> (a <= b)%Qc -> (b <= 1)%Qc ->
  exists v w, percentile m l a = Ok v /\ percentile m l b = Ok w /\ (v <= w)%Qc.
Proof.
  intros H1 H2 H3. rewrite !percentile_eq by exact Hne. eexists. eexists. do 2 (split; [reflexivity|]).
  destruct (h_range a) as [A1 A2]; [split; [exact H1|exact (Qcle_trans _ _ _ H2 H3)]|].
  destruct (h_range b) as [B1 B2]; [split; [exact (Qcle_trans _ _ _ H1 H2)|exact H3]|].
  apply (value_mono s); [apply s_sorted|first [apply s_ne|exact A1].. | |exact B2].
  pose proof (top_nonneg s s_sorted s_ne) as Ht.
  assert (0 <= qn (List.length l - 1))%Qc by (rewrite qn_top, <- qz_0; apply qz_le; exact Ht). qnra.
Qed.
Lemma pbetween m a : (0 <= a <= 1)%Qc -> exists v mn mx, percentile m l a = Ok v /\
  is_min l mn /\ is_max l mx /\ (mn <= v <= mx)%Qc.
Proof.
  intros [H1 H2].
  destruct (p0 m) as [mn [E0 M0]]. destruct (p1 m) as [mx [E1 M1]].
  destruct (pmono m 0 a) as [v [w [A [B C]]]]; [apply Qcle_refl|exact H1|exact H2|].
  destruct (pmono m a 1) as [v' [w' [A' [B' C']]]]; [exact H1|exact H2|apply Qcle_refl|].
  rewrite E0 in A. injection A as <-. rewrite E1 in B'. injection B' as <-. rewrite B in A'. injection A' as <-.
  exists w, mn, mx. auto.
Qed.
(** Between two neighbouring order statistics. *)
Lemma plin t k q : order_stats l t -> k < List.length l ->
  (qn k <= qn (List.length l - 1) * q <= qn (k + 1))%Qc ->
  percentile Linear l q =
    Ok (nth k t 0 + (qn (List.length l - 1) * q - qn k) * (nth (k + 1) t 0 - nth k t 0))%Qc.
Proof.
  intros Ht Hk [H1 H2]. rewrite percentile_eq by exact Hne. apply f_equal.
  rewrite (stats_unique l t s Ht (ssort_stats l)). unfold qn at 1 in H1. unfold qn at 2 in H2.
  rewrite Nat2Z.inj_add in H2.
  change (ssort Qccompare l) with s. rewrite (lin_eq s (Z.of_nat k)); [|exact H1|exact H2].
  rewrite Nat2Z.id. replace (Z.to_nat (Z.of_nat k + 1)) with (k + 1) by lia. reflexivity.
Qed.
Lemma pknot m t k : order_stats l t -> k < List.length l -> 1 < List.length l ->
  percentile m l (qn k / qn (List.length l - 1))%Qc = Ok (nth k t 0%Qc).
Proof.
  intros Ht Hk Hl. rewrite percentile_eq by exact Hne. apply f_equal.
  rewrite (stats_unique l t s Ht (ssort_stats l)).
  assert (E : (qn (List.length l - 1) * (qn k / qn (List.length l - 1)) = qz (Z.of_nat k))%Qc).
  { change (qz (Z.of_nat k)) with (qn k). field. unfold qn. change (Q2Qc 0) with (qz 0).
    intros E. apply qz_inj in E. lia. }
  rewrite E, value_int. rewrite Nat2Z.id. reflexivity.
Qed.
Lemma plow t q : order_stats l t -> (0 <= q <= 1)%Qc -> forall m, exists lo v hi,
  percentile Lower l q = Ok lo /\ percentile m l q = Ok v /\ percentile Higher l q = Ok hi /\
  (lo <= v <= hi)%Qc /\ In lo l /\ In hi l.
Proof.
  intros Ht Hq m. rewrite !percentile_eq by exact Hne. do 3 eexists. do 3 (split; [reflexivity|]).
  destruct (h_range q Hq) as [A B]. split; [apply value_between; auto using s_sorted, s_ne|].
  split; apply (Permutation_in (l:=s)); try (apply Permutation_sym, ssort_stats); apply nth_In.
  - destruct (floor_in s _ A B) as [F1 F2]. change (ssort Qccompare l) with s. lia.
  - destruct (ceil_in s _ A B) as [F1 F2]. change (ssort Qccompare l) with s. lia.
Qed.
End Percentile.

Lemma raise_larger b v : larger v b (raise_to (Some b) v).
Proof.
  unfold larger, raise_to. destruct (qcltb_spec v b) as [H|H].
  - split; [apply Qclt_le_weak; exact H|]. split; [apply Qcle_refl|auto].
  - split; [apply Qcle_refl|]. split; [apply Qcnot_lt_le; exact H|auto].
Qed.
Lemma c37_lb rs os q m b :
  match boot_get_quantiles rs os q m None, boot_get_quantiles rs os q m (Some b) with
  | Ok c0, Ok c1 => Forall2 (fun p r => fst p = fst r /\ Forall2 (fun v w => larger v b w) (snd p) (snd r)) c0 c1
  | Err e0, Err e1 => e0 = e1
  | _, _ => False
  end.
Proof.
  unfold boot_get_quantiles. destruct (result_formatter q) as [r|e]; [|reflexivity].
  cbv beta iota delta [bind]. destruct (mapM _ (fst r)) as [cols|e]; [|reflexivity].
  match goal with |- context [fold_left ?f ?l ?d] => generalize (fold_left f l d) end.
  intros d. induction d as [|[h c] d IH]; simpl; constructor; [|exact IH].
  split; [reflexivity|]. simpl. rewrite map_map || idtac. clear.
  induction c as [|v c IH]; simpl; constructor; [|exact IH]. exact (raise_larger b v).
Qed.

(** ** C48 *)
Lemma pow10_pos i : (0 < pow10 i)%Z.
Proof. unfold pow10. apply Z.pow_pos_nonneg; lia. Qed.
Lemma pow10_S i : (pow10 (i + 1) = pow10 i * 10)%Z.
Proof. unfold pow10. rewrite Nat2Z.inj_add, Z.pow_add_r by lia. reflexivity. Qed.
Lemma pow10_mono i j : i <= j -> (pow10 i <= pow10 j)%Z.
Proof. intros H. unfold pow10. apply Z.pow_le_mono_r; lia. Qed.
Lemma div_test x i : qcltb 1 (x / qz (pow10 i)) = true <-> (qz (pow10 i) < x)%Qc.
Proof.
  rewrite qcltb_lt. assert (Hp : (0 < qz (pow10 i))%Qc) by (rewrite <- qz_0; apply qz_lt, pow10_pos).
  assert (E : (x = x / qz (pow10 i) * qz (pow10 i))%Qc) by (field; intros E; rewrite E in Hp; revert Hp; apply Qcle_not_lt, Qcle_refl).
  split; intros H.
  - rewrite E. apply (Qcmult_lt_compat_r _ _ (qz (pow10 i))) in H; [|exact Hp]. rewrite Qcmult_1_l in H. exact H.
  - apply Qcnot_le_lt. intros Hc. revert H. apply Qcle_not_lt. rewrite E.
    apply (Qcmult_le_compat_r _ _ (qz (pow10 i))) in Hc; [|apply Qclt_le_weak; exact Hp]. rewrite Qcmult_1_l in Hc. exact Hc.
Qed.
Lemma filter_head p a n d r : filter p (seq a n) = d :: r ->
  p d = true /\ a <= d < a + n /\ forall j, a <= j < d -> p j = false.
Proof.
  revert a. induction n as [|n IH]; intros a H; [discriminate H|]. simpl in H. destruct (p a) eqn:E.
  - injection H as <- _. split; [exact E|]. split; [lia|]. intros; lia.
  - apply IH in H. destruct H as [H1 [H2 H3]]. split; [exact H1|]. split; [lia|].
    intros j Hj. destruct (Nat.eq_dec j a) as [->|]; [exact E|]. apply H3. lia.
Qed.
Lemma filter_last p n i r : rev (filter p (seq 0 n)) = i :: r ->
  p i = true /\ i < n /\ forall j, i < j < n -> p j = false.
Proof.
  induction n as [|n IH]; intros H; [discriminate H|].
  rewrite seq_S, filter_app, rev_app_distr in H. simpl in H. destruct (p n) eqn:E; simpl in H.
  - injection H as <- _. split; [exact E|]. split; [lia|]. intros; lia.
  - destruct (IH H) as [H1 [H2 H3]]. split; [exact H1|]. split; [lia|].
    intros j Hj. destruct (Nat.eq_dec j n) as [->|]; [exact E|]. apply H3. lia.
Qed.
Lemma filter_nil_iff (p : nat -> bool) a n : filter p (seq a n) = [] -> forall j, a <= j < a + n -> p j = false.
Proof.
  intros H j Hj. destruct (p j) eqn:E; [|reflexivity].
  assert (In j (filter p (seq a n))) by (apply filter_In; split; [apply in_seq; exact Hj|exact E]).
  rewrite H in H0. destruct H0.
Qed.
Lemma diff_test x z : qcltb 0 (qz z - x) = true <-> (x < qz z)%Qc.
Proof. rewrite qcltb_lt. split; intros H; qlra. Qed.

Lemma c48_ok x : decade x -> exists u, get_yticks x = Ok (map (fun k => u * (qn k / qz 4))%Qc (seq 0 5)) /\
  (x < u)%Qc /\ (u < x + x)%Qc.
Proof.
  intros [i [Hi [H1 H2]]]. fold (pow10 i) in H1. replace (Z.of_nat i + 1)%Z with (Z.of_nat (i + 1)) in H2 by lia.
  fold (pow10 (i + 1)) in H2. unfold get_yticks.
  destruct (rev _) as [|i' r] eqn:E.
  - apply (f_equal (@rev nat)) in E. rewrite rev_involutive in E. cbn [rev] in E.
    pose proof (filter_nil_iff _ 0 10 E i ltac:(lia)) as Hf. cbv beta in Hf.
    rewrite (proj2 (div_test x i) H1) in Hf. discriminate Hf.
  - apply filter_last in E. destruct E as [P1 [P2 P3]]. cbv beta in *.
    assert (Ei : i' = i).
    { destruct (Nat.lt_trichotomy i' i) as [Hlt|[->|Hlt]]; [|reflexivity|].
      - specialize (P3 i ltac:(lia)). rewrite (proj2 (div_test x i) H1) in P3. discriminate P3.
      - apply div_test in P1. exfalso. revert P1. apply Qcle_not_lt. apply Qclt_le_weak.
        eapply Qclt_le_trans; [exact H2|]. apply qz_le. apply pow10_mono. lia. }
    subst i'. destruct (filter (fun d => qcltb 0 (qz (pow10 i * Z.of_nat d) - x)) (seq 1 10)) as [|d r'] eqn:Ed.
    + pose proof (filter_nil_iff _ 1 10 Ed 10 ltac:(lia)) as Hf. cbv beta in Hf.
      rewrite (proj2 (diff_test x _)) in Hf; [discriminate Hf|]. change (Z.of_nat 10) with 10%Z. rewrite <- pow10_S. exact H2.
    + apply filter_head in Ed. destruct Ed as [Q1 [Q2 Q3]]. cbv beta in *. apply diff_test in Q1.
      exists (qz (pow10 i * Z.of_nat d)). split; [reflexivity|]. split; [exact Q1|].
      destruct (Nat.eq_dec d 1) as [->|Hd].
      * exfalso. rewrite Z.mul_1_r in Q1. revert Q1. apply Qcle_not_lt, Qclt_le_weak. exact H1.
      * specialize (Q3 (d - 1) ltac:(lia)).
        assert (Hx : (qz (pow10 i * Z.of_nat (d - 1)) <= x)%Qc).
        { apply Qcnot_lt_le. intros Hc. rewrite (proj2 (diff_test x _) Hc) in Q3. discriminate Q3. }
        replace (pow10 i * Z.of_nat d)%Z with (pow10 i * Z.of_nat (d - 1) + pow10 i)%Z by lia.
        rewrite qz_add. qlra.
Qed.
Lemma c48_err x : ~ decade x -> get_yticks x = Err ValueError.
Proof.
  intros Hn. unfold get_yticks. destruct (rev _) as [|i r] eqn:E; [reflexivity|].
  apply filter_last in E. destruct E as [P1 [P2 P3]]. cbv beta in *. apply div_test in P1.
  destruct (filter (fun d => qcltb 0 (qz (pow10 i * Z.of_nat d) - x)) (seq 1 10)) as [|d r'] eqn:Ed; [reflexivity|].
  exfalso. apply Hn. apply filter_head in Ed. destruct Ed as [Q1 [Q2 _]]. cbv beta in *. apply diff_test in Q1.
  exists i. split; [exact P2|]. split; [exact P1|]. eapply Qclt_le_trans; [exact Q1|]. apply qz_le.
  change (Z.of_nat i + 1)%Z with (Z.of_nat i + Z.of_nat 1)%Z. rewrite <- Nat2Z.inj_add. fold (pow10 (i + 1)).
  rewrite pow10_S. pose proof (pow10_pos i). nia.
Qed.
Lemma c48_refuted : (forall x, ~ decade x -> get_yticks x = Err ValueError) /\
  ~ decade (1 / qz 2)%Qc /\ ~ decade (qz 100) /\ ~ decade (qz 20000000000).
Proof.
  split; [exact c48_err|].
  repeat split; intros [i [Hi [H1 H2]]]; do 10 (destruct i as [|i]; [vm_compute in H1, H2; discriminate|]); lia.
Qed.

Lemma c35_rejected q : (exists v, In v q /\ ~ in_unit v) ->
  (forall (A : Type) (ppf : list (Qc -> A)), mack_get_quantiles ppf q = Err ValueError) /\
  (forall (A : Type) (nan : A) ppf two, mack_summary_quantiles nan ppf q two = Err ValueError) /\
  (forall rs os m lb, boot_get_quantiles rs os q m lb = Err ValueError) /\
  (forall rs os two m, boot_summary_quantiles rs os q two m = Err ValueError).
Proof.
  intros H. unfold mack_get_quantiles, mack_summary_quantiles, boot_get_quantiles, boot_summary_quantiles.
  repeat split; intros; rewrite ?(bad_result q H), ?(bad_estimator q _ H); reflexivity.
Qed.

Lemma c36_refuted : exists q qs h,
  qtls_formatter q false = Ok (qs, [h; h]) /\ NoDup qs /\ List.length qs = 2 /\
  exists (f : Qc -> val) cols, mack_get_quantiles [f] q = Ok cols /\ List.length cols = 1.
Proof.
  exists [Fin (1 / qz 2)%Qc; Fin (qz 50000001 / qz 100000000)%Qc], [1 / qz 2; qz 50000001 / qz 100000000]%Qc, "50%"%string.
  split; [vm_compute; reflexivity|]. split.
  - constructor; [|constructor; [|constructor]]; simpl.
    + intros [H|[]]. apply (f_equal this) in H. vm_compute in H. discriminate H.
    + auto.
  - split; [reflexivity|]. exists (fun x => Fin x).
    eexists. split; [vm_compute; reflexivity|]. reflexivity.
Qed.
