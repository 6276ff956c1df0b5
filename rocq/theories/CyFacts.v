(** Calendar-year table of regular run-off triangles. *)

From Coq Require Import String QArith Qcanon ZArith List Bool Lia Permutation Sorting.Sorted.
From Verif Require Import Val Frame Triangle A2A Base Mack Diag QcLib ListLib Spec Spec2 FillFacts TriClaims4 RegFacts
  MackFacts AvgClaims SpearFacts Binom DiagFacts.
Import ListNotations.
Open Scope list_scope.
Open Scope nat_scope.

Lemma is_median_unique l q r : is_median l q -> is_median l r -> q = r.
Proof.
  intros (s & P & S & _ & E) (s' & P' & S' & _ & E').
  assert (s = s') by (apply qsorted_perm; auto; etransitivity; [symmetry; exact P|exact P']). subst. congruence.
Qed.
Definition qmedian (l : list Qc) : Qc :=
  ((nth ((length (qsort l) - 1) / 2) (qsort l) 0 + nth (length (qsort l) / 2) (qsort l) 0) / qz 2)%Qc.
Lemma qmedian_spec l : l <> [] -> is_median l (qmedian l).
Proof.
  intro N. exists (qsort l). split; [symmetry; apply ssort_perm|]. split; [apply qsort_sorted|]. split; auto.
Qed.

Lemma vmedian_fin l : l <> [] -> vmedian (map Fin l) = Fin (qmedian l).
Proof.
  intro N. unfold vmedian.
  assert (E : filter (fun v => negb (isnan v)) (map Fin l) = map Fin l).
  { clear N. induction l; simpl; auto. congruence. }
  rewrite E, ssort_fin, map_length.
  assert (L : length (qsort l) = length l) by apply ssort_length.
  assert (0 < length l) by (destruct l; simpl; [congruence|lia]).
  destruct (map Fin (qsort l)) as [|x r] eqn:Q.
  - apply (f_equal (@length _)) in Q. rewrite map_length in Q. simpl in Q. lia.
  - rewrite <- Q. unfold qmedian.
    assert (D1 : (length (qsort l) - 1) / 2 < length (qsort l)) by (apply Nat.div_lt_upper_bound; lia).
    assert (D2 : length (qsort l) / 2 < length (qsort l)) by (apply Nat.div_lt_upper_bound; lia).
    rewrite !(nth_map_in Fin (qsort l) _ NaN 0%Qc) by auto. reflexivity.
Qed.
Lemma vmedian_pcol N k x : 0 < k <= N -> vmedian (pcol N k x) = Fin (qmedian (map x (seq 0 k))).
Proof.
  intro H. rewrite <- vmedian_fin.
  2:{ destruct k; [lia|]. discriminate. }
  assert (E : filter (fun v => negb (isnan v)) (pcol N k x) = filter (fun v => negb (isnan v)) (map Fin (map x (seq 0 k)))).
  { unfold pcol. replace N with (k + (N - k)) by lia. rewrite seq_app, map_app, filter_app, map_map.
    rewrite (map_ext_in _ (fun i => Fin (x i)) (seq 0 k)) by (intros i Hi; apply in_seq in Hi; apply ltb_if; lia).
    rewrite (map_ext_in _ (fun _ => NaN) (seq (0 + k) (N - k))) by (intros i Hi; apply in_seq in Hi; apply nltb_if; lia).
    assert (G : forall l : list nat, filter (fun v => negb (isnan v)) (map (fun _ => NaN) l) = []).
    { induction l; simpl; auto. }
    rewrite G, app_nil_r. auto. }
  unfold vmedian. rewrite E. reflexivity.
Qed.

Lemma diffs_const l s : 2 <= length l -> (forall j, S j < length l -> nth (S j) l 0%Z = (nth j l 0%Z + s)%Z) ->
  exists x, item (diffs l) = Ok x.
Proof.
  intros L H. assert (A : forall x, In x (diffs l) -> x = s).
  { intros x Hx. unfold diffs in Hx. apply in_map_iff in Hx as ([a b] & <- & Hin). cbn [fst snd].
    apply (In_nth _ _ (0%Z, 0%Z)) in Hin as (i & Hi & E). rewrite combine_length in Hi.
    assert (T : length (tl l) = length l - 1) by (destruct l; simpl; lia).
    rewrite <- (firstn_skipn (length l - 1) l) in E at 1.
    rewrite combine_app_l in E || idtac.
    assert (E2 : nth i (combine l (tl l)) (0%Z, 0%Z) = (nth i l 0%Z, nth i (tl l) 0%Z)).
    { clear -Hi. revert i Hi. generalize (tl l). induction l as [|x l IH]; intros [|y r] i Hi; simpl in *; try lia.
      destruct i; auto. apply IH. lia. }
    rewrite firstn_skipn in E. rewrite E2 in E. inversion E; subst.
    assert (N : nth i (tl l) 0%Z = nth (S i) l 0%Z) by (destruct l; simpl in *; auto; destruct i; auto).
    rewrite N, H by lia. lia. }
  assert (Ne : diffs l <> []).
  { destruct l as [|x [|y l]]; simpl in L; try lia. discriminate. }
  exists s. unfold item.
  assert (E : uniq Z.compare (diffs l) = uniq Z.compare [s]).
  { apply zuniq_ext. intro x. split.
    - intro Hx. left. symmetry. auto.
    - intros [<-|[]]. destruct (diffs l) as [|y r]; [congruence|]. left. apply A. left. auto. }
  rewrite E. reflexivity.
Qed.

Section Cy.
  Variables (m : lmat) (n : nat) (C : nat -> nat -> Qc).
  Hypothesis R : regular m n C.
  Hypothesis P : positive n C.
  Hypothesis Hn : 2 < n.
  Hypothesis Ed : evenly_spaced (firstn (n - 1) (m_cols m)).
  Hypothesis Eo : evenly_spaced (firstn (n - 1) (m_idx m)).
  Variable med : nat -> Qc.
  Hypothesis Hmed : forall p, p < n - 1 -> is_median (map (fun i => lnk C i p) (seq 0 (n - 1 - p))) (med p).

  Let N := n - 1.
  Let os := firstn N (m_idx m).
  Let ds := firstn N (m_cols m).
  Definition code (i p : nat) : Z :=
    if near (lnk C i p) (med p) then 0%Z else if qcltb (med p) (lnk C i p) then 1%Z else (-1)%Z.

  Lemma cy_a2a : a2a m = rmat os ds N (lnk C) /\ zsorted os /\ zsorted ds /\ length os = N /\ length ds = N.
  Proof.
    destruct (regular_rmat m n C R) as (E & So & Sd & Lo & Ld). split.
    - rewrite E at 1. rewrite r_a2a by (auto; lia). reflexivity.
    - unfold os, ds, N. repeat split; auto using zsorted_firstn; rewrite firstn_length; lia.
  Qed.

  Lemma cy_hl i p : i + p < N -> hl_at m (nth i os 0%Z) (nth p ds 0%Z) = Some (code i p).
  Proof.
    intro H. destruct cy_a2a as (E & So & Sd & Lo & Ld).
    unfold hl_at, a2a_assignment. rewrite E.
    change (m_idx (rmat os ds N (lnk C))) with os. change (m_cols (rmat os ds N (lnk C))) with ds.
    rewrite !zfind_nth by (auto using zsorted_nodup; lia).
    unfold nrows, ncols. change (m_idx (rmat os ds N (lnk C))) with os. change (m_cols (rmat os ds N (lnk C))) with ds.
    rewrite Lo, Ld. rewrite !nth_map_seq by lia.
    rewrite a_mcol by (auto; lia). rewrite vmedian_pcol by lia.
    rewrite (is_median_unique _ _ _ (qmedian_spec (map (fun i => lnk C i p) (seq 0 (N - p)))
       ltac:(replace (N - p) with (S (N - p - 1)) by lia; discriminate)) (Hmed p ltac:(unfold N in *; lia))).
    change (m_cells (rmat os ds N (lnk C))) with (mk N N (rc N (lnk C))). rewrite cell_mk by lia. unfold rc.
    rewrite ltb_if by lia. unfold assign1, code, allclose. cbn [isnan vltb].
    fold (near (lnk C i p) (med p)).
    change (qcleb (qabs (lnk C i p - med p)) (atol + rtol * qabs (med p))) with (near (lnk C i p) (med p)).
    destruct (near (lnk C i p) (med p)); auto. destruct (qcltb (med p) (lnk C i p)); auto.
  Qed.

  (** Counts on the diagonal i + p = j - 1. *)
  Definition cnt (z : Z) (j : nat) : nat := on_diagonal j (fun i p => Z.eqb (code i p) z).

  Lemma cy_diag_pairs j : j <= N ->
    combine (map (fun p => nth (j - 1 - p) os 0%Z) (seq 0 j)) (map (fun p => nth p ds 0%Z) (seq 0 N))
    = map (fun p => (nth (j - 1 - p) os 0%Z, nth p ds 0%Z)) (seq 0 j).
  Proof.
    intro H. replace N with (j + (N - j)) by lia. rewrite seq_app, map_app.
    rewrite combine_trunc by (rewrite !map_length; auto). apply combine_map_lr.
  Qed.
  Lemma zcount_some z (h : nat -> Z) l : zcount z (map (fun p => Some (h p)) l) = length (filter (fun p => Z.eqb (h p) z) l).
  Proof.
    unfold zcount, count_if. induction l as [|a l IH]; simpl; auto. destruct (h a =? z)%Z; simpl; auto.
  Qed.
  Lemma cy_counts_eq : forall c j, S c < N -> j = S c \/ True -> 
    cy_counts m (map (fun p => nth p ds 0%Z) (seq 0 N)) (map (fun p => nth (S c - p) os 0%Z) (seq 0 (S (S c)))) (rev (seq 2 (S c)))
    = map (fun j => (j, cnt (-1)%Z j, cnt 1%Z j)) (rev (seq 2 (S c))).
  Proof.
    induction c as [|c IH]; intros j0 Hc _.
    - cbn [seq rev app cy_counts map]. f_equal.
      assert (E := cy_diag_pairs 2 ltac:(lia)). cbn [seq map] in E |- *. 
      replace (2 - 1 - 0) with (1 - 0) in E by lia. replace (2 - 1 - 1) with (1 - 1) in E by lia.
      rewrite E. cbn [map fst snd].
      assert (A := cy_hl (1 - 0) 0 ltac:(lia)). assert (B := cy_hl (1 - 1) 1 ltac:(lia)). rewrite A, B.
      change [Some (code (1 - 0) 0); Some (code (1 - 1) 1)] with (map (fun p => Some (code (1 - p) p)) [0; 1]).
      rewrite !zcount_some. unfold cnt, on_diagonal. reflexivity.
    - replace (seq 2 (S (S c))) with (seq 2 (S c) ++ [S (S (S c))]) by (rewrite (seq_S (S c)); f_equal; f_equal; lia).
      rewrite rev_app_distr. cbn [rev app]. cbn [cy_counts map]. f_equal.
      + assert (E := cy_diag_pairs (S (S (S c))) ltac:(lia)).
        replace (S (S (S c)) - 1) with (S (S c)) in E by lia. rewrite E. rewrite map_map. cbn [fst snd].
        rewrite (map_ext_in _ (fun p => Some (code (S (S c) - p) p))).
        2:{ intros p Hp. apply in_seq in Hp. apply cy_hl. lia. }
        rewrite !zcount_some. unfold cnt, on_diagonal. reflexivity.
      + rewrite <- (IH (S c)) by (auto; lia). f_equal.
        change (seq 0 (S (S (S c)))) with (0 :: seq 1 (S (S c))). cbn [map tl].
        rewrite <- seq_shift, map_map. apply map_ext. intro p. reflexivity.
  Qed.

  Lemma cy_table : cy_effects_table m = Ok (map (fun j => cy_of (j, cnt (-1)%Z j, cnt 1%Z j)) (seq 2 (n - 2))).
  Proof.
    destruct cy_a2a as (E & So & Sd & Lo & Ld). unfold cy_effects_table, a2a_lvi. rewrite E. rewrite a_lvi by auto. cbn [bind].
    destruct Ed as (sd & _ & Hd). destruct Eo as (so & _ & Ho).
    destruct (regular_rmat m n C R) as (_ & _ & _ & Lom & Ldm).
    assert (Fd : map fst (lvi_of os ds N) = map (fun p => nth p ds 0%Z) (seq 0 N)) by (unfold lvi_of; rewrite map_map; auto).
    assert (Fo : map snd (lvi_of os ds N) = map (fun p => nth (N - 1 - p) os 0%Z) (seq 0 N)) by (unfold lvi_of; rewrite map_map; auto).
    destruct (diffs_const (map fst (lvi_of os ds N)) sd) as (x & Ex).
    { unfold lvi_of. rewrite !map_length, seq_length. lia. }
    { rewrite Fd, map_length, seq_length. intros j Hj. rewrite !nth_map_seq by lia. apply Hd. fold N ds. lia. }
    destruct (diffs_const (map snd (lvi_of os ds N)) (- so)%Z) as (y & Ey).
    { unfold lvi_of. rewrite !map_length, seq_length. lia. }
    { rewrite Fo, map_length, seq_length. intros j Hj. rewrite !nth_map_seq by lia.
      replace (N - 1 - j) with (S (N - 1 - S j)) by lia. assert (K := Ho (N - 1 - S j)). fold N in K. fold os in K. rewrite K by lia. lia. }
    rewrite Ex. cbn [bind]. rewrite Ey. cbn [bind]. f_equal. rewrite Fd, Fo. unfold lvi_of. rewrite map_length, seq_length.
    assert (Q := cy_counts_eq (N - 2) 0 ltac:(lia) (or_intror I)).
    replace (S (N - 2)) with (N - 1) in Q by lia. replace (S (N - 1)) with N in Q by lia.
    rewrite Q. rewrite <- map_rev, rev_involutive, map_map. replace (N - 1) with (n - 2) by lia. reflexivity.
  Qed.

  Lemma code_low i p : Z.eqb (code i p) (-1) = qcltb (lnk C i p) (med p) && negb (near (lnk C i p) (med p)).
  Proof.
    unfold code. destruct (near (lnk C i p) (med p)) eqn:E; [rewrite andb_false_r; auto|]. rewrite andb_true_r.
    destruct (qcltb_spec (med p) (lnk C i p)), (qcltb_spec (lnk C i p) (med p)); auto; [exfalso; qlra|].
    exfalso. assert (Q : lnk C i p = med p) by (apply Qcle_antisym; apply Qcnot_lt_le; auto).
    rewrite Q in E. unfold near in E. replace (med p - med p)%Qc with 0%Qc in E by ring.
    change (abs_ 0) with 0%Qc in E. destruct (qcleb_spec 0 (1 / qz 100000000 + 1 / qz 100000 * abs_ (med p))); [discriminate|].
    apply n2. assert (A : (0 <= abs_ (med p))%Qc) by (unfold abs_; destruct (qcltb_spec (med p) 0); qlra).
    assert (B : (0 < 1 / qz 100000)%Qc) by reflexivity. assert (D : (0 < 1 / qz 100000000)%Qc) by reflexivity.
    assert (G : (0 <= 1 / qz 100000 * abs_ (med p))%Qc) by (apply qc_mul_nonneg; auto; apply Qclt_le_weak; auto).
    set (u := (1 / qz 100000 * abs_ (med p))%Qc) in *. set (v := (1 / qz 100000000)%Qc) in *. qlra.
  Qed.
  Lemma code_high i p : Z.eqb (code i p) 1 = qcltb (med p) (lnk C i p) && negb (near (lnk C i p) (med p)).
  Proof.
    unfold code. destruct (near (lnk C i p) (med p)) eqn:E; [rewrite andb_false_r; auto|]. rewrite andb_true_r.
    destruct (qcltb (med p) (lnk C i p)); auto.
  Qed.
End Cy.

Lemma on_diagonal_ext j b b' : (forall p, p < j -> b (j - 1 - p) p = b' (j - 1 - p) p) -> on_diagonal j b = on_diagonal j b'.
Proof.
  intro H. unfold on_diagonal. f_equal. apply filter_ext_in. intros p Hp. apply in_seq in Hp. apply H. lia.
Qed.

Lemma c45_medians : forall n C p, p < n - 1 ->
  exists q, is_median (map (fun i => (C i (S p) / C i p)%Qc) (seq 0 (n - 1 - p))) q.
Proof.
  intros n C p H. exists (qmedian (map (fun i => (C i (S p) / C i p)%Qc) (seq 0 (n - 1 - p)))). apply qmedian_spec.
  replace (n - 1 - p) with (S (n - 2 - p)) by lia. discriminate.
Qed.

Lemma c45 : forall m n C med, regular m n C -> positive n C -> 2 < n ->
  evenly_spaced (firstn (n - 1) (m_cols m)) -> evenly_spaced (firstn (n - 1) (m_idx m)) ->
  let F i p := (C i (S p) / C i p)%Qc in
  (forall p, p < n - 1 -> is_median (map (fun i => F i p) (seq 0 (n - 1 - p))) (med p)) ->
  exists rows, cy_effects_table m = Ok rows /\ map y_j rows = seq 2 (n - 2) /\
    forall r, In r rows ->
      y_S r = on_diagonal (y_j r) (fun i p => qcltb (F i p) (med p) && negb (near (F i p) (med p))) /\
      y_L r = on_diagonal (y_j r) (fun i p => qcltb (med p) (F i p) && negb (near (F i p) (med p))) /\
      y_Z r = Nat.min (y_S r) (y_L r) /\ y_n r = y_S r + y_L r /\
      (1 <= y_n r ->
        y_E r = Some (mean_half (y_n r) (fun s => qn (Nat.min s (y_n r - s)))) /\
        y_V r = Some (var_half (y_n r) (fun s => qn (Nat.min s (y_n r - s))))).
Proof.
  intros m n C med R P Hn Ed Eo F Hm. eexists. split; [apply (cy_table m n C R P Hn Ed Eo med Hm)|]. split.
  - rewrite map_map. apply map_id.
  - intros r Hr. apply in_map_iff in Hr as (j & <- & Hj). unfold cy_of. cbn [fst snd y_j y_S y_L y_Z y_n y_E y_V].
    split; [apply on_diagonal_ext; intros; apply code_low|]. split; [apply on_diagonal_ext; intros; apply code_high|].
    split; auto. split; auto. intro H. destruct (Nat.eqb_spec (cnt C med (-1)%Z j + cnt C med 1%Z j) 0); [lia|].
    rewrite <- e_z_mean, <- v_z_var by auto. auto.
Qed.

Lemma c45_partial : forall m n C med, regular m n C -> positive n C -> 2 < n ->
  evenly_spaced (firstn (n - 1) (m_cols m)) -> evenly_spaced (firstn (n - 1) (m_idx m)) ->
  let F i p := (C i (S p) / C i p)%Qc in
  (forall p, p < n - 1 -> is_median (map (fun i => F i p) (seq 0 (n - 1 - p))) (med p)) ->
  (forall i p, i + p < n - 1 -> F i p <> med p -> near (F i p) (med p) = false) ->
  exists rows, cy_effects_table m = Ok rows /\ map y_j rows = seq 2 (n - 2) /\
    forall r, In r rows ->
      y_S r = on_diagonal (y_j r) (fun i p => qcltb (F i p) (med p)) /\
      y_L r = on_diagonal (y_j r) (fun i p => qcltb (med p) (F i p)).
Proof.
  intros m n C med R P Hn Ed Eo F Hm Nr. destruct (c45 m n C med R P Hn Ed Eo Hm) as (rows & E & J & H).
  exists rows. split; auto. split; auto. intros r Hr. destruct (H r Hr) as (A & B & _). rewrite A, B.
  assert (Hj : 2 <= y_j r < n).
  { assert (Q : In (y_j r) (map y_j rows)) by (apply in_map; auto). rewrite J in Q. apply in_seq in Q. lia. }
  split; apply on_diagonal_ext; intros p Hp; change (C (y_j r - 1 - p)%nat (S p) / C (y_j r - 1 - p)%nat p)%Qc with (F (y_j r - 1 - p) p).
  - destruct (qcltb_spec (F (y_j r - 1 - p) p) (med p)) as [L|]; auto. rewrite Nr; [reflexivity|lia|].
    intro Q. rewrite Q in L. qlra.
  - destruct (qcltb_spec (med p) (F (y_j r - 1 - p) p)) as [L|]; auto. rewrite Nr; [reflexivity|lia|].
    intro Q. rewrite Q in L. qlra.
Qed.

Lemma evenly_firstn k l : evenly_spaced l -> evenly_spaced (firstn k l).
Proof.
  intros (s & P & H). exists s. split; auto. intros j Hj. rewrite firstn_length in Hj.
  rewrite <- (firstn_skipn k l) in H. specialize (H j). rewrite app_length, firstn_length in H.
  rewrite !app_nth1 in H by (rewrite firstn_length; lia). apply H. lia.
Qed.

(** Which spacings are accepted. *)
Lemma diffs_nth l j : S j < length l -> In (nth (S j) l 0 - nth j l 0)%Z (diffs l).
Proof.
  revert j. induction l as [|a l IH]; intros j Hj; simpl in Hj; [lia|]. destruct l as [|b l]; simpl in Hj; [lia|].
  change (diffs (a :: b :: l)) with ((b - a)%Z :: diffs (b :: l)). destruct j as [|j]; [left; auto|]. right.
  apply (IH j). simpl. lia.
Qed.
Lemma item_inv l x : item (diffs l) = Ok x ->
  2 <= length l /\ forall j, S j < length l -> nth (S j) l 0%Z = (nth j l 0%Z + x)%Z.
Proof.
  unfold item. destruct (uniq Z.compare (diffs l)) as [|y [|z r]] eqn:E; try discriminate. intro H. injection H as ->.
  assert (A : forall y, In y (diffs l) -> y = x).
  { intros y Hy. apply (proj2 (uniq_in Z.compare Z.compare_eq_iff y (diffs l))) in Hy. rewrite E in Hy. destruct Hy as [->|[]]; auto. }
  split.
  - destruct l as [|a [|b l]]; simpl; try lia; discriminate.
  - intros j Hj. rewrite <- (A _ (diffs_nth l j Hj)). lia.
Qed.
Lemma item_err l : (exists x, item (diffs l) = Ok x) \/ item (diffs l) = Err ValueError.
Proof. unfold item. destruct (uniq Z.compare (diffs l)) as [|y [|z r]]; eauto. Qed.

Lemma c45_spacing : forall m n C, regular m n C -> positive n C -> 1 < n ->
  (cy_effects_table m = Err ValueError <->
   ~ (2 < n /\ evenly_spaced (firstn (n - 1) (m_cols m)) /\ evenly_spaced (firstn (n - 1) (m_idx m)))) /\
  ((exists rows, cy_effects_table m = Ok rows) \/ cy_effects_table m = Err ValueError).
Proof.
  intros m n C R P Hn. destruct (regular_rmat m n C R) as (E0 & So0 & Sd0 & Lo0 & Ld0).
  set (N := n - 1). set (os := firstn N (m_idx m)). set (ds := firstn N (m_cols m)).
  assert (E : a2a m = rmat os ds N (lnk C)) by (rewrite E0 at 1; rewrite r_a2a by (auto; lia); reflexivity).
  assert (So : zsorted os) by (apply zsorted_firstn; auto). assert (Sd : zsorted ds) by (apply zsorted_firstn; auto).
  assert (Lo : length os = N) by (unfold os; rewrite firstn_length; lia). assert (Ld : length ds = N) by (unfold ds; rewrite firstn_length; lia).
  assert (Fd : map fst (lvi_of os ds N) = map (fun p => nth p ds 0%Z) (seq 0 N)) by (unfold lvi_of; rewrite map_map; auto).
  assert (Fo : map snd (lvi_of os ds N) = map (fun p => nth (N - 1 - p) os 0%Z) (seq 0 N)) by (unfold lvi_of; rewrite map_map; auto).
  assert (T : (exists rows, cy_effects_table m = Ok rows) <->
     (exists x, item (diffs (map fst (lvi_of os ds N))) = Ok x) /\ (exists y, item (diffs (map snd (lvi_of os ds N))) = Ok y)).
  { unfold cy_effects_table, a2a_lvi. rewrite E, a_lvi by auto. cbn [bind].
    destruct (item (diffs (map fst (lvi_of os ds N)))) as [x|e]; cbn [bind].
    - destruct (item (diffs (map snd (lvi_of os ds N)))) as [y|e]; cbn [bind]; split; eauto.
      + intros (r & Hr). discriminate.
      + intros (_ & y & Hy). discriminate.
    - split; [intros (r & Hr); discriminate|intros ((x & Hx) & _); discriminate]. }
  assert (X : (exists rows, cy_effects_table m = Ok rows) \/ cy_effects_table m = Err ValueError).
  { unfold cy_effects_table, a2a_lvi. rewrite E, a_lvi by auto. cbn [bind].
    destruct (item_err (map fst (lvi_of os ds N))) as [(x & ->)| ->]; cbn [bind]; auto.
    destruct (item_err (map snd (lvi_of os ds N))) as [(y & ->)| ->]; cbn [bind]; eauto. }
  split; [|exact X].
  assert (Q : (exists rows, cy_effects_table m = Ok rows) <-> 2 < n /\ evenly_spaced ds /\ evenly_spaced os).
  { rewrite T. split.
    - intros ((x & Hx) & (y & Hy)). apply item_inv in Hx as (L1 & Hx). apply item_inv in Hy as (L2 & Hy).
      rewrite Fd, map_length, seq_length in L1, Hx. rewrite Fo, map_length, seq_length in Hy.
      assert (Hd : forall j, S j < N -> nth (S j) ds 0%Z = (nth j ds 0%Z + x)%Z).
      { intros j Hj. specialize (Hx j Hj). rewrite !nth_map_seq in Hx by lia. exact Hx. }
      assert (Ho : forall j, S j < N -> nth (S j) os 0%Z = (nth j os 0%Z + - y)%Z).
      { intros j Hj. specialize (Hy (N - 2 - j) ltac:(lia)). rewrite !nth_map_seq in Hy by lia.
        replace (N - 1 - (N - 2 - j)) with (S j) in Hy by lia. replace (N - 1 - S (N - 2 - j)) with j in Hy by lia. lia. }
      split; [lia|]. split.
      + exists x. split; [|intros j Hj; apply Hd; lia]. assert (K := zsorted_nth ds 0 1 0%Z Sd ltac:(rewrite Ld; lia)).
        assert (K' := Hd 0 ltac:(lia)). lia.
      + exists (- y)%Z. split; [|intros j Hj; apply Ho; lia]. assert (K := zsorted_nth os 0 1 0%Z So ltac:(rewrite Lo; lia)).
        assert (K' := Ho 0 ltac:(lia)). lia.
    - intros (H2 & (sd & _ & Hd) & (so & _ & Ho)). split.
      + apply (diffs_const _ sd); rewrite Fd, map_length, seq_length; [lia|]. intros j Hj. rewrite !nth_map_seq by lia. apply Hd. lia.
      + apply (diffs_const _ (- so)%Z); rewrite Fo, map_length, seq_length; [lia|]. intros j Hj. rewrite !nth_map_seq by lia.
        replace (N - 1 - j) with (S (N - 1 - S j)) by lia. rewrite (Ho (N - 1 - S j)) by lia. lia. }
  split.
  - intros He K. apply Q in K as (r & Hr). rewrite He in Hr. discriminate.
  - intro K. destruct X as [X|X]; [|exact X]. exfalso. apply K, Q, X.
Qed.
