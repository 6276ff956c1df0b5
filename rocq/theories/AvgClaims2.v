(** Proofs of C19 and C21. *)

From Coq Require Import String Ascii QArith Qcanon ZArith List Bool Lia Permutation Sorting.Sorted.
From Verif Require Import Val Frame Triangle A2A Base QcLib ListLib Spec BuildFacts CumFacts FillFacts
  TotriFacts TblFacts TriClaims ConvFacts TriClaims2 TriClaims4 TriClaims5 RegFacts AvgFacts AvgClaims.
Import ListNotations.
Open Scope list_scope.
Open Scope nat_scope.

Lemma rows_of_latest k N : 0 < k -> rows_of k N = latest_rows k N.
Proof.
  intro H. unfold rows_of, latest_rows. destruct (Nat.eqb_spec k 0); [lia|].
  destruct (Nat.le_gt_cases N k).
  - replace (N - k) with 0 by lia. rewrite Nat.sub_0_r. auto.
  - assert (E : seq 0 N = seq 0 (N - k) ++ seq (N - k) k) by (rewrite <- seq_app; f_equal; lia).
    rewrite E, skipn_app, seq_length, Nat.sub_diag.
    rewrite skipn_all2 by (rewrite seq_length; lia). simpl. f_equal. lia.
Qed.
Lemma rows_of_all N : rows_of 0 N = seq 0 N.
Proof. reflexivity. Qed.

Lemma ind_init os ds n C i j : zsorted os -> zsorted ds -> length os = n -> length ds = n -> 1 < n ->
  positive n C -> i + j < n - 1 -> cell (a2aind_init (rmat os ds n C)) i j = Fin 1%Qc.
Proof.
  intros So Sd Lo Ld Hn P L. unfold a2aind_init. rewrite (r_a2a _ _ n C) by (auto; lia).
  unfold rmat. cbn [m_cells]. unfold cell, mk. rewrite map_map. rewrite nth_map_seq by lia.
  rewrite map_map. rewrite nth_map_seq by lia. unfold rc. rewrite ltb_if by lia. auto.
Qed.

Lemma filter_all {A} (l : list A) : filter (fun _ => true) l = l.
Proof. induction l; simpl; congruence. Qed.

Section Entry.
  Variables (gm : list val -> val) (m : lmat) (n : nat) (C : nat -> nat -> Qc) (ind : list (list val))
    (w : nat -> nat -> bool).
  Hypothesis R : regular m n C.
  Hypothesis P : positive n C.
  Hypothesis Hn : 1 < n.
  Hypothesis Hind : forall i j, i + j < n - 1 -> cell ind i j = Fin (if w i j then 1 else 0)%Qc.
  Hypothesis Hlast : forall j, j < n - 1 -> w (n - 2 - j) j = true.

  Lemma avgs_exist : exists avgs, a2a_avgs gm m ind = Ok avgs /\ NoDup (map fst avgs) /\
    forall a k, In (a, k) (avg_specs (n - 1)) -> forall j, j < n - 1 ->
      entry avgs (avg_label a k) j = Some (avgval n C w gm a k j).
  Proof.
    apply regular_rmat in R as (E & So & Sd & Lo & Ld). rewrite E. eexists. split.
    - apply a2a_avgs_eq with (w := w); auto.
    - split.
      + rewrite map_map. cbn [fst]. generalize (avg_specs_nodup (n - 1)). generalize (avg_specs (n - 1)).
        induction 1 as [|[a k] l Hx Nx IH]; simpl; constructor; auto.
        intro Q. apply in_map_iff in Q as ([b c] & Eq & Hin). cbn in Eq. apply avg_label_inj in Eq as [-> ->]. auto.
      + intros a k Hin j Hj. unfold entry.
        rewrite (find_label (fun sp => map (avgval n C w gm (fst sp) (snd sp)) (seq 0 (n - 1)))) by auto.
        cbn [snd fst]. rewrite nth_error_map.
        rewrite (nth_error_nth' (seq 0 (n - 1)) 0) by (rewrite seq_length; auto).
        rewrite seq_nth by auto. reflexivity.
  Qed.

End Entry.

Lemma c19 gm m n C : regular m n C -> positive n C -> 1 < n ->
  exists avgs, a2a_avgs gm m (a2aind_init m) = Ok avgs /\ NoDup (map fst avgs) /\
   forall j, j < n - 1 ->
    let links := map (fun i => (C i (S j) / C i j)%Qc) in
    let total col rows := qsum (map (fun i => C i col) rows) in
    let all := seq 0 (n - 1 - j) in
    entry avgs "all-simple" j = Some (Fin (mean (links all))) /\
    entry avgs "all-geometric" j = Some (gm (map Fin (links all))) /\
    entry avgs "all-weighted" j = Some (Fin (total (S j) all / total j all)%Qc) /\
    (exists v, medial_avg (map Fin (links all)) = Ok v /\ entry avgs "all-medial" j = Some v) /\
    forall k, 1 <= k < n - 1 ->
      let rows := latest_rows k (n - 1 - j) in
      entry avgs ("simple-" ++ str_nat k) j = Some (Fin (mean (links rows))) /\
      entry avgs ("geometric-" ++ str_nat k) j = Some (gm (map Fin (links rows))) /\
      entry avgs ("weighted-" ++ str_nat k) j = Some (Fin (total (S j) rows / total j rows)%Qc) /\
      (exists v, medial_avg (map Fin (links rows)) = Ok v /\ entry avgs ("medial-" ++ str_nat k) j = Some v).
Proof.
  intros R P Hn. assert (R' := R). apply regular_rmat in R' as (E & So & Sd & Lo & Ld).
  destruct (avgs_exist gm m n C (a2aind_init m) (fun _ _ => true) R P Hn) as (avgs & A & N & En).
  - intros i j L. rewrite E. apply ind_init; auto.
  - auto.
  - exists avgs. split; auto. split; auto. intros j Hj. cbv zeta.
    assert (K : forall k, kept n (fun _ _ => true) k j = rows_of k (n - 1 - j)) by (intro; apply filter_all).
    assert (I0 : forall a, In (a, 0) (avg_specs (n - 1))) by (intro; apply in_avg_specs; auto).
    assert (M : forall k, exists v, medial_avg (map Fin (map (fun i => (C i (S j) / C i j)%Qc) (rows_of k (n - 1 - j)))) = Ok v).
    { intro k. apply medial_ok. intro Q. apply map_eq_nil in Q. assert (L := rows_last k (n - 1 - j)).
      rewrite Q in L. apply L. lia. }
    assert (G : forall a k, In (a, k) (avg_specs (n - 1)) -> entry avgs (avg_label a k) j = Some (avgval n C (fun _ _ => true) gm a k j)).
    { intros. apply En; auto. }
    split; [|split; [|split; [|split]]].
    + etransitivity; [exact (G Simple 0 (I0 _))|]. unfold avgval. rewrite K, rows_of_all. auto.
    + etransitivity; [exact (G Geometric 0 (I0 _))|]. unfold avgval. rewrite K, rows_of_all. auto.
    + etransitivity; [exact (G Weighted 0 (I0 _))|]. unfold avgval. rewrite rows_of_all. auto.
    + destruct (M 0) as (x & Ex). exists x. rewrite rows_of_all in Ex. split; auto.
      etransitivity; [exact (G Medial 0 (I0 _))|]. unfold avgval. rewrite K, rows_of_all. unfold link. rewrite Ex. auto.
    + intros k Hk. assert (Ik : forall a, In (a, k) (avg_specs (n - 1))) by (intro; apply in_avg_specs; auto).
      assert (Lk : forall a, avg_label a k = (avg_name a ++ "-" ++ str_nat k)%string).
      { intro a. unfold avg_label. destruct (Nat.eqb_spec k 0); auto. lia. }
      rewrite <- (rows_of_latest k) by lia.
      assert (Gk : forall a, entry avgs (avg_name a ++ "-" ++ str_nat k) j = Some (avgval n C (fun _ _ => true) gm a k j)).
      { intro a. rewrite <- Lk. auto. }
      split; [|split; [|split]].
      * etransitivity; [exact (Gk Simple)|]. unfold avgval. rewrite K. auto.
      * etransitivity; [exact (Gk Geometric)|]. unfold avgval. rewrite K. auto.
      * etransitivity; [exact (Gk Weighted)|]. unfold avgval. auto.
      * destruct (M k) as (x & Ex). exists x. split; auto. etransitivity; [exact (Gk Medial)|]. unfold avgval. rewrite K.
        unfold link. rewrite Ex. auto.
Qed.

(** A weighted average lies between the smallest and the largest ratio. *)
Lemma weighted_between (a b : nat -> Qc) (rows : list nat) lo hi : rows <> [] ->
  (forall i, In i rows -> 0 < b i)%Qc -> (forall i, In i rows -> lo <= a i / b i <= hi)%Qc ->
  (lo <= qsum (map a rows) / qsum (map b rows) <= hi)%Qc.
Proof.
  intros N B H. assert (S : (0 < qsum (map b rows))%Qc).
  { apply qsum_pos.
    - intro Q. apply map_eq_nil in Q. auto.
    - intros x Hx. apply in_map_iff in Hx as (i & <- & Hi). auto. }
  split.
  - apply qc_le_div; auto. rewrite <- qsum_map_mulc. apply qsum_le. intros i Hi. apply qc_le_div; auto. apply H; auto.
  - apply qc_div_le; auto. rewrite <- qsum_map_mulc. apply qsum_le. intros i Hi. apply qc_div_le; auto. apply H; auto.
Qed.
Lemma c19_between m n C j lo hi : regular m n C -> positive n C -> j < n - 1 ->
  (forall i, i < n - 1 - j -> (lo <= C i (S j) / C i j <= hi)%Qc) ->
  (lo <= qsum (map (fun i => C i (S j)) (seq 0 (n - 1 - j)%nat)) /
         qsum (map (fun i => C i j) (seq 0 (n - 1 - j)%nat)) <= hi)%Qc.
Proof.
  intros R P Hj H. apply weighted_between.
  - destruct (n - 1 - j) eqn:E; [lia|discriminate].
  - intros i Hi. apply in_seq in Hi. apply P. lia.
  - intros i Hi. apply in_seq in Hi. apply H. lia.
Qed.

(** ** C21 *)

Lemma c21_averages gm m n C ind (w : nat -> nat -> bool) : regular m n C -> positive n C -> 1 < n ->
  (forall i j, i + j < n - 1 -> cell ind i j = Fin (if w i j then 1 else 0)%Qc) ->
  (forall j, j < n - 1 -> w (n - 2 - j) j = true) ->
  exists avgs, a2a_avgs gm m ind = Ok avgs /\
   forall j, j < n - 1 ->
    let links rows := map (fun i => (C i (S j) / C i j)%Qc) (filter (fun i => w i j) rows) in
    let all := seq 0 (n - 1 - j) in
    entry avgs "all-simple" j = Some (Fin (mean (links all))) /\
    entry avgs "all-geometric" j = Some (gm (map Fin (links all))) /\
    (exists v, medial_avg (map Fin (links all)) = Ok v /\ entry avgs "all-medial" j = Some v) /\
    forall k, 1 <= k < n - 1 ->
      let rows := latest_rows k (n - 1 - j) in
      entry avgs ("simple-" ++ str_nat k) j = Some (Fin (mean (links rows))) /\
      entry avgs ("geometric-" ++ str_nat k) j = Some (gm (map Fin (links rows))) /\
      (exists v, medial_avg (map Fin (links rows)) = Ok v /\ entry avgs ("medial-" ++ str_nat k) j = Some v).
Proof.
  intros R P Hn Hi Hl. assert (R' := R). apply regular_rmat in R' as (E & So & Sd & Lo & Ld).
  destruct (avgs_exist gm m n C ind w R P Hn Hi Hl) as (avgs & A & N & En).
  exists avgs. split; auto. intros j Hj. cbv zeta.
  assert (I0 : forall a, In (a, 0) (avg_specs (n - 1))) by (intro; apply in_avg_specs; auto).
  assert (M : forall k, exists v, medial_avg (map Fin (map (fun i => (C i (S j) / C i j)%Qc)
             (filter (fun i => w i j) (rows_of k (n - 1 - j))))) = Ok v).
  { intro k. apply medial_ok. intro Q. apply map_eq_nil in Q.
    assert (L : In (n - 2 - j) (filter (fun i => w i j) (rows_of k (n - 1 - j)))).
    { apply filter_In. split; auto. replace (n - 2 - j) with (n - 1 - j - 1) by lia. apply rows_last. lia. }
    rewrite Q in L. auto. }
  assert (G : forall a k, In (a, k) (avg_specs (n - 1)) -> entry avgs (avg_label a k) j = Some (avgval n C w gm a k j)).
  { intros. apply En; auto. }
  split; [|split; [|split]].
  - etransitivity; [exact (G Simple 0 (I0 _))|]. reflexivity.
  - etransitivity; [exact (G Geometric 0 (I0 _))|]. reflexivity.
  - destruct (M 0) as (x & Ex). exists x. rewrite rows_of_all in Ex. split; auto.
    etransitivity; [exact (G Medial 0 (I0 _))|]. unfold avgval, kept. rewrite rows_of_all. unfold link. rewrite Ex. auto.
  - intros k Hk. assert (Ik : forall a, In (a, k) (avg_specs (n - 1))) by (intro; apply in_avg_specs; auto).
    assert (Lk : forall a, avg_label a k = (avg_name a ++ "-" ++ str_nat k)%string).
    { intro a. unfold avg_label. destruct (Nat.eqb_spec k 0); auto. lia. }
    rewrite <- (rows_of_latest k) by lia.
    assert (Gk : forall a, entry avgs (avg_name a ++ "-" ++ str_nat k) j = Some (avgval n C w gm a k j)).
    { intro a. rewrite <- Lk. auto. }
    split; [|split].
    + etransitivity; [exact (Gk Simple)|]. reflexivity.
    + etransitivity; [exact (Gk Geometric)|]. reflexivity.
    + destruct (M k) as (x & Ex). exists x. split; auto. etransitivity; [exact (Gk Medial)|].
      unfold avgval, kept, link. rewrite Ex. auto.
Qed.

Lemma c21_weighted gm m n C ind (w : nat -> nat -> bool) : regular m n C -> positive n C -> 1 < n ->
  (forall i j, i + j < n - 1 -> cell ind i j = Fin (if w i j then 1 else 0)%Qc) ->
  (forall j, j < n - 1 -> w (n - 2 - j) j = true) ->
  exists avgs, a2a_avgs gm m ind = Ok avgs /\
   forall j, j < n - 1 ->
    entry avgs "all-weighted" j =
      Some (Fin (qsum (map (fun i => C i (S j)) (seq 0 (n - 1 - j)%nat)) /
         qsum (map (fun i => C i j) (seq 0 (n - 1 - j)%nat)))%Qc).
Proof.
  intros R P Hn Hi Hl. destruct (avgs_exist gm m n C ind w R P Hn Hi Hl) as (avgs & A & N & En).
  exists avgs. split; auto. intros j Hj. etransitivity; [exact (En Weighted 0 ltac:(apply in_avg_specs; auto) j Hj)|]. reflexivity.
Qed.

Lemma mapM_err {A B} (f : A -> res B) l e : mapM f l = Err e -> exists x, In x l /\ f x = Err e.
Proof.
  induction l as [|a l IH]; simpl; [discriminate|]. destruct (f a) eqn:E; cbn [bind].
  - destruct (mapM f l) eqn:E'; cbn [bind]; [discriminate|]. intro H. destruct IH as (x & Hx & Q); auto.
    exists x. auto.
  - intro H. exists a. split; auto. congruence.
Qed.
Lemma mapM_in {A B} (f : A -> res B) l r x : mapM f l = Ok r -> In x l -> exists y, f x = Ok y.
Proof.
  revert r. induction l as [|a l IH]; simpl; intros r H Hx; [contradiction|].
  destruct (f a) eqn:E; cbn [bind] in H; [|discriminate]. destruct (mapM f l) eqn:E'; cbn [bind] in H; [|discriminate].
  destruct Hx as [->|Hx]; eauto.
Qed.

Lemma c21_latest_raises gm m n C ind (w : nat -> nat -> bool) j : regular m n C -> positive n C -> 2 < n ->
  (forall i j, i + j < n - 1 -> cell ind i j = Fin (if w i j then 1 else 0)%Qc) ->
  j < n - 1 -> w (n - 2 - j) j = false -> a2a_avgs gm m ind = Err IndexError.
Proof.
  intros R P Hn Hi Hj Hw. apply regular_rmat in R as (E & So & Sd & Lo & Ld). rewrite E.
  set (mm := rmat _ _ n C) in *. clear E.
  assert (Er : forall a k c e, one_avg gm mm ind a k c = Err e -> e = IndexError).
  { intros a k c e. unfold one_avg. destruct a; try discriminate.
    - unfold medial_avg. destruct (ssort vcmp _) as [|x r]; [intro Q; inversion Q; auto|].
      destruct (forallb _ _); [discriminate|]. destruct r as [|y r]; [discriminate|].
      destruct r; [discriminate|]. destruct (filter _ _); discriminate.
    - unfold weighted_avg. destruct (_ <=? _); [intro Q; inversion Q; auto|].
      destruct (_ <=? _); [intro Q; inversion Q; auto|discriminate]. }
  assert (Bad : one_avg gm mm ind Medial 1 j = Err IndexError).
  { unfold one_avg, mm. rewrite (adj_window _ _ n C) with (w := w) by (auto; lia). unfold kept, rows_of.
    change (1 =? 0) with false. cbv iota. replace (n - 1 - j - (n - 1 - j - 1)) with 1 by lia.
    replace (n - 1 - j - 1) with (n - 2 - j) by lia. cbn [seq filter]. rewrite Hw. reflexivity. }
  destruct (a2a_avgs gm mm ind) as [avgs|e] eqn:Q.
  - exfalso. unfold a2a_avgs in Q.
    destruct (mapM_in _ _ _ (Medial, 1) Q) as (y & Hy).
    { apply in_avg_specs. unfold mm. rewrite a2a_nrows by (auto; lia). lia. }
    cbn [fst snd] in Hy. destruct (mapM (one_avg gm mm ind Medial 1) _) as [row|] eqn:Q2; [|discriminate].
    destruct (mapM_in _ _ _ j Q2) as (z & Hz).
    { apply in_seq. unfold mm. rewrite a2a_ncols by (auto; lia). lia. }
    congruence.
  - f_equal. unfold a2a_avgs in Q. apply mapM_err in Q as ([a k] & _ & Q). cbn [fst snd] in Q.
    destruct (mapM (one_avg gm mm ind a k) _) as [row|e'] eqn:Q2; cbn [bind] in Q; [discriminate|].
    inversion Q; subst. apply mapM_err in Q2 as (c & _ & Q2). eapply Er; eauto.
Qed.
