(** Proofs of C53-C57. *)

From Coq Require Import String QArith Qcanon ZArith List Bool Lia Permutation Sorting.Sorted.
From Verif Require Import Val Frame Triangle A2A Base Mack ListLib QcLib Spec SpecRel RegFacts AvgFacts AvgClaims AvgClaims2 BaseClaims
  MackFacts MackClaims MackClaims2 MackClaims3 TriClaims4 MackExplicit RelFacts RelClaims.
Import ListNotations.
Open Scope list_scope.
Open Scope nat_scope.

(** ** C53: labels *)
Lemma clvi_same m m' n C C' cl : regular m n C -> regular m' n C' -> 0 < n -> clvi m = Ok cl -> clvi m' = Ok cl.
Proof.
  intros R R' Hn D. apply regular_rmat in R as (E & So & Sd & Lo & Ld). apply regular_rmat in R' as (E' & So' & Sd' & Lo' & Ld').
  rewrite E, (r_clvi _ _ n C) in D by (auto; lia). injection D as <-. rewrite E', (r_clvi _ _ n C') by (auto; lia). auto.
Qed.
Lemma labels_of os ds n C f tail : length os = n -> length ds = n ->
  map s_origin (c_rows (base_pure os ds n C f tail)) = os /\ map s_maturity (c_rows (base_pure os ds n C f tail)) = rev ds /\
  map fst (c_ldfs (base_pure os ds n C f tail)) = ds.
Proof.
  intros Lo Ld. unfold base_pure. cbn [c_rows c_ldfs]. rewrite !map_map. cbn [fst s_origin s_maturity].
  split; [|split].
  - rewrite <- Lo. apply map_nth_seq.
  - apply nth_ext with (d := 0%Z) (d' := 0%Z); [rewrite map_length, seq_length, rev_length; auto|].
    intros i Hi. rewrite map_length, seq_length in Hi. rewrite nth_map_seq by auto. rewrite rev_nth by lia. f_equal. lia.
  - rewrite <- Ld. apply map_nth_seq.
Qed.

Lemma avgs_labels gm m m' n C ind : regular m n C -> regular m' n C -> positive n C -> 1 < n ->
  a2a_avgs gm m' ind = a2a_avgs gm m ind.
Proof. intros R R' P Hn. exact (pair_avgs m m' n C C R R' P P Hn (fun _ _ _ => eq_refl) (fun _ _ _ => eq_refl) gm ind). Qed.

Lemma base_labels gm m m' n C v cl ind sel tail sel' r (f : nat -> Qc) : regular m n C -> regular m' n C -> positive n C -> 2 < n ->
  tail_fits (m_cols m) -> tail_fits (m_cols m') -> clvi m = Ok cl -> (forall s, sel <> SelSeries s) ->
  base_cl gm (mkTri m "origin" "dev" v) cl ind sel tail = (sel', Ok r) ->
  c_ldfs r = map (fun j => (nth j (m_cols m) 0%Z, Fin (f j))) (seq 0 n) ->
  clvi m' = Ok cl /\ exists r', base_cl gm (mkTri m' "origin" "dev" v) cl ind sel tail = (sel', Ok r') /\
    map figures (c_rows r') = map figures (c_rows r) /\ c_total r' = c_total r /\
    map snd (c_ldfs r') = map snd (c_ldfs r) /\ c_trisqrd r' = c_trisqrd r /\
    map s_origin (c_rows r') = m_idx m' /\ map s_maturity (c_rows r') = rev (m_cols m') /\ map fst (c_ldfs r') = m_cols m'.
Proof.
  intros R R' P Hn Ev Ev' D Ns B L.
  destruct (base_pure_inv gm m n C v cl ind sel tail sel' r f R ltac:(lia) D B L) as (-> & S1).
  assert (D' := clvi_same m m' n C C cl R R' ltac:(lia) D). split; auto.
  assert (S2 : select_ldfs gm m' ind sel tail = (sel', Ok (map (fun j => (nth j (m_cols m') 0%Z, Fin (f j))) (seq 0 n)))).
  { eapply (pair_select m m' n C C R R' P P); eauto; lia. }
  eexists. split; [apply (base_pure_intro gm m' n C); eauto; lia|].
  assert (R2 := R'). apply regular_rmat in R2 as (_ & _ & _ & Lo' & Ld').
  destruct (labels_of (m_idx m') (m_cols m') n C f tail Lo' Ld') as (Q1 & Q2 & Q3). rewrite Q1, Q2, Q3.
  unfold base_pure. cbn [c_rows c_total c_ldfs c_trisqrd]. rewrite !map_map. cbn [snd]. repeat split; auto.
Qed.

Lemma mack_labels m m' n C v cl ind W al tail k : regular m n C -> regular m' n C -> positive n C -> 3 < n ->
  tail_fits (m_cols m) -> tail_fits (m_cols m') -> clvi m = Ok cl -> weights ind n W ->
  mack_cl (mkTri m "origin" "dev" v) cl ind al tail = Ok k ->
  exists k', mack_cl (mkTri m' "origin" "dev" v) cl ind al tail = Ok k' /\
    map figures (c_rows (k_cl k')) = map figures (c_rows (k_cl k)) /\ c_total (k_cl k') = c_total (k_cl k) /\
    map snd (c_ldfs (k_cl k')) = map snd (c_ldfs (k_cl k)) /\ c_trisqrd (k_cl k') = c_trisqrd (k_cl k) /\
    map snd (k_devpvar k') = map snd (k_devpvar k) /\ map snd (k_ldfvar k') = map snd (k_ldfvar k) /\
    k_proc k' = k_proc k /\ k_param k' = k_param k /\ k_mse k' = k_mse k /\ k_mse_total k' = k_mse_total k /\
    map s_origin (c_rows (k_cl k')) = m_idx m' /\ map s_maturity (c_rows (k_cl k')) = rev (m_cols m').
Proof.
  intros R R' P Hn Ev Ev' D Hw K. assert (D' := clvi_same m m' n C C cl R R' ltac:(lia) D).
  rewrite (mack_explicit m n C ind W al v cl tail R P Hn Ev D Hw) in K. injection K as <-.
  eexists. split; [apply (mack_explicit m' n C ind W al v cl tail R' P Hn Ev' D' Hw)|].
  assert (R2 := R'). apply regular_rmat in R2 as (_ & _ & _ & Lo' & Ld').
  unfold mack_pure. cbn [k_cl c_ldfs c_rows c_total c_trisqrd k_devpvar k_ldfvar k_param k_proc k_mse k_mse_total]. rewrite !map_map.
  cbn [fst snd]. do 10 (split; [reflexivity|]). split.
  - unfold xrow. cbn [s_origin]. rewrite <- Lo'. apply map_nth_seq.
  - unfold xrow. cbn [s_maturity]. apply nth_ext with (d := 0%Z) (d' := 0%Z); [rewrite map_length, seq_length, rev_length; auto|].
    intros i Hi. rewrite map_length, seq_length in Hi. rewrite nth_map_seq by auto. rewrite rev_nth by lia. f_equal. lia.
Qed.

(** ** C54: the youngest origin *)
Lemma firstn_map_seq {A} (g : nat -> A) n : firstn (n - 1) (map g (seq 0 n)) = map g (seq 0 (n - 1)).
Proof.
  rewrite firstn_map. f_equal. destruct n; auto. replace (S n - 1) with n by lia. rewrite seq_S, firstn_app, seq_length, Nat.sub_diag.
  simpl. rewrite app_nil_r. apply firstn_all2. rewrite seq_length. auto.
Qed.

Section Young.
  Variables (n : nat) (C C' : nat -> nat -> Qc).
  Hypothesis Y : same_but_youngest n C C'.
  Hypothesis Hn : 2 < n.

  Lemma y_link i j : i + S j < n -> (C' i (S j) / C' i j = C i (S j) / C i j)%Qc.
  Proof. intro L. rewrite !Y by lia. auto. Qed.
  Lemma y_wgt k j : j < n - 1 ->
    (qsum (map (fun i => C' i (S j)) (rows_of k (n - 1 - j))) / qsum (map (fun i => C' i j) (rows_of k (n - 1 - j)))
     = qsum (map (fun i => C i (S j)) (rows_of k (n - 1 - j))) / qsum (map (fun i => C i j) (rows_of k (n - 1 - j))))%Qc.
  Proof.
    intro Hj. assert (E : forall c, c <= S j -> map (fun i => C' i c) (rows_of k (n - 1 - j)) = map (fun i => C i c) (rows_of k (n - 1 - j))).
    { intros c Hc. apply map_ext_in. intros i Hi. apply in_rows in Hi. apply Y; lia. }
    rewrite !E by lia. auto.
  Qed.

  Variables (W : nat -> nat -> Qc) (al : nat).
  Lemma y_den j : sumf 0 (n - 1 - j) (fun i => W i j * C' i j ^ al)%Qc = sumf 0 (n - 1 - j) (fun i => W i j * C i j ^ al)%Qc.
  Proof. apply sumf_ext. intros i Hi. rewrite Y by lia. auto. Qed.
  Lemma y_xf j : xf n C' W al j = xf n C W al j.
  Proof.
    unfold xf. destruct (Nat.ltb_spec (S j) n); auto. rewrite y_den. f_equal. apply sumf_ext. intros i Hi.
    rewrite y_link by lia. rewrite Y by lia. auto.
  Qed.
  Lemma y_xs2 j : j < n -> xs2 n C' W al j = xs2 n C W al j.
  Proof.
    intro Hj. unfold xs2, sigma2. f_equal. apply sumf_ext. intros i Hi. rewrite y_link, y_xf by lia. rewrite Y by lia. auto.
  Qed.
  Lemma y_xdeg : xdeg n C' W al = xdeg n C W al.
  Proof. unfold xdeg. rewrite !y_xs2 by lia. auto. Qed.
  Lemma y_xs j : xs n C' W al j = xs n C W al j.
  Proof. unfold xs. destruct (Nat.ltb_spec j (n - 2)); [apply y_xs2; lia|]. unfold xlast. rewrite !y_xs2 by lia. auto. Qed.
  Lemma y_xu j : xu n C' W al j = xu n C W al j.
  Proof. unfold xu. rewrite y_xs, y_den. auto. Qed.
  Lemma y_xcdf i : xcdf n C' W al i = xcdf n C W al i.
  Proof. unfold xcdf. apply prodf_ext. intros. apply y_xf. Qed.
  Lemma y_lat i : i < n - 1 -> xlat n C' i = xlat n C i.
  Proof. intro H. unfold xlat. apply Y; lia. Qed.
  Lemma y_proj i j : i < n - 1 -> projected n C' (xf n C' W al) i j = projected n C (xf n C W al) i j.
  Proof.
    intro H. unfold projected. rewrite Y by lia. f_equal. apply prodf_ext. intros. apply y_xf.
  Qed.
  Lemma y_proc i : i < n - 1 -> xproc n C' W al i = xproc n C W al i.
  Proof.
    intro H. unfold xproc. rewrite y_xdeg. destruct (xdeg n C W al); auto. rewrite y_proj by auto. f_equal.
    apply sumf_ext. intros j Hj. rewrite y_xs, y_xf, y_proj by auto. auto.
  Qed.
  Lemma y_param i : i < n - 1 -> xparam n C' W al i = xparam n C W al i.
  Proof.
    intro H. unfold xparam. rewrite y_xdeg. destruct (xdeg n C W al); auto. rewrite y_lat by auto.
    rewrite (prodf_ext _ _ _ (fun j => xf n C W al j * xf n C W al j + xu n C W al j)%Qc) by (intros; rewrite y_xf, y_xu; auto).
    rewrite (prodf_ext _ _ (fun j => xf n C' W al j * xf n C' W al j)%Qc (fun j => xf n C W al j * xf n C W al j)%Qc) by (intros; rewrite y_xf; auto).
    auto.
  Qed.
End Young.

Lemma base_young gm m m' n C C' v cl ind sel tail sel' r (f : nat -> Qc) :
  regular m n C -> regular m' n C' -> positive n C -> positive n C' -> 2 < n ->
  m_idx m' = m_idx m -> m_cols m' = m_cols m -> same_but_youngest n C C' ->
  tail_fits (m_cols m) -> clvi m = Ok cl -> (forall s, sel <> SelSeries s) ->
  base_cl gm (mkTri m "origin" "dev" v) cl ind sel tail = (sel', Ok r) ->
  c_ldfs r = map (fun j => (nth j (m_cols m) 0%Z, Fin (f j))) (seq 0 n) ->
  a2a_avgs gm m' ind = a2a_avgs gm m ind /\ clvi m' = Ok cl /\
  exists r', base_cl gm (mkTri m' "origin" "dev" v) cl ind sel tail = (sel', Ok r') /\
    c_ldfs r' = c_ldfs r /\ firstn (n - 1) (c_rows r') = firstn (n - 1) (c_rows r) /\
    map s_cldf (c_rows r') = map s_cldf (c_rows r).
Proof.
  intros R R' P P' Hn Ei Ec Y Ev D Ns B L.
  destruct (base_pure_inv gm m n C v cl ind sel tail sel' r f R ltac:(lia) D B L) as (-> & S1).
  assert (D' := clvi_same m m' n C C' cl R R' ltac:(lia) D).
  assert (Hl := y_link n C C' Y Hn). assert (Hw := y_wgt n C C' Y Hn).
  split; [apply (pair_avgs m m' n C C' R R' P P' ltac:(lia) Hl Hw)|]. split; auto.
  assert (S2 : select_ldfs gm m' ind sel tail = (sel', Ok (map (fun j => (nth j (m_cols m') 0%Z, Fin (f j))) (seq 0 n)))).
  { eapply (pair_select m m' n C C' R R' P P'); eauto; try lia. rewrite Ec. auto. }
  eexists. split; [apply (base_pure_intro gm m' n C'); eauto; lia|]. rewrite Ei, Ec.
  unfold base_pure. cbn [c_rows c_ldfs]. split; auto. split.
  - rewrite !firstn_map_seq. apply map_seq_ext. intros i Hi. cbv zeta. rewrite !Y by lia. auto.
  - rewrite !map_map. reflexivity.
Qed.

Lemma mack_young m m' n C C' v cl ind W al tail k :
  regular m n C -> regular m' n C' -> positive n C -> positive n C' -> 3 < n ->
  m_idx m' = m_idx m -> m_cols m' = m_cols m -> same_but_youngest n C C' ->
  tail_fits (m_cols m) -> clvi m = Ok cl -> weights ind n W ->
  mack_cl (mkTri m "origin" "dev" v) cl ind al tail = Ok k ->
  exists k', mack_cl (mkTri m' "origin" "dev" v) cl ind al tail = Ok k' /\
    c_ldfs (k_cl k') = c_ldfs (k_cl k) /\ k_devpvar k' = k_devpvar k /\ k_ldfvar k' = k_ldfvar k /\
    firstn (n - 1) (c_rows (k_cl k')) = firstn (n - 1) (c_rows (k_cl k)) /\
    firstn (n - 1) (k_proc k') = firstn (n - 1) (k_proc k) /\
    firstn (n - 1) (k_param k') = firstn (n - 1) (k_param k) /\
    firstn (n - 1) (k_mse k') = firstn (n - 1) (k_mse k).
Proof.
  intros R R' P P' Hn Ei Ec Y Ev D Hw K. assert (D' := clvi_same m m' n C C' cl R R' ltac:(lia) D).
  rewrite (mack_explicit m n C ind W al v cl tail R P Hn Ev D Hw) in K. injection K as <-.
  eexists. split; [apply (mack_explicit m' n C' ind W al v cl tail R' P' Hn); auto; rewrite Ec; auto|].
  rewrite Ei, Ec. unfold mack_pure. cbn [k_cl c_ldfs c_rows k_devpvar k_ldfvar k_param k_proc k_mse].
  assert (Hn2 : 2 < n) by lia.
  split; [apply map_seq_ext; intros; rewrite (y_xf n C C') by auto; auto|].
  split; [apply map_seq_ext; intros; unfold xmissing; rewrite (y_xdeg n C C'), (y_xs n C C') by auto; auto|].
  split; [apply map_seq_ext; intros; unfold xmissing; rewrite (y_xdeg n C C'), (y_xu n C C') by auto; auto|].
  rewrite !firstn_map_seq.
  split; [apply map_seq_ext; intros i Hi; unfold xrow; rewrite (y_xcdf n C C'), (y_lat n C C') by (auto; lia); auto|].
  split; [apply map_seq_ext; intros i Hi; rewrite (y_proc n C C') by (auto; lia); auto|].
  split; [apply map_seq_ext; intros i Hi; rewrite (y_param n C C') by (auto; lia); auto|].
  apply map_seq_ext; intros i Hi; unfold xmse; rewrite (y_proc n C C'), (y_param n C C') by (auto; lia); auto.
Qed.

(** ** Bounds of every average *)
Section Bounds.
  Variables (gm : list val -> val) (m : lmat) (n : nat) (C : nat -> nat -> Qc) (ind : list (list val)) (w : nat -> nat -> bool).
  Hypothesis R : regular m n C.
  Hypothesis P : positive n C.
  Hypothesis Hn : 1 < n.
  Hypothesis Hind : forall i j, i + j < n - 1 -> cell ind i j = Fin (if w i j then 1 else 0)%Qc.
  Hypothesis Hlast : forall j, j < n - 1 -> w (n - 2 - j) j = true.

  Lemma avgs_rows : a2a_avgs gm m ind
    = Ok (map (fun sp => (avg_label (fst sp) (snd sp), map (avgval n C w gm (fst sp) (snd sp)) (seq 0 (n - 1))))
              (avg_specs (n - 1))).
  Proof.
    apply regular_rmat in R as (E & So & Sd & Lo & Ld). rewrite E. apply a2a_avgs_eq; auto.
  Qed.
  Lemma kept_some k j : j < n - 1 -> kept n w k j <> [].
  Proof.
    intros Hj E. assert (Q : In (n - 2 - j) (kept n w k j)); [|rewrite E in Q; destruct Q].
    unfold kept. apply filter_In. split; auto. replace (n - 2 - j) with (n - 1 - j - 1) by lia. apply rows_last. lia.
  Qed.
  Lemma avg_links k j y : j < n - 1 -> In y (map (fun i => link C i j) (kept n w k j)) ->
    exists i, i < n - 1 - j /\ y = (C i (S j) / C i j)%Qc /\ (0 < y)%Qc.
  Proof.
    intros Hj Hy. apply in_map_iff in Hy as (i & <- & Hi). unfold kept in Hi. apply filter_In in Hi as [Hi _]. apply in_rows in Hi.
    exists i. split; auto. split; auto. apply qc_div_pos; apply P; lia.
  Qed.
  Lemma avgval_bounds (a : avgtype) k j lo hi q : mean_like gm -> j < n - 1 ->
    (forall i, i < n - 1 - j -> (lo <= C i (S j) / C i j <= hi)%Qc) ->
    avgval n C w gm a k j = Fin q -> (lo <= q <= hi)%Qc.
  Proof.
    intros G Hj B E.
    assert (Nk : map (fun i => link C i j) (kept n w k j) <> []).
    { intro Q. apply map_eq_nil in Q. exact (kept_some k j Hj Q). }
    assert (Bl : forall y, In y (map (fun i => link C i j) (kept n w k j)) -> (0 < y)%Qc /\ (lo <= y <= hi)%Qc).
    { intros y Hy. destruct (avg_links k j y Hj Hy) as (i & Hi & -> & Py). split; auto. }
    destruct a; unfold avgval in E.
    - injection E as <-. apply mean_bounds; auto. intros x Hx. apply Bl; auto.
    - destruct (G _ lo hi Nk Bl) as (q' & Eq & Bq). rewrite Eq in E. injection E as <-. auto.
    - destruct (medial_avg _) as [x|e] eqn:M; [|discriminate]. subst x.
      destruct (c20 _ Nk) as (_ & _ & _ & _ & Bm). eapply Bm; [exact M|]. intros x Hx. apply Bl; auto.
    - injection E as <-. apply weighted_between.
      + intro Q. assert (I := rows_last k (n - 1 - j) ltac:(lia)). rewrite Q in I. destruct I.
      + intros i Hi. apply in_rows in Hi. apply P. lia.
      + intros i Hi. apply in_rows in Hi. apply B. auto.
  Qed.
  Lemma avgval_const a k j x : mean_like gm -> j < n - 1 ->
    (forall i, i < n - 1 - j -> (C i (S j) / C i j = x)%Qc) -> avgval n C w gm a k j = Fin x.
  Proof.
    intros G Hj B.
    assert (Nk : map (fun i => link C i j) (kept n w k j) <> []).
    { intro Q. apply map_eq_nil in Q. exact (kept_some k j Hj Q). }
    assert (Bl : forall y, In y (map (fun i => link C i j) (kept n w k j)) -> y = x).
    { intros y Hy. destruct (avg_links k j y Hj Hy) as (i & Hi & -> & Py). auto. }
    assert (Bx : forall i, i < n - 1 - j -> (x <= C i (S j) / C i j <= x)%Qc) by (intros; rewrite B by auto; split; apply Qcle_refl).
    assert (T : forall q, avgval n C w gm a k j = Fin q -> q = x).
    { intros q E. destruct (avgval_bounds a k j x x q G Hj Bx E). apply Qcle_antisym; auto. }
    destruct a; try (unfold avgval in *; f_equal; eapply T; reflexivity).
    - destruct (G _ x x Nk) as (q & E & _).
      + intros y Hy. destruct (avg_links k j y Hj Hy) as (i & Hi & Ey & Py). split; auto. rewrite (Bl y Hy). split; apply Qcle_refl.
      + unfold avgval in *. rewrite E in *. f_equal. apply T. auto.
    - unfold avgval. rewrite (medial_equal _ x); auto.
  Qed.

  Lemma avgs_between avgs s vals j q lo hi : mean_like gm -> a2a_avgs gm m ind = Ok avgs -> In (s, vals) avgs -> j < n - 1 ->
    nth j vals NaN = Fin q -> (forall i, i < n - 1 - j -> (lo <= C i (S j) / C i j <= hi)%Qc) -> (lo <= q <= hi)%Qc.
  Proof.
    intros G A I Hj N B. rewrite avgs_rows in A. injection A as <-. apply in_map_iff in I as ([a k] & Q & _).
    cbn [fst snd] in Q. injection Q as <- <-. rewrite nth_map_seq in N by auto. eapply avgval_bounds; eauto.
  Qed.

  (** Factors selected by a label. *)
  Hypothesis Hn2 : 2 < n.
  Hypothesis Ev : tail_fits (m_cols m).
  Lemma label_factors s tail fs : ldfs_of_label gm m ind s tail = Ok fs ->
    exists a k, fs = map (fun j => (nth j (m_cols m) 0%Z, if S j <? n then avgval n C w gm a k j else tail)) (seq 0 n).
  Proof.
    intro H.
    destruct (find (fun p => String.eqb (fst p) s) (map (fun sp => (avg_label (fst sp) (snd sp), map (avgval n C w gm (fst sp) (snd sp)) (seq 0 (n - 1))))
              (avg_specs (n - 1)))) as [row|] eqn:F.
    - rewrite (label_ldfs gm m n C ind s tail _ row R P Hn2 Ev avgs_rows F) in H. injection H as <-.
      apply find_some in F as [I _]. apply in_map_iff in I as ([a k] & <- & _). cbn [fst snd]. exists a, k.
      apply map_seq_ext. intros j Hj. f_equal. destruct (Nat.ltb_spec (S j) n); auto. rewrite nth_map_seq by lia. auto.
    - unfold ldfs_of_label in H. rewrite avgs_rows in H. cbn [bind] in H. rewrite F in H. discriminate.
  Qed.
End Bounds.

(** ** C55: exact patterns *)
Section Mult.
  Variables (n : nat) (C : nat -> nat -> Qc) (a b : nat -> Qc).
  Hypothesis M : multiplicative n C a b.

  Lemma mul_pos : positive n C.
  Proof. destruct M as (A & B & E). intros i j L. rewrite E by auto. apply qc_mul_pos; [apply A|apply B]; lia. Qed.
  Lemma mul_link i j : i + S j < n -> (C i (S j) / C i j = b (S j) / b j)%Qc.
  Proof.
    destruct M as (A & B & E). intro L. rewrite !E by lia. field.
    split; apply qc_pos_neq; [apply B|apply A]; lia.
  Qed.
  Lemma pattern_prod (g : nat -> Qc) k l : k + l < n -> (forall j, S j < n -> g j = (b (S j) / b j)%Qc) ->
    prodf k l g = (b (k + l)%nat / b k)%Qc.
  Proof.
    destruct M as (A & B & E). intros L G. induction l as [|l IH].
    - rewrite prodf_0, Nat.add_0_r. field. apply qc_pos_neq, B. lia.
    - rewrite prodf_Sr, IH by lia. rewrite G by lia. replace (k + S l) with (S (k + l)) by lia. field.
      split; apply qc_pos_neq, B; lia.
  Qed.
  Lemma mul_ult (g : nat -> Qc) tl i : i < n -> (forall j, S j < n -> g j = (b (S j) / b j)%Qc) -> g (n - 1) = tl ->
    (C i (n - 1 - i)%nat * prodf (n - 1 - i) (S i) g = a i * b (n - 1)%nat * tl)%Qc.
  Proof.
    destruct M as (A & B & E). intros L G Gt. rewrite prodf_Sr, pattern_prod by (auto; lia).
    replace (n - 1 - i + i) with (n - 1) by lia. rewrite Gt, E by lia. field. apply qc_pos_neq, B. lia.
  Qed.

  Variables (W : nat -> nat -> Qc) (al : nat).
  Hypothesis Wn : forall i j, i + j < n - 1 -> (0 <= W i j)%Qc.
  Hypothesis Wc : forall j, j < n - 1 -> exists i, i + j < n - 1 /\ (0 < W i j)%Qc.
  Lemma mul_xf j : S j < n -> xf n C W al j = (b (S j) / b j)%Qc.
  Proof.
    intro L. unfold xf. rewrite ltb_if by auto.
    rewrite (sumf_mulc_ext _ _ (b (S j) / b j)%Qc _ (fun i => W i j * C i j ^ al)%Qc).
    - unfold Qcdiv. rewrite <- Qcmult_assoc. rewrite Qcmult_inv_r; [ring|].
      apply qc_pos_neq, xden_pos; auto using mul_pos. apply Wc. lia.
    - intros i Hi. rewrite mul_link by lia. ring.
  Qed.
  Lemma mul_xs2 j : S j < n -> xs2 n C W al j = 0%Qc.
  Proof.
    intro L. unfold xs2, sigma2. rewrite sumf_eq0_zero; [unfold Qcdiv; ring|].
    intros i Hi. rewrite mul_link, mul_xf by lia. ring.
  Qed.
  Lemma mul_xdeg : 3 < n -> xdeg n C W al = true.
  Proof. intro H. unfold xdeg. rewrite !mul_xs2 by lia. rewrite qceqb_refl. auto. Qed.
End Mult.

Lemma base_mult gm m n C a b ind (w : nat -> nat -> bool) v cl s tail r : regular m n C -> multiplicative n C a b -> 2 < n ->
  tail_fits (m_cols m) -> clvi m = Ok cl -> mean_like gm ->
  (forall i j, i + j < n - 1 -> cell ind i j = Fin (if w i j then 1 else 0)%Qc) ->
  (forall j, j < n - 1 -> w (n - 2 - j) j = true) ->
  snd (base_cl gm (mkTri m "origin" "dev" v) cl ind (SelLabel s) (Fin tail)) = Ok r ->
  map s_ultimate (c_rows r) = map (fun i => Fin (a i * b (n - 1)%nat * tail)%Qc) (seq 0 n) /\
  map snd (c_ldfs r) = map (fun j => Fin (if S j <? n then b (S j) / b j else tail)%Qc) (seq 0 n).
Proof.
  intros R M Hn Ev D G Hi Hl B.
  destruct (base_cl gm (mkTri m "origin" "dev" v) cl ind (SelLabel s) (Fin tail)) as [sel' o] eqn:E. cbn [snd] in B. subst o.
  assert (E' := E). apply base_cl_inv in E' as (S1 & _). cbn [t_mat select_ldfs] in S1. injection S1 as S0 S1.
  destruct (label_factors gm m n C ind w R (mul_pos n C a b M) ltac:(lia) Hi Hl Hn Ev s (Fin tail) _ S1) as (ty & k & L).
  set (f := fun j => (if S j <? n then b (S j) / b j else tail)%Qc).
  assert (L' : c_ldfs r = map (fun j => (nth j (m_cols m) 0%Z, Fin (f j))) (seq 0 n)).
  { rewrite L. apply map_seq_ext. intros j Hj. f_equal. unfold f. destruct (Nat.ltb_spec (S j) n) as [Lj|Lj]; auto.
    apply avgval_const; auto; try lia; try exact (mul_pos n C a b M).
    intros i Hi'. apply (mul_link n C a b M). lia. }
  destruct (base_pure_inv gm m n C v cl ind _ _ _ r f R ltac:(lia) D E L') as (-> & _).
  split.
  - unfold base_pure. cbn [c_rows]. rewrite map_map. apply map_seq_ext. intros i Hi'. cbn [s_ultimate]. cbv zeta. f_equal.
    apply (mul_ult n C a b M); [lia| |].
    + intros j Lj. unfold f. rewrite ltb_if by auto. auto.
    + unfold f. rewrite nltb_if by lia. auto.
  - unfold base_pure. cbn [c_ldfs]. rewrite map_map. reflexivity.
Qed.

Lemma mack_mult m n C a b ind W al v cl tail : regular m n C -> multiplicative n C a b -> 3 < n ->
  tail_fits (m_cols m) -> clvi m = Ok cl -> weights ind n W ->
  exists k, mack_cl (mkTri m "origin" "dev" v) cl ind al tail = Ok k /\
    map s_ultimate (c_rows (k_cl k)) = map (fun i => Fin (a i * b (n - 1)%nat)%Qc) (seq 0 n) /\
    map snd (c_ldfs (k_cl k)) = map (fun j => Fin (if S j <? n then b (S j) / b j else 1)%Qc) (seq 0 n) /\
    (forall e, In e (k_proc k ++ k_param k ++ k_mse k ++ [k_mse_total k]) -> e = Fin 0%Qc).
Proof.
  intros R M Hn Ev D Hw. eexists. split; [apply (mack_explicit m n C ind W); auto; apply (mul_pos n C a b M)|].
  destruct Hw as (_ & Wn & Wc). unfold mack_pure. cbn [k_cl c_rows c_ldfs k_proc k_param k_mse k_mse_total].
  rewrite !map_map. split; [|split].
  - apply map_seq_ext. intros i Hi. unfold xrow. cbn [s_ultimate]. f_equal. unfold xcdf, xlat.
    rewrite (mul_ult n C a b M (xf n C W al) 1%Qc); [ring|lia| |].
    + intros. apply (mul_xf n C a b M); auto.
    + unfold xf. rewrite nltb_if by lia. auto.
  - apply map_seq_ext. intros j Hj. cbn [snd]. f_equal. destruct (Nat.ltb_spec (S j) n) as [L|L].
    + apply (mul_xf n C a b M); auto.
    + unfold xf. rewrite nltb_if by lia. auto.
  - assert (Dg : xdeg n C W al = true) by (apply (mul_xdeg n C a b M); auto).
    intros e He. rewrite !in_app_iff in He.
    assert (Zp : forall i, xproc n C W al i = 0%Qc) by (intro; unfold xproc; rewrite Dg; auto).
    assert (Zq : forall i, xparam n C W al i = 0%Qc) by (intro; unfold xparam; rewrite Dg; auto).
    destruct He as [He|[He|[He|[<-|[]]]]].
    + apply in_map_iff in He as (i & <- & _). rewrite Zp. auto.
    + apply in_map_iff in He as (i & <- & _). rewrite Zq. auto.
    + apply in_map_iff in He as (i & <- & _). unfold xmse. rewrite Zp, Zq. f_equal.
    + unfold xtot. rewrite Dg. auto.
Qed.

(** ** C56: no negative reserves *)
Lemma prodf_ge1 k l (f : nat -> Qc) : (forall j, k <= j < k + l -> (1 <= f j)%Qc) -> (1 <= prodf k l f)%Qc.
Proof.
  revert k. induction l as [|l IH]; intros k H; [apply Qcle_refl|]. rewrite prodf_Sl.
  assert (A := H k ltac:(lia)). assert (B := IH (S k) ltac:(intros; apply H; lia)).
  assert (Q : (0 <= (f k - 1) * prodf (S k) l f)%Qc) by (apply qc_mul_nonneg; qlra).
  replace (f k * prodf (S k) l f)%Qc with ((f k - 1) * prodf (S k) l f + prodf (S k) l f)%Qc by ring. qlra.
Qed.
Lemma base_pure_ge os ds n C f tail : positive n C -> (forall j, j < n -> (1 <= f j)%Qc) -> no_shortfall (base_pure os ds n C f tail).
Proof.
  intros P F row H. unfold base_pure in H. cbn [c_rows] in H. apply in_map_iff in H as (i & <- & Hi). apply in_seq in Hi.
  cbv zeta. cbn [s_latest s_ultimate s_reserve]. do 3 eexists. split; [reflexivity|]. split; [reflexivity|]. split; [reflexivity|].
  assert (A : (1 <= prodf (n - 1 - i) (S i) f)%Qc) by (apply prodf_ge1; intros; apply F; lia).
  assert (Pc := P i (n - 1 - i) ltac:(lia)).
  assert (Q : (0 <= C i (n - 1 - i)%nat * (prodf (n - 1 - i) (S i) f - 1))%Qc) by (apply qc_mul_nonneg; qlra).
  replace (C i (n - 1 - i)%nat * (prodf (n - 1 - i) (S i) f - 1))%Qc with (C i (n - 1 - i)%nat * prodf (n - 1 - i) (S i) f - C i (n - 1 - i)%nat)%Qc in Q by ring.
  split; qlra.
Qed.
Lemma link_ge1 n C i j : positive n C -> (forall i j, i + S j < n -> (C i j <= C i (S j))%Qc) -> i + S j < n -> (1 <= C i (S j) / C i j)%Qc.
Proof. intros P H L. apply qc_le_div; [apply P; lia|]. rewrite Qcmult_1_l. auto. Qed.

Lemma base_no_shortfall gm m n C ind (w : nat -> nat -> bool) v cl s (tail : Qc) r (f : nat -> Qc) : regular m n C -> positive n C -> 2 < n ->
  (forall i j, i + S j < n -> (C i j <= C i (S j))%Qc) -> (1 <= tail)%Qc ->
  tail_fits (m_cols m) -> clvi m = Ok cl -> mean_like gm ->
  (forall i j, i + j < n - 1 -> cell ind i j = Fin (if w i j then 1 else 0)%Qc) ->
  (forall j, j < n - 1 -> w (n - 2 - j) j = true) ->
  snd (base_cl gm (mkTri m "origin" "dev" v) cl ind (SelLabel s) (Fin tail)) = Ok r ->
  map snd (c_ldfs r) = map (fun j => Fin (f j)) (seq 0 n) ->
  no_shortfall r.
Proof.
  intros R P Hn Inc Ht Ev D G Hi Hl B Fin_.
  destruct (base_cl gm (mkTri m "origin" "dev" v) cl ind (SelLabel s) (Fin tail)) as [sel' o] eqn:E. cbn [snd] in B. subst o.
  assert (E' := E). apply base_cl_inv in E' as (S1 & _). cbn [t_mat select_ldfs] in S1. injection S1 as S0 S1.
  destruct (label_factors gm m n C ind w R P ltac:(lia) Hi Hl Hn Ev s (Fin tail) _ S1) as (ty & k & L).
  assert (Fj : forall j, j < n -> (if S j <? n then avgval n C w gm ty k j else Fin tail) = Fin (f j)).
  { intros j Hj. rewrite L, map_map in Fin_. cbn [snd] in Fin_. assert (Q := f_equal (fun z => nth j z NaN) Fin_). cbn beta in Q.
    rewrite !nth_map_seq in Q by lia. exact Q. }
  assert (L' : c_ldfs r = map (fun j => (nth j (m_cols m) 0%Z, Fin (f j))) (seq 0 n)).
  { rewrite L. apply map_seq_ext. intros j Hj. f_equal. apply Fj. lia. }
  destruct (base_pure_inv gm m n C v cl ind _ _ _ r f R ltac:(lia) D E L') as (-> & _).
  apply base_pure_ge; auto. intros j Hj. specialize (Fj j Hj). destruct (Nat.ltb_spec (S j) n) as [Lj|Lj].
  - assert (Bd : forall hi, (forall i, i < n - 1 - j -> (C i (S j) / C i j <= hi)%Qc) -> (1 <= f j <= hi)%Qc).
    { intros hi Hh. eapply avgval_bounds; eauto; try lia. intros i Hi'. split; auto. apply (link_ge1 n C); auto. lia. }
    destruct (Bd (sumf 0 (n - 1 - j) (fun i => C i (S j) / C i j)%Qc)) as [? _]; auto.
    intros i Hi'. replace (n - 1 - j) with (i + S (n - 2 - j - i)) by lia. rewrite sumf_split, sumf_Sl. cbn [plus].
    assert (A : forall i, i < n - 1 - j -> (0 <= C i (S j) / C i j)%Qc).
    { intros i' L''. assert (Q := link_ge1 n C i' j P Inc ltac:(lia)). qlra. }
    assert (A1 : (0 <= sumf 0 i (fun i => C i (S j) / C i j))%Qc) by (apply sumf_nonneg; intros; apply A; lia).
    assert (A2 : (0 <= sumf (S i) (n - 2 - j - i) (fun i => C i (S j) / C i j))%Qc) by (apply sumf_nonneg; intros; apply A; lia).
    qlra.
  - injection Fj as <-. auto.
Qed.

Lemma mack_no_shortfall m n C ind W al v cl tail : regular m n C -> positive n C -> 3 < n ->
  (forall i j, i + S j < n -> (C i j <= C i (S j))%Qc) ->
  tail_fits (m_cols m) -> clvi m = Ok cl -> weights ind n W ->
  exists k, mack_cl (mkTri m "origin" "dev" v) cl ind al tail = Ok k /\ no_shortfall (k_cl k).
Proof.
  intros R P Hn Inc Ev D Hw. eexists. split; [apply (mack_explicit m n C ind W); auto|]. destruct Hw as (_ & Wn & Wc).
  assert (B := base_pure_ge (m_idx m) (m_cols m) n C (xf n C W al) tail P). unfold mack_pure, no_shortfall in *. cbn [k_cl c_rows base_pure] in *.
  apply B. intros j Hj. unfold xf. destruct (Nat.ltb_spec (S j) n) as [L|L]; [|apply Qcle_refl].
  apply qc_le_div; [apply xden_pos; auto; apply Wc; lia|]. rewrite Qcmult_1_l. apply sumf_le. intros i Hi.
  assert (Q := link_ge1 n C i j P Inc ltac:(lia)).
  assert (Q2 : (0 <= W i j * C i j ^ al)%Qc) by (apply qc_mul_nonneg; [apply Wn; lia|apply Qclt_le_weak, qpow_pos, P; lia]).
  assert (Q3 : (0 <= W i j * C i j ^ al * (C i (S j) / C i j - 1))%Qc) by (apply qc_mul_nonneg; auto; qlra).
  replace (W i j * C i j ^ al * (C i (S j) / C i j - 1))%Qc with (W i j * C i j ^ al * (C i (S j) / C i j) - W i j * C i j ^ al)%Qc in Q3 by ring. qlra.
Qed.

(** ** C57: higher factors, higher estimates *)
Lemma prodf_mono k l (f g : nat -> Qc) : (forall j, k <= j < k + l -> (0 <= f j /\ f j <= g j)%Qc) -> (0 <= prodf k l f /\ prodf k l f <= prodf k l g)%Qc.
Proof.
  revert k. induction l as [|l IH]; intros k H; [split; vm_compute; discriminate|]. rewrite !prodf_Sl.
  destruct (H k ltac:(lia)) as (A & B). destruct (IH (S k) ltac:(intros; apply H; lia)) as (A' & B'). split; [apply qc_mul_nonneg; auto|].
  assert (Q1 : (0 <= (g k - f k) * prodf (S k) l g)%Qc) by (apply qc_mul_nonneg; qlra).
  assert (Q2 : (0 <= f k * (prodf (S k) l g - prodf (S k) l f))%Qc) by (apply qc_mul_nonneg; qlra).
  replace (g k * prodf (S k) l g)%Qc with ((g k - f k) * prodf (S k) l g + f k * (prodf (S k) l g - prodf (S k) l f) + f k * prodf (S k) l f)%Qc by ring.
  qlra.
Qed.
Lemma base_monotone gm m n C ind ind' v cl sel sel' tail tail' t1 t2 r r' (f f' : nat -> Qc) : regular m n C -> positive n C -> 0 < n -> clvi m = Ok cl ->
  base_cl gm (mkTri m "origin" "dev" v) cl ind sel tail = (t1, Ok r) ->
  base_cl gm (mkTri m "origin" "dev" v) cl ind' sel' tail' = (t2, Ok r') ->
  c_ldfs r = map (fun j => (nth j (m_cols m) 0%Z, Fin (f j))) (seq 0 n) ->
  c_ldfs r' = map (fun j => (nth j (m_cols m) 0%Z, Fin (f' j))) (seq 0 n) ->
  (forall j, j < n -> (0 <= f j /\ f j <= f' j)%Qc) ->
  (exists us us', map s_ultimate (c_rows r) = map Fin us /\ map s_ultimate (c_rows r') = map Fin us' /\ Forall2 Qcle us us') /\
  (exists rs rs', map s_reserve (c_rows r) = map Fin rs /\ map s_reserve (c_rows r') = map Fin rs' /\ Forall2 Qcle rs rs') /\
  (exists u u' s s', snd (fst (c_total r)) = Fin u /\ snd (fst (c_total r')) = Fin u' /\ (u <= u')%Qc /\
     snd (c_total r) = Fin s /\ snd (c_total r') = Fin s' /\ (s <= s')%Qc).
Proof.
  intros R P Hn D B B' L L' M.
  destruct (base_pure_inv gm m n C v cl _ _ _ _ _ f R Hn D B L) as (-> & _).
  destruct (base_pure_inv gm m n C v cl _ _ _ _ _ f' R Hn D B' L') as (-> & _).
  assert (U : forall i, i < n -> (C i (n - 1 - i)%nat * prodf (n - 1 - i) (S i) f <= C i (n - 1 - i)%nat * prodf (n - 1 - i) (S i) f')%Qc).
  { intros i Hi. destruct (prodf_mono (n - 1 - i) (S i) f f') as (_ & Q); [intros; apply M; lia|].
    rewrite !(Qcmult_comm (C i _)). apply Qcmult_le_compat_r; auto. apply Qclt_le_weak, P. lia. }
  assert (F2 : forall g h, (forall i, i < n -> (g i <= h i)%Qc) -> Forall2 Qcle (map g (seq 0 n)) (map h (seq 0 n))).
  { intros g h H. assert (Q : forall i, In i (seq 0 n) -> (g i <= h i)%Qc) by (intros i Hi; apply in_seq in Hi; apply H; lia).
    clear L L'. induction (seq 0 n) as [|x l IH]; cbn [map]; [constructor|]. constructor; [apply Q; left; auto|apply IH; intros; apply Q; right; auto]. }
  unfold base_pure. cbn [c_rows c_total fst snd]. rewrite !map_map. cbv zeta. cbn [s_ultimate s_reserve].
  split; [|split].
  - exists (map (fun i => C i (n - 1 - i)%nat * prodf (n - 1 - i) (S i) f)%Qc (seq 0 n)), (map (fun i => C i (n - 1 - i)%nat * prodf (n - 1 - i) (S i) f')%Qc (seq 0 n)).
    rewrite !map_map. split; auto. 
  - exists (map (fun i => C i (n - 1 - i)%nat * prodf (n - 1 - i) (S i) f - C i (n - 1 - i)%nat)%Qc (seq 0 n)), (map (fun i => C i (n - 1 - i)%nat * prodf (n - 1 - i) (S i) f' - C i (n - 1 - i)%nat)%Qc (seq 0 n)).
    rewrite !map_map. split; auto. split; auto. apply F2. intros i Hi. specialize (U i Hi). qlra.
  - do 4 eexists. split; [reflexivity|]. split; [reflexivity|]. split; [apply sumf_le; intros; apply U; lia|].
    split; [reflexivity|]. split; [reflexivity|]. apply sumf_le; intros i Hi. specialize (U i ltac:(lia)). qlra.
Qed.

(** ** C20 on the rows of a2a_avgs *)
Lemma medial_avg_of l v : l <> [] -> medial_avg (map Fin l) = Ok v -> medial_of l v.
Proof.
  intros N M. destruct (c20 l N) as (A & B & C & _ & _). rewrite M in *. split; [|split].
  - intros x H. specialize (A x H). congruence.
  - intros a b H. specialize (B a b H). congruence.
  - intros lo hi H1 H2 H3 H4 H5. specialize (C lo hi H1 H2 H3 H4 H5). congruence.
Qed.
Lemma latest_last k N : 0 < k -> 0 < N -> In (N - 1) (latest_rows k N).
Proof. intros Hk HN. rewrite <- rows_of_latest by auto. apply rows_last. auto. Qed.
Lemma medial_rows gm m n C ind (w : nat -> nat -> bool) : regular m n C -> positive n C -> 1 < n ->
  (forall i j, i + j < n - 1 -> cell ind i j = Fin (if w i j then 1 else 0)%Qc) ->
  (forall j, j < n - 1 -> w (n - 2 - j) j = true) ->
  exists avgs, a2a_avgs gm m ind = Ok avgs /\
   forall j, j < n - 1 ->
    let links rows := map (fun i => (C i (S j) / C i j)%Qc) (filter (fun i => w i j) rows) in
    (exists v, entry avgs "all-medial" j = Some v /\ medial_of (links (seq 0 (n - 1 - j))) v) /\
    forall k, 1 <= k < n - 1 ->
      exists v, entry avgs ("medial-" ++ str_nat k) j = Some v /\ medial_of (links (latest_rows k (n - 1 - j))) v.
Proof.
  intros R P Hn Hi Hl. destruct (c21_averages gm m n C ind w R P Hn Hi Hl) as (avgs & A & B). exists avgs. split; auto.
  intros j Hj. specialize (B j Hj). cbv zeta in B |- *. destruct B as (_ & _ & (v & M & E) & B).
  assert (NE : forall rows, In (n - 2 - j) rows -> map (fun i => (C i (S j) / C i j)%Qc) (filter (fun i => w i j) rows) <> []).
  { intros rows I Q. apply map_eq_nil in Q. assert (Z : In (n - 2 - j) (filter (fun i => w i j) rows)) by (apply filter_In; auto).
    rewrite Q in Z. destruct Z. }
  split.
  - exists v. split; auto. apply medial_avg_of; auto. apply NE. apply in_seq. lia.
  - intros k Hk. destruct (B k Hk) as (_ & _ & (v' & M' & E')). exists v'. split; auto. apply medial_avg_of; auto. apply NE.
    replace (n - 2 - j) with (n - 1 - j - 1) by lia. apply latest_last; lia.
Qed.
