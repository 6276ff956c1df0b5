(** Averages and factors of run-off triangles with zero (or negative) losses: C68. *)

From Coq Require Import String Ascii QArith Qcanon ZArith List Bool Lia Permutation Sorting.Sorted.
From Verif Require Import Val Frame Triangle A2A Base QcLib ListLib Spec BuildFacts CumFacts FillFacts
  TotriFacts TblFacts TriClaims ConvFacts TriClaims2 TriClaims4 TriClaims5 RegFacts AvgFacts AvgClaims AvgClaims2
  BaseClaims SpecZero.
Import ListNotations.
Open Scope list_scope.
Open Scope nat_scope.

Definition vlink (C : nat -> nat -> Qc) (i j : nat) : val := vdiv (Fin (C i (S j))) (Fin (C i j)).


Lemma qc_sign (q : Qc) : (q < 0)%Qc \/ q = 0%Qc \/ (0 < q)%Qc.
Proof.
  destruct (Qclt_le_dec q 0) as [H|H]; auto. destruct (Qc_eq_dec q 0) as [E|E]; auto. right. right.
  destruct (Qcle_lt_or_eq _ _ H); auto. congruence.
Qed.

Lemma neg_mul (x a : Qc) : (a < 0)%Qc -> ((x * a < 0)%Qc <-> (0 < x)%Qc).
Proof.
  intro A. split; intro H.
  - destruct (Qclt_le_dec 0 x); auto. exfalso.
    assert (P := Qcmult_le_compat_r x 0 (- a)%Qc q). specialize (P ltac:(qlra)).
    replace (x * - a)%Qc with (- (x * a))%Qc in P by ring. replace (0 * - a)%Qc with 0%Qc in P by ring. qlra.
  - assert (P := Qcmult_lt_compat_r 0 x (- a)%Qc). specialize (P ltac:(qlra) H).
    replace (x * - a)%Qc with (- (x * a))%Qc in P by ring. replace (0 * - a)%Qc with 0%Qc in P by ring. qlra.
Qed.

Lemma vlink_nan C i j : vlink C i j = NaN <-> undefined_link C i j.
Proof.
  unfold vlink, undefined_link. split.
  - intro H. destruct (Qc_eq_dec (C i j) 0) as [E|E].
    + split; auto. rewrite E in H. cbn in H. destruct (qc_sign (C i (S j))) as [A|[A|A]]; auto.
      * rewrite qsgn_neg in H by auto. discriminate.
      * rewrite qsgn_pos in H by auto. discriminate.
    + rewrite vdiv_fin in H by auto. discriminate.
  - intros [A B]. rewrite A, B. reflexivity.
Qed.

Lemma vlink_pos C i j : vltb (Fin 0%Qc) (vlink C i j) = true <-> grows (C i j) (C i (S j)).
Proof.
  unfold vlink, grows. destruct (qc_sign (C i j)) as [A|[A|A]].
  - rewrite vdiv_fin by (intro E; rewrite E in A; discriminate A). rewrite vltb_fin, qcltb_lt.
    assert (Q : ((C i (S j) / C i j) * C i j = C i (S j))%Qc) by (field; intro E; rewrite E in A; discriminate A).
    split.
    + intro H. right. split; auto. apply (neg_mul _ _ A) in H. rewrite Q in H. auto.
    + intros [[H1 H2]|[H1 H2]]; [exfalso; qlra|]. apply (neg_mul _ _ A). rewrite Q. auto.
  - rewrite A. cbn [vdiv]. change (qsgn 0) with SZero. cbv iota.
    destruct (qc_sign (C i (S j))) as [B|[B|B]].
    + rewrite qsgn_neg by auto. cbn. split; [discriminate|]. intros [[H1 H2]|[H1 H2]]; exfalso; [qlra|discriminate H2].
    + rewrite B. cbn. split; [discriminate|]. intros [[H1 H2]|[H1 H2]]; exfalso; discriminate.
    + rewrite qsgn_pos by auto. cbn. split; auto. intros _. left. split; auto. apply Qcle_refl.
  - rewrite vdiv_fin by (intro E; rewrite E in A; discriminate A). rewrite vltb_fin, qcltb_lt.
    assert (Q : ((C i (S j) / C i j) * C i j = C i (S j))%Qc) by (field; intro E; rewrite E in A; discriminate A).
    split.
    + intro H. left. split; [|qlra]. rewrite <- Q. apply qc_mul_pos; auto.
    + intros [[H1 H2]|[H1 H2]]; [|exfalso; qlra]. apply qc_div_pos; auto.
Qed.

Lemma first_nan_spec (l : list val) : let k := match first_nan l with Some k => k | None => length l end in
  k <= length l /\ (forall i, i < k -> nth i l NaN <> NaN) /\ (k < length l -> nth k l NaN = NaN).
Proof.
  induction l as [|v l IH]; cbn [first_nan length].
  - split; [auto|]. split; intros; lia.
  - destruct (isnan v) eqn:E.
    + split; [lia|]. split; [intros; lia|]. intros _. destruct v; try discriminate. auto.
    + destruct (first_nan l) as [k|]; cbn [option_map] in *; destruct IH as (A & B & D).
      * split; [lia|]. split.
        -- intros [|i] Hi; [destruct v; discriminate|]. apply B. lia.
        -- intro H. apply D. lia.
      * split; [lia|]. split.
        -- intros [|i] Hi; [destruct v; discriminate|]. apply B. lia.
        -- intro H. lia.
Qed.

Lemma medial_err (l : list val) : (l = [] -> medial_avg l = Err IndexError) /\ (l <> [] -> exists v, medial_avg l = Ok v).
Proof.
  split.
  - intros ->. reflexivity.
  - intro N. unfold medial_avg. destruct (ssort vcmp l) as [|x r] eqn:E.
    + exfalso. apply N. assert (L := ssort_length vcmp l). rewrite E in L. destruct l; auto; discriminate.
    + destruct (forallb _ _); [eexists; eauto|]. destruct r as [|y r]; [eexists; eauto|].
      destruct r; [eexists; eauto|]. destruct (filter _ _); eexists; eauto.
Qed.

Section Zero.
  Variables (os ds : list Z) (n : nat) (C : nat -> nat -> Qc).
  Hypothesis So : zsorted os.
  Hypothesis Sd : zsorted ds.
  Hypothesis Lo : length os = n.
  Hypothesis Ld : length ds = n.
  Hypothesis Hn : 2 < n.
  Hypothesis Every : links_everywhere n C.
  Let m := rmat os ds n C.

  Definition lk (i j : nat) : val := if i + j <? n - 1 then vlink C i j else NaN.

  Lemma z_ratio i j : i < n -> j < n ->
    cell (ratio_cells m) i j = lk i j.
  Proof.
    intros Hi Hj. unfold ratio_cells, m, rmat, nrows, ncols. cbn [m_idx m_cols m_cells]. rewrite Lo, Ld.
    rewrite cell_mk by auto. rewrite (cell_mk n n (rc n C) i j) by auto. unfold lk.
    destruct (Nat.ltb_spec (i + j) (n - 1)) as [L|L].
    - rewrite ltb_if by lia. rewrite cell_mk by lia. unfold rc. rewrite !ltb_if by lia. auto.
    - destruct (Nat.ltb_spec (S j) n).
      + rewrite cell_mk by lia. unfold rc at 1. rewrite nltb_if by lia. apply vdiv_nan_l.
      + apply vdiv_nan_l.
  Qed.
  Lemma lk_in i j : i + j < n - 1 -> lk i j = vlink C i j.
  Proof using Hn. clear -Hn. intro L. unfold lk. rewrite ltb_if; auto. Qed.
  Lemma lk_out i j : n - 1 <= i + j -> lk i j = NaN.
  Proof using Hn. clear -Hn. intro L. unfold lk. rewrite nltb_if; auto. Qed.
  Lemma z_keep_cols : keep_cols (nrows m) (ncols m) (ratio_cells m) = seq 0 (n - 1).
  Proof.
    unfold keep_cols. change (nrows m) with (length os). change (ncols m) with (length ds). rewrite Lo, Ld.
    apply filter_seq_prefix; [lia|]. intros j Hj. apply eq_true_iff_eq. rewrite existsb_seq, Nat.ltb_lt. split.
    - intros (i & Hi & Q). rewrite z_ratio in Q by auto. destruct (Nat.lt_ge_cases (i + j) (n - 1)); [lia|].
      rewrite lk_out in Q by auto. discriminate.
    - intro L. destruct (proj2 Every j L) as (i & Hi & U). exists i. split; [lia|]. rewrite z_ratio, lk_in by lia.
      apply negb_true_iff, isnan_false. rewrite vlink_nan. auto.
  Qed.
  Lemma z_keep_rows : keep_rows (nrows m) (seq 0 (n - 1)) (ratio_cells m) = seq 0 (n - 1).
  Proof.
    unfold keep_rows. change (nrows m) with (length os). rewrite Lo.
    apply filter_seq_prefix; [lia|]. intros i Hi. apply eq_true_iff_eq. rewrite existsb_seq, Nat.ltb_lt. split.
    - intros (j & Hj & Q). rewrite z_ratio in Q by lia. destruct (Nat.lt_ge_cases (i + j) (n - 1)); [lia|].
      rewrite lk_out in Q by auto. discriminate.
    - intro L. destruct (proj1 Every i L) as (j & Hj & U). exists j. split; [lia|]. rewrite z_ratio, lk_in by lia.
      apply negb_true_iff, isnan_false. rewrite vlink_nan. auto.
  Qed.
  Lemma z_a2a : a2a m = mkMat (firstn (n - 1) os) (firstn (n - 1) ds) (mk (n - 1) (n - 1) lk).
  Proof.
    unfold a2a. rewrite z_keep_cols, z_keep_rows. rewrite <- !firstn_map_nth by lia.
    f_equal. unfold mk. apply map_seq_ext. intros i Hi. apply map_seq_ext. intros j Hj. apply z_ratio; lia.
  Qed.
  Lemma z_nrows : nrows (a2a m) = n - 1.
  Proof. rewrite z_a2a. unfold nrows. cbn [m_idx]. rewrite firstn_length. lia. Qed.
  Lemma z_ncols : ncols (a2a m) = n - 1.
  Proof. rewrite z_a2a. unfold ncols. cbn [m_cols]. rewrite firstn_length. lia. Qed.

  Lemma vmul_1r v : vmul v (Fin 1%Qc) = v.
  Proof. destruct v; auto. cbn. f_equal. ring. Qed.

  Lemma z_col j : j < n - 1 -> mcol (a2a_adj m (a2aind_init m)) j = map (fun i => lk i j) (seq 0 (n - 1)).
  Proof.
    intro Hj. unfold mcol, a2a_adj. cbn [m_cells].
    match goal with |- context [nrows (mkMat ?a ?b ?c)] =>
      change (nrows (mkMat a b c)) with (nrows (a2a m)) end.
    rewrite z_nrows, z_ncols. apply map_seq_ext. intros i Hi. rewrite cell_mk by lia.
    unfold a2aind_init. rewrite z_a2a. cbn [m_cells]. rewrite cell_mk by lia.
    assert (E : cell (map (map (fun v => if isnan v then Fin 0 else Fin 1)) (mk (n - 1) (n - 1) lk)) i j
              = if isnan (lk i j) then Fin 0%Qc else Fin 1%Qc).
    { unfold mk. rewrite map_map. unfold cell. rewrite nth_map_seq by lia. rewrite map_map, nth_map_seq by lia. auto. }
    rewrite E. destruct (isnan (lk i j)) eqn:N; [|apply vmul_1r].
    destruct (lk i j); try discriminate. auto.
  Qed.

  Definition run (j : nat) : nat :=
    match first_nan (map (fun i => lk i j) (seq 0 (n - 1))) with Some k => k | None => n - 1 end.
  Lemma run_spec j : j < n - 1 -> defined_run n C j (run j).
  Proof using Hn. clear -Hn.
    intro Hj. assert (Q := first_nan_spec (map (fun i => lk i j) (seq 0 (n - 1)))). cbv zeta in Q.
    rewrite map_length, seq_length in Q. fold (run j) in Q. destruct Q as (A & B & D).
    assert (R : run j <= n - 1 - j).
    { destruct (Nat.le_gt_cases (run j) (n - 1 - j)); auto. exfalso. apply (B (n - 1 - j)); [lia|].
      rewrite nth_map_seq by lia. apply lk_out. lia. }
    split; [auto|]. split.
    - intros i Hi U. apply (B i); auto. rewrite nth_map_seq by lia. rewrite lk_in by lia. apply vlink_nan. auto.
    - intro L. specialize (D ltac:(lia)). rewrite nth_map_seq in D by lia. rewrite lk_in in D by lia.
      apply vlink_nan. auto.
  Qed.
  Lemma run_unique j k : j < n - 1 -> defined_run n C j k -> k = run j.
  Proof using Hn. clear -Hn.
    intros Hj (A & B & D). destruct (run_spec j Hj) as (A' & B' & D').
    destruct (Nat.lt_trichotomy k (run j)) as [L|[L|L]]; auto; exfalso.
    - apply (B' k); auto. apply D. lia.
    - apply (B (run j)); auto. apply D'. lia.
  Qed.

  Lemma z_window k j : j < n - 1 ->
    window k (mcol (a2a_adj m (a2aind_init m)) j)
    = filter (fun v => vltb (Fin 0%Qc) v) (map (fun i => vlink C i j) (rows_of k (run j))).
  Proof.
    intro Hj. rewrite z_col by auto. unfold window. rewrite map_length, seq_length. fold (run j).
    destruct (run_spec j Hj) as (A & B & D).
    rewrite slice_map_seq by (destruct (k =? 0); lia). rewrite <- rows_of_eq. f_equal.
    apply map_ext_in. intros i Hi. apply in_rows in Hi. apply lk_in. lia.
  Qed.

  (** The last defined link ratio of the column is positive. *)
  Definition good (j : nat) : Prop := 0 < run j /\ grows (C (run j - 1) j) (C (run j - 1) (S j)).

  Lemma good_window k j : j < n - 1 -> good j -> window k (mcol (a2a_adj m (a2aind_init m)) j) <> [].
  Proof.
    intros Hj (P & G) E. rewrite z_window in E by auto.
    assert (I : In (vlink C (run j - 1) j) (filter (fun v => vltb (Fin 0%Qc) v) (map (fun i => vlink C i j) (rows_of k (run j))))).
    { apply filter_In. split; [apply (in_map (fun i => vlink C i j)), rows_last; auto|]. apply vlink_pos. auto. }
    rewrite E in I. contradiction.
  Qed.
  Lemma bad_window j : j < n - 1 -> ~ good j -> window 1 (mcol (a2a_adj m (a2aind_init m)) j) = [].
  Proof.
    intros Hj G. rewrite z_window by auto. unfold rows_of. cbn [Nat.eqb].
    destruct (run j) as [|r] eqn:E; auto.
    replace (S r - 1) with r by lia. replace (S r - r) with 1 by lia. cbn [seq map filter].
    destruct (vltb (Fin 0%Qc) (vlink C r j)) eqn:V; auto. exfalso. apply G. unfold good. rewrite E. split; [lia|].
    replace (S r - 1) with r by lia. apply vlink_pos. auto.
  Qed.
  Lemma good_dec j : {good j} + {~ good j}.
  Proof.
    destruct (run j) as [|r] eqn:E; [right; intros [A _]; lia|].
    destruct (vltb (Fin 0%Qc) (vlink C r j)) eqn:V.
    - left. unfold good. rewrite E. split; [lia|]. replace (S r - 1) with r by lia. apply vlink_pos. auto.
    - right. intros [_ G]. rewrite E in G. replace (S r - 1) with r in G by lia. apply vlink_pos in G. congruence.
  Qed.

  Lemma z_weighted k j : j < n - 1 ->
    weighted_avg m k j = Ok (vdiv (Fin (qsum (map (fun i => C i (S j)) (rows_of k (n - 1 - j)))))
                                  (Fin (qsum (map (fun i => C i j) (rows_of k (n - 1 - j)))))).
  Proof.
    intro Hj. unfold weighted_avg. change (ncols m) with (length ds). change (nrows m) with (length os).
    rewrite Ld, Lo. destruct (Nat.leb_spec n (S j)); [lia|].
    unfold m. rewrite !r_mcol by (auto; lia).
    assert (E1 : map (fun i => rc n C i (S j)) (seq 0 n) = rcol n (n - 1 - j) (fun i => C i (S j))).
    { apply map_seq_ext. intros i Hi. unfold rc. destruct (Nat.ltb_spec (i + S j) n), (Nat.ltb_spec i (n - 1 - j)); auto; lia. }
    rewrite E1.
    assert (Ec : count_valid (rcol n (n - 1 - j) (fun i => C i (S j))) = n - 1 - j).
    { rewrite rcol_split by lia. unfold count_valid. rewrite filter_app.
      rewrite (filter_none _ (map (fun _ => NaN) _)).
      - rewrite app_nil_r. rewrite (filter_ext_in' _ (fun _ => true)).
        + assert (T : forall l : list val, filter (fun _ => true) l = l) by (induction l; simpl; congruence).
          rewrite T, map_length, seq_length. auto.
        + intros x Hx. apply in_map_iff in Hx as (i & <- & _). auto.
      - intros x Hx. apply in_map_iff in Hx as (i & <- & _). auto. }
    rewrite Ec. destruct (Nat.leb_spec n (n - 1 - j)); [lia|].
    unfold rcol. rewrite !slice_map_seq by (destruct (k =? 0); lia). rewrite <- rows_of_eq.
    assert (A : map (fun i => if i <? n - 1 - j then Fin (C i (S j)) else NaN) (rows_of k (n - 1 - j))
              = map Fin (map (fun i => C i (S j)) (rows_of k (n - 1 - j)))).
    { rewrite map_map. apply map_ext_in. intros i Hi. apply in_rows in Hi. apply ltb_if. auto. }
    assert (B : map (fun i => rc n C i j) (rows_of k (n - 1 - j))
              = map Fin (map (fun i => C i j) (rows_of k (n - 1 - j)))).
    { rewrite map_map. apply map_ext_in. intros i Hi. apply in_rows in Hi. unfold rc. apply ltb_if. lia. }
    rewrite A, B, !skipsum_fin. auto.
  Qed.

  Variable gm : list val -> val.
  Definition zval (a : avgtype) (k j : nat) : val :=
    match one_avg gm m (a2aind_init m) a k j with Ok v => v | Err _ => NaN end.

  Lemma z_one a k j : j < n - 1 -> good j -> one_avg gm m (a2aind_init m) a k j = Ok (zval a k j).
  Proof.
    intros Hj G. assert (N := good_window k j Hj G). unfold zval, one_avg. destruct a; auto.
    - destruct (proj2 (medial_err _) N) as (v & ->). auto.
    - rewrite z_weighted by auto. auto.
  Qed.
  Lemma z_one_err a k j e : j < n - 1 -> one_avg gm m (a2aind_init m) a k j = Err e -> e = IndexError.
  Proof.
    intros Hj. unfold one_avg. destruct a; try discriminate.
    - intro H. destruct (window k (mcol (a2a_adj m (a2aind_init m)) j)) as [|x l].
      + cbn in H. congruence.
      + destruct (proj2 (medial_err (x :: l)) ltac:(discriminate)) as (v & Q). rewrite Q in H. discriminate.
    - rewrite z_weighted by auto. discriminate.
  Qed.

  Lemma z_avgs : (forall j, j < n - 1 -> good j) ->
    a2a_avgs gm m (a2aind_init m)
    = Ok (map (fun sp => (avg_label (fst sp) (snd sp), map (zval (fst sp) (snd sp)) (seq 0 (n - 1))))
              (avg_specs (n - 1))).
  Proof.
    intro G. unfold a2a_avgs. rewrite z_nrows, z_ncols. apply mapM_ok. intros [a k] _. cbn [fst snd].
    rewrite (mapM_ok _ (zval a k)); auto. intros j Hj. apply in_seq in Hj. apply z_one; [lia|]. apply G. lia.
  Qed.
  Lemma z_avgs_err e : a2a_avgs gm m (a2aind_init m) = Err e -> e = IndexError.
  Proof.
    unfold a2a_avgs. rewrite z_nrows, z_ncols. intro H. apply mapM_err in H as ([a k] & _ & H). cbn [fst snd] in H.
    destruct (mapM (one_avg gm m (a2aind_init m) a k) (seq 0 (n - 1))) as [r|e'] eqn:E; [discriminate|].
    injection H as ->. apply mapM_err in E as (j & Hj & E). apply in_seq in Hj. eapply z_one_err; [|exact E]. lia.
  Qed.
  Lemma z_avgs_bad j : j < n - 1 -> ~ good j -> a2a_avgs gm m (a2aind_init m) = Err IndexError.
  Proof.
    intros Hj G. destruct (a2a_avgs gm m (a2aind_init m)) as [r|e] eqn:E.
    - exfalso. unfold a2a_avgs in E. rewrite z_nrows, z_ncols in E.
      apply (mapM_in _ _ _ (Medial, 1)) in E as (y & E); [|apply in_avg_specs; lia]. cbn [fst snd] in E.
      destruct (mapM (one_avg gm m (a2aind_init m) Medial 1) (seq 0 (n - 1))) as [r'|e'] eqn:E'; [|discriminate].
      apply (mapM_in _ _ _ j) in E' as (v & E'); [|apply in_seq; lia]. unfold one_avg in E'.
      rewrite bad_window in E' by auto. discriminate.
    - apply z_avgs_err in E. subst. auto.
  Qed.
  Lemma z_avgs_iff : (exists a, a2a_avgs gm m (a2aind_init m) = Ok a) <-> forall j, j < n - 1 -> good j.
  Proof.
    split.
    - intros (a & H) j Hj. destruct (good_dec j) as [G|G]; auto. rewrite (z_avgs_bad j) in H by auto. discriminate.
    - intro G. rewrite z_avgs by auto. eexists. eauto.
  Qed.
End Zero.

Lemma all_or_none (P : nat -> Prop) (dec : forall j, {P j} + {~ P j}) k :
  (forall j, j < k -> P j) \/ exists j, j < k /\ ~ P j.
Proof.
  induction k as [|k [IH|(j & H & N)]].
  - left. intros; lia.
  - destruct (dec k) as [D|D]; [left|right; exists k; auto].
    intros j Hj. destruct (Nat.eq_dec j k); [subst; auto|apply IH; lia].
  - right. exists j. auto.
Qed.

Definition averages_exist (n : nat) (C : nat -> nat -> Qc) : Prop :=
  forall j k, j < n - 1 -> defined_run n C j k -> 0 < k /\ grows (C (k - 1) j) (C (k - 1) (S j)).
Lemma exist_good n C : 2 < n -> averages_exist n C <-> forall j, j < n - 1 -> good n C j.
Proof.
  intro Hn. unfold averages_exist, good. split.
  - intros H j Hj. apply H; auto. apply run_spec; auto.
  - intros H j k Hj D. rewrite (run_unique n C Hn j k Hj D). auto.
Qed.

Lemma c68_iff gm m n C : regular m n C -> 2 < n -> links_everywhere n C ->
  ((exists avgs, a2a_avgs gm m (a2aind_init m) = Ok avgs) <->
   forall j k, j < n - 1 -> defined_run n C j k -> 0 < k /\ grows (C (k - 1) j) (C (k - 1) (S j))) /\
  (forall e, a2a_avgs gm m (a2aind_init m) = Err e -> e = IndexError).
Proof.
  intros R Hn Ev. apply regular_rmat in R as (E & So & Sd & Lo & Ld). rewrite E. split.
  - fold (averages_exist n C). rewrite exist_good by auto. apply z_avgs_iff; auto.
  - intros e. apply z_avgs_err; auto.
Qed.

Lemma z_ldfs os ds n C gm ind tail : zsorted os -> zsorted ds -> length os = n -> length ds = n -> 2 < n ->
  links_everywhere n C -> tail_fits ds -> ind = a2aind_init (rmat os ds n C) ->
  (forall j, j < n - 1 -> good n C j) -> forall a k, In (a, k) (avg_specs (n - 1)) ->
    ldfs_of_label gm (rmat os ds n C) ind (avg_label a k) tail
    = Ok (map (fun j => (nth j ds 0%Z, if S j <? n then zval os ds n C gm a k j else tail)) (seq 0 n)).
Proof.
  intros So Sd Lo Ld Hn Every Ev -> G a k Hin. unfold ldfs_of_label. rewrite z_avgs by auto. cbn [bind].
  rewrite (find_label (fun sp => map (zval os ds n C gm (fst sp) (snd sp)) (seq 0 (n - 1)))) by auto. cbn [snd fst].
  rewrite z_a2a by auto. cbn [m_cols]. rewrite (increment_ev ds n) by auto. cbn [bind]. rewrite (zmax_firstn ds n) by (auto; lia).
  replace (nth (n - 2) ds 0 + (nth (n - 1) ds 0 - nth (n - 2) ds 0))%Z with (nth (n - 1) ds 0%Z) by lia.
  rewrite <- firstn_map_nth by lia. rewrite combine_map_lr.
  rewrite sset_append.
  - f_equal.
    assert (E : map (fun i => (nth i ds 0%Z, zval os ds n C gm a k i)) (seq 0 (n - 1)) ++ [(nth (n - 1) ds 0%Z, tail)]
              = map (fun j => (nth j ds 0%Z, if S j <? n then zval os ds n C gm a k j else tail)) (seq 0 n)).
    { assert (Er : seq 0 n = seq 0 (n - 1) ++ [n - 1])
        by (replace n with (S (n - 1)) at 1 by lia; rewrite seq_S; auto).
      rewrite Er, map_app. cbn [map]. f_equal.
      - apply map_seq_ext. intros i Hi. rewrite ltb_if by lia. auto.
      - rewrite nltb_if by lia. auto. }
    etransitivity; [exact (f_equal zvsort E)|]. apply zsorted_zvsort. rewrite map_map. cbn.
    rewrite <- Ld, map_nth_seq. auto.
  - rewrite map_map. cbn. intro Q. apply in_map_iff in Q as (i & E & Hi). apply in_seq in Hi.
    assert (D := zsorted_nth ds i (n - 1) 0%Z Sd). rewrite Ld in D. specialize (D ltac:(lia)). lia.
Qed.

Lemma c68_base gm m n C v cl tail : regular m n C -> 2 < n -> links_everywhere n C ->
  tail_fits (m_cols m) -> clvi m = Ok cl ->
  (forall j, j < n - 1 -> sumf 0 (n - 1 - j) (fun i => C i j) <> 0%Qc) ->
  ((forall j k, j < n - 1 -> defined_run n C j k -> 0 < k /\ grows (C (k - 1) j) (C (k - 1) (S j))) ->
   exists r, base_cl gm (mkTri m "origin" "dev" v) cl (a2aind_init m) (SelLabel "all-weighted") (Fin tail)
               = (SelLabel "all-weighted", Ok r) /\
     c_ldfs r = map (fun j => (nth j (m_cols m) 0%Z,
        Fin (if S j <? n then sumf 0 (n - 1 - j) (fun i => C i (S j)) / sumf 0 (n - 1 - j) (fun i => C i j)
             else tail)%Qc)) (seq 0 n)) /\
  (forall j k s, j < n - 1 -> defined_run n C j k -> ~ (0 < k /\ grows (C (k - 1) j) (C (k - 1) (S j))) ->
   base_cl gm (mkTri m "origin" "dev" v) cl (a2aind_init m) (SelLabel s) (Fin tail) = (SelLabel s, Err IndexError)).
Proof.
  intros R Hn Every Ev Hcl Sn. apply regular_rmat in R as (E & So & Sd & Lo & Ld). split.
  - intro A. fold (averages_exist n C) in A. assert (A' := proj1 (exist_good n C Hn) A). clear A. rename A' into A.
    set (f := fun j => (if S j <? n then sumf 0 (n - 1 - j) (fun i => C i (S j)) / sumf 0 (n - 1 - j) (fun i => C i j) else tail)%Qc).
    assert (L := z_ldfs (m_idx m) (m_cols m) n C gm (a2aind_init m) (Fin tail) So Sd Lo Ld Hn Every Ev
                   (f_equal a2aind_init E) A Weighted 0 (proj2 (in_avg_specs (n - 1) Weighted 0) (or_introl eq_refl))).
    rewrite <- E in L.
    assert (L2 : map (fun j => (nth j (m_cols m) 0%Z, if S j <? n then zval (m_idx m) (m_cols m) n C gm Weighted 0 j else Fin tail)) (seq 0 n)
               = map (fun j => (nth j (m_cols m) 0%Z, Fin (f j))) (seq 0 n)).
    { apply map_seq_ext. intros j Hj. f_equal. unfold f. destruct (Nat.ltb_spec (S j) n); auto.
      unfold zval, one_avg. rewrite z_weighted by (auto; lia). rewrite rows_of_all. apply vdiv_fin.
      apply Sn. lia. }
    rewrite L2 in L.
    assert (Q := r_chain_ladder (m_idx m) (m_cols m) n C So Sd Lo Ld ltac:(lia) f v (Fin tail)).
    rewrite E, (r_clvi _ _ n C) in Hcl by (auto; lia). injection Hcl as <-. unfold fser in Q. rewrite <- E in Q.
    eexists. split.
    + eapply base_cl_intro; [|exact Q]. cbn [select_ldfs t_mat]. change "all-weighted"%string with (avg_label Weighted 0). rewrite L. auto.
    + cbn [c_ldfs]. auto.
  - intros j k s Hj D B. unfold base_cl. cbn [select_ldfs t_mat]. unfold ldfs_of_label.
    assert (Q : a2a_avgs gm m (a2aind_init m) = Err IndexError).
    { rewrite E. apply (z_avgs_bad _ _ n C Lo Ld Hn Every gm j Hj). unfold good.
      rewrite <- (run_unique n C Hn j k Hj D). auto. }
    rewrite Q. auto.
Qed.

(** Which link ratios the averages use. *)
Lemma c68_used gm m n C avgs : regular m n C -> 2 < n -> links_everywhere n C ->
  a2a_avgs gm m (a2aind_init m) = Ok avgs ->
  forall j k, j < n - 1 -> defined_run n C j k ->
   (sumf 0 (n - 1 - j) (fun i => C i j) <> 0%Qc ->
    entry avgs "all-weighted" j
    = Some (Fin (sumf 0 (n - 1 - j) (fun i => C i (S j)) / sumf 0 (n - 1 - j) (fun i => C i j))%Qc)) /\
   ((forall i, i < k -> C i j <> 0%Qc) ->
    let links := filter (fun q => qcltb 0 q) (map (fun i => (C i (S j) / C i j)%Qc) (seq 0 k)) in
    entry avgs "all-simple" j = Some (Fin (mean links)) /\
    entry avgs "all-geometric" j = Some (gm (map Fin links)) /\
    exists v, medial_avg (map Fin links) = Ok v /\ entry avgs "all-medial" j = Some v).
Proof.
  intros R Hn Every A j k Hj D. apply regular_rmat in R as (E & So & Sd & Lo & Ld).
  rewrite E in A.
  assert (G : forall j, j < n - 1 -> good n C j).
  { apply (z_avgs_iff (m_idx m) (m_cols m) n C Lo Ld Hn Every gm). eauto. }
  rewrite z_avgs in A by auto. injection A as A. subst avgs.
  assert (En : forall a, entry (map (fun sp => (avg_label (fst sp) (snd sp), map (zval (m_idx m) (m_cols m) n C gm (fst sp) (snd sp)) (seq 0 (n - 1)))) (avg_specs (n - 1)))
     (avg_label a 0) j = Some (zval (m_idx m) (m_cols m) n C gm a 0 j)).
  { intro a. unfold entry.
    rewrite (find_label (fun sp => map (zval (m_idx m) (m_cols m) n C gm (fst sp) (snd sp)) (seq 0 (n - 1))))
      by (apply in_avg_specs; auto). cbn [snd fst].
    rewrite nth_error_map, (nth_error_nth' (seq 0 (n - 1)) 0) by (rewrite seq_length; auto).
    rewrite seq_nth by auto. reflexivity. }
  split.
  - intro Z. etransitivity; [exact (En Weighted)|]. f_equal. unfold zval, one_avg. rewrite z_weighted by auto.
    rewrite rows_of_all. apply vdiv_fin. auto.
  - intros Z links.
    assert (W : window 0 (mcol (a2a_adj (rmat (m_idx m) (m_cols m) n C) (a2aind_init (rmat (m_idx m) (m_cols m) n C))) j)
              = map Fin links).
    { rewrite z_window by auto. rewrite <- (run_unique n C Hn j k Hj D), rows_of_all. unfold links.
      rewrite (map_ext_in _ (fun i => Fin (C i (S j) / C i j)%Qc)).
      - induction (seq 0 k) as [|i l IH]; auto. cbn [map filter]. rewrite vltb_fin.
        destruct (qcltb 0 (C i (S j) / C i j)); cbn [map]; rewrite IH; auto.
      - intros i Hi. apply in_seq in Hi. unfold vlink. apply vdiv_fin. apply Z. lia. }
    assert (N : map Fin links <> []) by (rewrite <- W; apply good_window; auto).
    assert (N' : links <> []) by (intro Q; rewrite Q in N; auto).
    split; [|split].
    + etransitivity; [exact (En Simple)|]. f_equal. unfold zval, one_avg. rewrite W. unfold simple_avg.
      transitivity (vmean (map Fin links)); [destruct links; auto; congruence|]. apply vmean_fin. auto.
    + etransitivity; [exact (En Geometric)|]. f_equal. unfold zval, one_avg. rewrite W. unfold geometric_avg.
      destruct links; auto; congruence.
    + destruct (proj2 (medial_err _) N) as (v & Hv). exists v. split; auto.
      etransitivity; [exact (En Medial)|]. f_equal. unfold zval, one_avg. rewrite W, Hv. auto.
Qed.
