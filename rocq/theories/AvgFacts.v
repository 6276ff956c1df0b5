(** Link ratios and averages of regular run-off triangles. *)

From Coq Require Import String Ascii QArith Qcanon ZArith List Bool Lia Permutation Sorting.Sorted DecimalNat DecimalString.
From Verif Require Import Val Frame Triangle A2A Base QcLib ListLib Spec BuildFacts CumFacts FillFacts
  TotriFacts TblFacts TriClaims ConvFacts TriClaims2 TriClaims4 TriClaims5 RegFacts.
Import ListNotations.
Open Scope list_scope.
Open Scope nat_scope.

(** ** Labels *)

Lemma str_nat_inj a b : str_nat a = str_nat b -> a = b.
Proof.
  unfold str_nat. intro H. apply (f_equal NilEmpty.uint_of_string) in H.
  rewrite !NilEmpty.usu in H. inversion H. apply Unsigned.to_uint_inj. auto.
Qed.
Lemma string_app_inj a b c : (a ++ b = a ++ c)%string -> b = c.
Proof. induction a; simpl; intro H; auto. inversion H. auto. Qed.
Lemma avg_label_inj a k b l : avg_label a k = avg_label b l -> a = b /\ k = l.
Proof.
  unfold avg_label. destruct (Nat.eqb_spec k 0) as [->|Hk], (Nat.eqb_spec l 0) as [->|Hl]; intro H.
  - destruct a, b; try discriminate; auto.
  - destruct a, b; try discriminate.
  - destruct a, b; try discriminate.
  - destruct a, b; try discriminate; split; auto; cbn in H; apply str_nat_inj; inversion H; auto.
Qed.

Lemma in_avg_specs na a k : In (a, k) (avg_specs na) <-> k = 0 \/ 1 <= k < na.
Proof.
  unfold avg_specs. rewrite in_prod_iff, in_app_iff, in_seq. simpl. destruct a; intuition lia.
Qed.
Lemma avg_specs_nodup na : NoDup (avg_specs na).
Proof.
  unfold avg_specs.
  assert (N : NoDup (seq 1 (na - 1) ++ [0])).
  { apply nodup_app; [apply seq_NoDup|repeat constructor; auto|].
    intros x Hx [<-|[]]. apply in_seq in Hx. lia. }
  revert N. generalize (seq 1 (na - 1) ++ [0]). intros l N.
  assert (Q : forall (xs : list avgtype), NoDup xs -> NoDup (list_prod xs l)).
  { induction 1 as [|x xs Hx Nx IH]; simpl; [constructor|]. apply nodup_app; auto.
    - apply FinFun.Injective_map_NoDup; auto. intros a b E. inversion E; auto.
    - intros [a k] H1 H2. apply in_map_iff in H1 as (y & E & _). inversion E; subst.
      apply in_prod_iff in H2 as [H2 _]. contradiction. }
  apply Q. repeat constructor; simpl; intuition discriminate.
Qed.

(** ** Windows *)

Lemma slice_map_seq {A} (g : nat -> A) N a b : a <= b -> b <= N ->
  slice (map g (seq 0 N)) a b = map g (seq a (b - a)).
Proof.
  intros L1 L2. unfold slice. rewrite skipn_map, firstn_map. f_equal.
  replace N with (a + ((b - a) + (N - b))) by lia. rewrite seq_app, skipn_app, seq_length, Nat.sub_diag.
  rewrite (skipn_all2 (seq 0 a)) by (rewrite seq_length; auto). simpl. rewrite seq_app, firstn_app, seq_length, Nat.sub_diag.
  rewrite (firstn_all2 (seq a (b - a))) by (rewrite seq_length; auto). simpl. apply app_nil_r.
Qed.

Lemma first_nan_prefix (g : nat -> val) k : forall a, (forall i, i < k -> g (a + i) <> NaN) ->
  forall r, first_nan (map g (seq a k) ++ NaN :: r) = Some k.
Proof.
  induction k as [|k IH]; intros a H r; simpl; auto.
  assert (E := H 0). rewrite Nat.add_0_r in E. assert (E' : isnan (g a) = false) by (apply isnan_false, E; lia).
  rewrite E'. rewrite IH; auto. intros i Hi. specialize (H (S i)). rewrite Nat.add_succ_r in H. apply H. lia.
Qed.
Lemma first_nan_none (l : list val) : (forall x, In x l -> x <> NaN) -> first_nan l = None.
Proof.
  induction l; simpl; intro H; auto. assert (E : isnan a = false) by (apply isnan_false, H; auto).
  rewrite E, IHl; auto.
Qed.

(** The column of a run-off triangle: [N] observed values, then NaN. *)
Definition rcol (total N : nat) (g : nat -> Qc) : list val :=
  map (fun i => if i <? N then Fin (g i) else NaN) (seq 0 total).

Lemma rcol_split total N g : N <= total ->
  rcol total N g = map (fun i => Fin (g i)) (seq 0 N) ++ map (fun _ => NaN) (seq N (total - N)).
Proof.
  intro L. unfold rcol. replace total with (N + (total - N)) at 1 by lia. rewrite seq_app, map_app. f_equal.
  - apply map_seq_ext. intros i Hi. apply ltb_if. lia.
  - apply map_seq_ext. intros i Hi. apply nltb_if. lia.
Qed.
Lemma rcol_first_nan total N g : N <= total ->
  match first_nan (rcol total N g) with Some k => k | None => length (rcol total N g) end = N.
Proof.
  intro L. destruct (Nat.eq_dec N total) as [->|D].
  - rewrite first_nan_none.
    + unfold rcol. rewrite map_length, seq_length. auto.
    + intros x Hx. unfold rcol in Hx. apply in_map_iff in Hx as (i & <- & Hi). apply in_seq in Hi.
      rewrite ltb_if by lia. discriminate.
  - rewrite rcol_split by auto. destruct (total - N) as [|r] eqn:E; [lia|]. cbn [seq map].
    rewrite (first_nan_prefix (fun i => Fin (g i))); auto. intros; discriminate.
Qed.

Definition rows_of (k N : nat) : list nat := if k =? 0 then seq 0 N else seq (N - k) (N - (N - k)).

Lemma rows_of_eq k N : rows_of k N = seq (if k =? 0 then 0 else N - k) (N - (if k =? 0 then 0 else N - k)).
Proof. unfold rows_of. destruct (k =? 0); auto. rewrite Nat.sub_0_r. auto. Qed.
Lemma in_rows k N i : In i (rows_of k N) -> i < N.
Proof. unfold rows_of. destruct (k =? 0); rewrite in_seq; lia. Qed.
Lemma rows_last k N : 0 < N -> In (N - 1) (rows_of k N).
Proof. intro H. unfold rows_of. destruct (Nat.eqb_spec k 0); rewrite in_seq; lia. Qed.

Lemma vltb_fin a b : vltb (Fin a) (Fin b) = qcltb a b.
Proof. reflexivity. Qed.

Lemma filter_pos_map (g : nat -> Qc) l :
  filter (fun v => vltb (Fin 0%Qc) v) (map (fun i => Fin (g i)) l)
  = map (fun i => Fin (g i)) (filter (fun i => qcltb 0 (g i)) l).
Proof.
  induction l as [|i l IH]; auto. cbn [map filter]. rewrite vltb_fin. destruct (qcltb 0 (g i)); cbn [map]; rewrite IH; auto.
Qed.

Lemma window_rcol total N g k : N <= total ->
  window k (rcol total N g) = map (fun i => Fin (g i)) (filter (fun i => qcltb 0 (g i)) (rows_of k N)).
Proof.
  intro L. unfold window. rewrite rcol_first_nan by auto. unfold rcol.
  rewrite slice_map_seq by (destruct (k =? 0); lia). rewrite rows_of_eq.
  set (l := seq _ _).
  assert (E : map (fun i => if i <? N then Fin (g i) else NaN) l = map (fun i => Fin (g i)) l).
  { apply map_ext_in. intros i Hi. apply ltb_if. unfold l in Hi. rewrite <- rows_of_eq in Hi.
    apply in_rows in Hi. auto. }
  rewrite E. apply filter_pos_map.
Qed.

(** ** Averages *)

Lemma medial_ok l : l <> [] -> exists v, medial_avg (map Fin l) = Ok v.
Proof.
  intro N. unfold medial_avg. destruct (ssort vcmp (map Fin l)) as [|x r] eqn:E.
  - exfalso. apply N. assert (L := ssort_length vcmp (map Fin l)). rewrite E in L. rewrite map_length in L.
    destruct l; auto; discriminate.
  - destruct (forallb _ _); [eexists; eauto|]. destruct r as [|y r]; [eexists; eauto|].
    destruct r; [eexists; eauto|]. destruct (filter _ _); eexists; eauto.
Qed.

Lemma find_label {B} (g : avgtype * nat -> B) l a k : In (a, k) l ->
  find (fun p => String.eqb (fst p) (avg_label a k))
       (map (fun sp => (avg_label (fst sp) (snd sp), g sp)) l) = Some (avg_label a k, g (a, k)).
Proof.
  induction l as [|[b c] l IH]; simpl; intro H; [contradiction|].
  destruct (String.eqb_spec (avg_label b c) (avg_label a k)) as [E|E].
  - apply avg_label_inj in E as [-> ->]. auto.
  - destruct H as [H|H]; [inversion H; subst; congruence|auto].
Qed.

Lemma steps_map (g : nat -> Z) k : forall a, steps (map g (seq a (S k))) = map (fun i => (g (S i) - g i)%Z) (seq a k).
Proof. induction k as [|k IH]; intro a; auto. cbn [seq map]. cbn [steps]. f_equal. apply (IH (S a)). Qed.

Lemma zmin_const s k : 0 < k -> forall l, length l = k -> (forall x, In x l -> x = s) -> zmin l = s.
Proof.
  intros Hk l. revert k Hk. induction l as [|x l IH]; simpl; intros k Hk L H; [lia|].
  destruct l as [|y l]; [apply H; auto|]. rewrite IH with (k := S (length l)); auto; try (simpl in L; lia).
  rewrite (H x) by auto. lia.
Qed.

Lemma sset_append (s : series) k v : ~ In k (map fst s) -> sset s k v = s ++ [(k, v)].
Proof.
  induction s as [|p s IH]; simpl; intro H; auto. destruct (Z.eqb_spec (fst p) k); [exfalso; auto|].
  rewrite IH; auto.
Qed.

Lemma zmax_firstn (ds : list Z) n : length ds = n -> 1 < n -> zsorted ds ->
  zmax (firstn (n - 1) ds) = nth (n - 2) ds 0%Z.
Proof.
  intros Ld Hn Sd.
  assert (G : forall l, zsorted l -> l <> [] -> zmax l = last l 0%Z).
  { induction 1 as [|x l Hs IH F]; [congruence|]. intros _. destruct l as [|y l]; auto.
    change (Z.max x (zmax (y :: l)) = last (y :: l) 0%Z). rewrite IH by discriminate.
    rewrite Forall_forall in F.
    assert (In (last (y :: l) 0%Z) (y :: l)).
    { rewrite (app_removelast_last 0%Z (l := y :: l)) at 2 by discriminate. apply in_or_app. right. left. auto. }
    apply F in H. lia. }
  rewrite G.
  - rewrite <- firstn_map_nth by lia. rewrite last_map_seq by lia. f_equal. lia.
  - apply zsorted_firstn; auto.
  - intro E. assert (L := firstn_length (n - 1) ds). rewrite E in L. simpl in L. lia.
Qed.
Lemma zmin_least l x : In x l -> (forall y, In y l -> (x <= y)%Z) -> zmin l = x.
Proof.
  intros H L. assert (A : forall y, In y l -> (zmin l <= y)%Z).
  { clear. induction l as [|a l IH]; intros y Hy; [destruct Hy|]. destruct l as [|b l].
    - destruct Hy as [->|[]]. simpl. lia.
    - change (Z.min a (zmin (b :: l)) <= y)%Z. destruct Hy as [->|Hy]; [lia|]. specialize (IH y Hy). lia. }
  assert (B : In (zmin l) l).
  { clear -H. destruct l as [|a l]; [destruct H|]. clear H. revert a. induction l as [|b l IH]; intro a; [left; auto|].
    change (In (Z.min a (zmin (b :: l))) (a :: b :: l)). destruct (Z.min_dec a (zmin (b :: l))) as [->| ->]; [left; auto|right; apply IH]. }
  specialize (A x H). specialize (L _ B). lia.
Qed.
Lemma increment_ev (ds : list Z) n : length ds = n -> 2 < n -> tail_fits ds ->
  increment (firstn (n - 1) ds) = Ok (nth (n - 1) ds 0%Z - nth (n - 2) ds 0%Z)%Z.
Proof.
  intros Ld Hn Ev. unfold tail_fits in Ev. rewrite Ld in Ev. destruct Ev as (Lo & j0 & Hj & Ej).
  unfold increment. rewrite <- firstn_map_nth by lia.
  replace (n - 1) with (S (n - 2)) at 1 by lia. rewrite steps_map. replace (n - 1) with (S (n - 2)) by lia.
  assert (Z1 : zmin (map (fun i => (nth (S i) ds 0 - nth i ds 0)%Z) (seq 0 (n - 2))) = (nth (S (n - 2)) ds 0 - nth (n - 2) ds 0)%Z).
  { apply zmin_least.
    - rewrite Ej. apply in_map_iff. exists j0. split; auto. apply in_seq. lia.
    - intros y Hy. apply in_map_iff in Hy as (i & <- & Hi). apply in_seq in Hi. apply Lo. lia. }
  destruct (map _ (seq 0 (n - 2))) as [|x l] eqn:E.
  - apply map_eq_nil in E. destruct (n - 2) eqn:Q; [lia|discriminate].
  - rewrite Z1. auto.
Qed.
Lemma evenly_tail_fits ds : 2 < length ds -> evenly_spaced ds -> tail_fits ds.
Proof.
  intros L (s & Hs & H). split.
  - intros j Hj. rewrite !H by lia. lia.
  - exists 0. split; [lia|]. rewrite !H by lia. lia.
Qed.

Section Avg.
  Variables (os ds : list Z) (n : nat) (C : nat -> nat -> Qc).
  Hypothesis So : zsorted os.
  Hypothesis Sd : zsorted ds.
  Hypothesis Lo : length os = n.
  Hypothesis Ld : length ds = n.
  Hypothesis Hn : 1 < n.
  Hypothesis Pos : positive n C.
  Let m := rmat os ds n C.
  Notation link := (link C).

  (** The indicators: [w i j] for the observed link ratios. *)
  Variable ind : list (list val).
  Variable w : nat -> nat -> bool.
  Hypothesis Hind : forall i j, i + j < n - 1 -> cell ind i j = Fin (if w i j then 1 else 0)%Qc.

  Lemma r_a2a' : a2a m = rmat (firstn (n - 1) os) (firstn (n - 1) ds) (n - 1) link.
  Proof. apply r_a2a; auto. lia. Qed.
  Lemma a2a_nrows : nrows (a2a m) = n - 1.
  Proof. rewrite r_a2a'. unfold nrows, rmat. cbn [m_idx]. rewrite firstn_length. lia. Qed.
  Lemma a2a_ncols : ncols (a2a m) = n - 1.
  Proof. rewrite r_a2a'. unfold ncols, rmat. cbn [m_cols]. rewrite firstn_length. lia. Qed.

  Lemma link_pos i j : i + S j < n -> (0 < link i j)%Qc.
  Proof. intro L. apply qc_div_pos; apply Pos; lia. Qed.

  Definition adj (j i : nat) : Qc := (link i j * (if w i j then 1 else 0))%Qc.

  Lemma adj_col j : j < n - 1 -> mcol (a2a_adj m ind) j = rcol (n - 1) (n - 1 - j) (adj j).
  Proof.
    intro Hj. unfold mcol, a2a_adj. cbn [m_cells].
    match goal with |- context [nrows (mkMat ?a ?b ?c)] =>
      change (nrows (mkMat a b c)) with (nrows (a2a m)) end.
    rewrite a2a_nrows, a2a_ncols. unfold rcol. apply map_seq_ext. intros i Hi.
    rewrite cell_mk by lia. rewrite r_a2a'. unfold rmat. cbn [m_cells]. rewrite cell_mk by lia. unfold rc.
    destruct (Nat.ltb_spec (i + j) (n - 1)) as [L|L].
    - rewrite (ltb_if i) by lia. rewrite Hind by auto. unfold adj. destruct (w i j); auto.
    - rewrite (nltb_if i) by lia. apply vmul_nan_l.
  Qed.

  Definition kept (k j : nat) : list nat := filter (fun i => w i j) (rows_of k (n - 1 - j)).

  Lemma adj_window k j : j < n - 1 ->
    window k (mcol (a2a_adj m ind) j) = map Fin (map (fun i => link i j) (kept k j)).
  Proof.
    intro Hj. rewrite adj_col by auto. rewrite window_rcol by lia. unfold kept. rewrite map_map.
    assert (F : filter (fun i => qcltb 0 (adj j i)) (rows_of k (n - 1 - j)) = filter (fun i => w i j) (rows_of k (n - 1 - j))).
    { apply filter_ext_in'. intros i Hi. apply in_rows in Hi. unfold adj. destruct (w i j).
      - apply qcltb_lt. rewrite Qcmult_1_r. apply link_pos. lia.
      - rewrite Qcmult_0_r. reflexivity. }
    rewrite F. apply map_ext_in. intros i Hi. apply filter_In in Hi as [_ W]. unfold adj. rewrite W. f_equal. ring.
  Qed.

  (** Weighted averages use the triangle only. *)
  Lemma weighted_eq k j : j < n - 1 ->
    weighted_avg m k j = Ok (Fin (qsum (map (fun i => C i (S j)) (rows_of k (n - 1 - j)))
                                 / qsum (map (fun i => C i j) (rows_of k (n - 1 - j))))%Qc).
  Proof.
    intro Hj. unfold weighted_avg. change (ncols m) with (length ds). change (nrows m) with (length os).
    rewrite Ld, Lo. destruct (Nat.leb_spec n (S j)); [lia|].
    unfold m. rewrite !r_mcol by (auto; lia).
    assert (E1 : map (fun i => rc n C i (S j)) (seq 0 n) = rcol n (n - 1 - j) (fun i => C i (S j))).
    { apply map_seq_ext. intros i Hi. unfold rc. destruct (Nat.ltb_spec (i + S j) n), (Nat.ltb_spec i (n - 1 - j)); auto; lia. }
    rewrite E1.
    assert (Ec : count_valid (rcol n (n - 1 - j) (fun i => C i (S j))) = n - 1 - j).
    { rewrite rcol_split by lia. unfold count_valid. rewrite filter_app.
      rewrite (filter_none _ (map (fun _ => NaN) _)).
      - rewrite app_nil_r. rewrite (filter_ext_in' _ (fun _ => true)).
        + assert (T : forall l : list val, filter (fun _ => true) l = l) by (induction l; simpl; congruence).
          rewrite T, map_length, seq_length. auto.
        + intros x Hx. apply in_map_iff in Hx as (i & <- & _). auto.
      - intros x Hx. apply in_map_iff in Hx as (i & <- & _). auto. }
    rewrite Ec. destruct (Nat.leb_spec n (n - 1 - j)); [lia|].
    unfold rcol. rewrite !slice_map_seq by (destruct (k =? 0); lia). rewrite <- rows_of_eq.
    assert (A : map (fun i => if i <? n - 1 - j then Fin (C i (S j)) else NaN) (rows_of k (n - 1 - j))
              = map Fin (map (fun i => C i (S j)) (rows_of k (n - 1 - j)))).
    { rewrite map_map. apply map_ext_in. intros i Hi. apply in_rows in Hi. apply ltb_if. auto. }
    assert (B : map (fun i => rc n C i j) (rows_of k (n - 1 - j))
              = map Fin (map (fun i => C i j) (rows_of k (n - 1 - j)))).
    { rewrite map_map. apply map_ext_in. intros i Hi. apply in_rows in Hi. unfold rc. apply ltb_if. lia. }
    rewrite A, B, !skipsum_fin, vdiv_fin; auto. apply qc_pos_neq, qsum_pos.
    - intro E. apply map_eq_nil in E. assert (Q := rows_last k (n - 1 - j)). rewrite E in Q. apply Q. lia.
    - intros x Hx. apply in_map_iff in Hx as (i & <- & Hi). apply in_rows in Hi. apply Pos. lia.
  Qed.

  (** The latest link ratio of every column is included. *)
  Hypothesis Hlast : forall j, j < n - 1 -> w (n - 2 - j) j = true.

  Lemma kept_last k j : j < n - 1 -> In (n - 2 - j) (kept k j).
  Proof.
    intro Hj. unfold kept. apply filter_In. split; auto.
    replace (n - 2 - j) with (n - 1 - j - 1) by lia. apply rows_last. lia.
  Qed.
  Lemma kept_nonempty k j : j < n - 1 -> kept k j <> [].
  Proof. intros Hj E. assert (Q := kept_last k j Hj). rewrite E in Q. auto. Qed.

  Variable gm : list val -> val.
  Definition avgval (a : avgtype) (k j : nat) : val :=
    match a with
    | Simple => Fin (mean (map (fun i => link i j) (kept k j)))
    | Geometric => gm (map Fin (map (fun i => link i j) (kept k j)))
    | Medial => match medial_avg (map Fin (map (fun i => link i j) (kept k j))) with Ok v => v | Err _ => NaN end
    | Weighted => Fin (qsum (map (fun i => C i (S j)) (rows_of k (n - 1 - j)))
                       / qsum (map (fun i => C i j) (rows_of k (n - 1 - j))))%Qc
    end.

  Lemma one_avg_eq a k j : j < n - 1 -> one_avg gm m ind a k j = Ok (avgval a k j).
  Proof.
    intro Hj. unfold one_avg. rewrite adj_window by auto. assert (N := kept_nonempty k j Hj).
    destruct a; unfold avgval.
    - unfold simple_avg. destruct (kept k j) as [|i l] eqn:E; [congruence|]. rewrite <- E in *.
      assert (V := vmean_fin (map (fun i => link i j) (kept k j))). rewrite V.
      + rewrite E. auto.
      + rewrite E. discriminate.
    - unfold geometric_avg. destruct (kept k j); [congruence|auto].
    - destruct (medial_ok (map (fun i => link i j) (kept k j))) as (v & ->); auto.
      intro E. apply map_eq_nil in E. auto.
    - apply weighted_eq; auto.
  Qed.

  Lemma a2a_avgs_eq : a2a_avgs gm m ind
    = Ok (map (fun sp => (avg_label (fst sp) (snd sp), map (avgval (fst sp) (snd sp)) (seq 0 (n - 1))))
              (avg_specs (n - 1))).
  Proof.
    unfold a2a_avgs. rewrite a2a_nrows, a2a_ncols. apply mapM_ok. intros [a k] _. cbn [fst snd].
    rewrite (mapM_ok _ (avgval a k)); auto. intros j Hj. apply in_seq in Hj. apply one_avg_eq. lia.
  Qed.


  (** ** The factors selected by label *)

  Hypothesis Hn3 : 2 < n.
  Hypothesis Ev : tail_fits ds.




  Lemma ldfs_of_label_eq a k tail : In (a, k) (avg_specs (n - 1)) ->
    ldfs_of_label gm m ind (avg_label a k) tail
    = Ok (map (fun j => (nth j ds 0%Z, if S j <? n then avgval a k j else tail)) (seq 0 n)).
  Proof.
    intro Hin. unfold ldfs_of_label. rewrite a2a_avgs_eq. cbn [bind].
    rewrite (find_label (fun sp => map (avgval (fst sp) (snd sp)) (seq 0 (n - 1)))) by auto. cbn [snd fst].
    rewrite r_a2a'. cbn [rmat m_cols]. rewrite (increment_ev ds n) by auto. cbn [bind]. rewrite (zmax_firstn ds n) by auto.
    replace (nth (n - 2) ds 0 + (nth (n - 1) ds 0 - nth (n - 2) ds 0))%Z with (nth (n - 1) ds 0%Z) by lia.
    rewrite <- firstn_map_nth by lia. rewrite combine_map_lr.
    rewrite sset_append.
    - f_equal.
      assert (E : map (fun i => (nth i ds 0%Z, avgval a k i)) (seq 0 (n - 1)) ++ [(nth (n - 1) ds 0%Z, tail)]
                = map (fun j => (nth j ds 0%Z, if S j <? n then avgval a k j else tail)) (seq 0 n)).
      { assert (Er : seq 0 n = seq 0 (n - 1) ++ [n - 1])
          by (replace n with (S (n - 1)) at 1 by lia; rewrite seq_S; auto).
        rewrite Er, map_app. cbn [map]. f_equal.
        - apply map_seq_ext. intros i Hi. rewrite ltb_if by lia. auto.
        - rewrite nltb_if by lia. auto. }
      etransitivity; [exact (f_equal zvsort E)|]. apply zsorted_zvsort. rewrite map_map. cbn.
      rewrite <- Ld, map_nth_seq. auto.
    - rewrite map_map. cbn. intro Q. apply in_map_iff in Q as (i & E & Hi). apply in_seq in Hi.
      assert (D := zsorted_nth ds i (n - 1) 0%Z Sd). rewrite Ld in D. specialize (D ltac:(lia)). lia.
  Qed.
End Avg.
