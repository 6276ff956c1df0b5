(** Proofs about [to_tbl]: melt, drop NaN, sort. *)

From Coq Require Import String QArith Qcanon ZArith List Bool Lia Permutation Sorting.Sorted.
From Verif Require Import Val Frame Triangle QcLib ListLib Spec BuildFacts CumFacts FillFacts TotriFacts.
Import ListNotations.
Open Scope list_scope.
Open Scope nat_scope.

(** Strictly key-sorted record lists. *)
Definition ksorted (l : list rec) := StronglySorted (slt kcmp) (map fst l).

Lemma ksorted_nodup l : ksorted l -> NoDup (map fst l).
Proof. intro H. apply (ssorted_nodup kcmp); eauto using kcmp_eq. Qed.

Lemma nodup_keys_inj (l : list rec) k x y : NoDup (map fst l) -> In (k, x) l -> In (k, y) l -> x = y.
Proof.
  induction l as [|[k' z] l IH]; simpl; [tauto|]. intros N A B. inversion N; subst.
  assert (E : forall w, In (k', w) l -> False).
  { intros w Hw. apply H1. change k' with (fst (k', w)). apply in_map; auto. }
  destruct A as [A|A], B as [B|B]; try (inversion A); try (inversion B); subst; auto;
    exfalso; eauto.
Qed.

Lemma ksorted_ext l1 l2 : ksorted l1 -> ksorted l2 -> (forall r, In r l1 <-> In r l2) -> l1 = l2.
Proof.
  intros S1 S2 E.
  assert (K : map fst l1 = map fst l2).
  { apply (ssorted_ext kcmp); eauto using kcmp_eq, kcmp_trans.
    intro k. rewrite !in_map_iff. split; intros (r & A & B); exists r; split; auto; apply E; auto. }
  assert (N1 := ksorted_nodup _ S1). clear S1 S2.
  revert l2 E K. induction l1 as [|[k x] l1 IH]; intros [|[k2 y] l2] E K; simpl in K; try discriminate; auto.
  inversion K; subst k2. inversion N1; subst.
  assert (Exy : x = y).
  { apply (nodup_keys_inj ((k, x) :: l1) k); auto; [left; auto | apply E; left; auto]. }
  subst y. f_equal. apply IH; auto. intro r. specialize (E r). simpl in E. split; intro Hr.
  - assert (Q : (k, x) = r \/ In r l2) by (apply E; auto). destruct Q as [<-|Q]; auto.
    exfalso. apply H2. change k with (fst (k, x)). apply in_map; auto.
  - assert (Q : (k, x) = r \/ In r l1) by (apply E; auto). destruct Q as [<-|Q]; auto.
    exfalso. apply H2. rewrite H1. change k with (fst (k, x)). apply in_map; auto.
Qed.

Lemma sort_recs_perm l : Permutation (sort_recs l) l.
Proof. apply ssort_perm. Qed.
Lemma sort_recs_in r l : In r (sort_recs l) <-> In r l.
Proof. apply ssort_in. Qed.

Lemma kcmp_le_trans x y z : kcmp x y <> Gt -> kcmp y z <> Gt -> kcmp x z <> Gt.
Proof.
  assert (G : forall a b, kcmp a b <> Gt <-> ~ (fst b < fst a \/ fst b = fst a /\ snd b < snd a)%Z).
  { intros a b. rewrite <- kcmp_lt. rewrite (kcmp_opp a b). destruct (kcmp a b); simpl; split; congruence. }
  rewrite !G. lia.
Qed.

Lemma sort_recs_ksorted l : NoDup (map fst l) -> ksorted (sort_recs l).
Proof.
  intro N. unfold ksorted, sort_recs.
  assert (S := ssort_sorted (fun a b : rec => kcmp (fst a) (fst b))
     (fun x y => kcmp_opp (fst x) (fst y))
     (fun x y z => kcmp_le_trans (fst x) (fst y) (fst z)) l).
  assert (N' : NoDup (map fst (ssort (fun a b : rec => kcmp (fst a) (fst b)) l))).
  { eapply Permutation_NoDup; [|exact N]. apply Permutation_map, Permutation_sym, ssort_perm. }
  change (StronglySorted (slt kcmp) (map fst (ssort (fun a b : rec => kcmp (fst a) (fst b)) l))).
  revert S N'. generalize (ssort (fun a b : rec => kcmp (fst a) (fst b)) l). clear.
  intros l0 S. induction S as [|r l0 S IH F]; simpl; intro N0; constructor.
  - apply IH. inversion N0; auto.
  - rewrite Forall_forall in *. intros k Hk. apply in_map_iff in Hk as (q & <- & Hq).
    specialize (F q Hq). simpl in F. unfold slt. destruct (kcmp (fst r) (fst q)) eqn:E; try congruence.
    apply kcmp_eq in E. inversion N0; subst. exfalso. apply H1. rewrite E. apply in_map; auto.
Qed.

(** Row-major table of the non-NaN cells. *)
Definition row_tbl (ds : list Z) (f : Z -> Z -> val) (o : Z) : list rec :=
  filter (fun r => negb (isnan (r_v r))) (map (fun d => mkrec o d (f o d)) ds).
Definition tbl (os ds : list Z) (f : Z -> Z -> val) : list rec := flat_map (row_tbl ds f) os.

Lemma in_row_tbl ds f o r : In r (row_tbl ds f o) <->
  r_o r = o /\ In (r_d r) ds /\ r_v r = f o (r_d r) /\ r_v r <> NaN.
Proof.
  unfold row_tbl. rewrite filter_In, in_map_iff. split.
  - intros [(d & <- & Hd) N]. cbn in *. repeat split; auto.
    apply negb_true_iff, isnan_false in N. auto.
  - intros (A & B & C & D). split.
    + exists (r_d r). split; auto. destruct r as [[o' d'] v]. cbn in *. subst. auto.
    + apply negb_true_iff, isnan_false. auto.
Qed.
Lemma in_tbl os ds f r : In r (tbl os ds f) <->
  In (r_o r) os /\ In (r_d r) ds /\ r_v r = f (r_o r) (r_d r) /\ r_v r <> NaN.
Proof.
  unfold tbl. rewrite in_flat_map. split.
  - intros (o & Ho & Hr). apply in_row_tbl in Hr as (A & B & C & D). subst o. auto.
  - intros (A & B & C & D). exists (r_o r). split; auto. apply in_row_tbl. auto.
Qed.

Lemma ssorted_app {A} (R : A -> A -> Prop) a b : StronglySorted R a -> StronglySorted R b ->
  (forall x y, In x a -> In y b -> R x y) -> StronglySorted R (a ++ b).
Proof.
  induction 1 as [|x a S IH F]; simpl; intros Sb H; auto.
  constructor.
  - apply IH; auto.
  - rewrite Forall_forall in *. intros y Hy. apply in_app_iff in Hy as [Hy|Hy]; auto.
Qed.

Lemma row_tbl_sorted ds f o : zsorted ds -> ksorted (row_tbl ds f o).
Proof.
  intro S. unfold ksorted, row_tbl. induction S as [|d ds S IH F]; simpl; [constructor|].
  destruct (negb (isnan (f o d))); auto. simpl. constructor; auto.
  rewrite Forall_forall in *. intros k Hk. apply in_map_iff in Hk as (r & <- & Hr).
  apply (in_row_tbl ds f o r) in Hr as (A & B & _). unfold slt. apply kcmp_lt. right.
  cbn. unfold r_o in A. unfold r_d in B. split; auto.
Qed.

Lemma tbl_sorted os ds f : zsorted os -> zsorted ds -> ksorted (tbl os ds f).
Proof.
  intros So Sd. unfold tbl. induction So as [|o os So IH F]; simpl; [constructor|].
  unfold ksorted. rewrite map_app. apply ssorted_app; auto.
  - apply row_tbl_sorted; auto.
  - intros k1 k2 H1 H2. apply in_map_iff in H1 as (r1 & <- & R1). apply in_map_iff in H2 as (r2 & <- & R2).
    apply in_row_tbl in R1 as (A & _). apply (in_tbl os ds f) in R2 as (B & _).
    rewrite Forall_forall in F. specialize (F _ B). unfold slt. apply kcmp_lt. left.
    unfold r_o in A, F. lia.
Qed.

(** [melt] lists all cells. *)
Lemma in_melt m os ds f r : holds m os ds f -> NoDup os -> NoDup ds ->
  (In r (melt m) <-> In (r_o r) os /\ In (r_d r) ds /\ r_v r = f (r_o r) (r_d r)).
Proof.
  intros H No Nd. destruct H as (H1 & H2 & H3 & H4 & H5). unfold melt, nrows, ncols. rewrite H1, H2.
  rewrite in_concat. split.
  - intros (c & Hc & Hr). apply in_map_iff in Hc as ([j d] & <- & Hj).
    apply in_map_iff in Hr as ([i o] & <- & Hi). cbn.
    rewrite (combine_seq os 0%Z) in Hi. rewrite (combine_seq ds 0%Z) in Hj. apply in_map_iff in Hi as (i' & Ei & Hi).
    apply in_map_iff in Hj as (j' & Ej & Hj). apply in_seq in Hi, Hj. inversion Ei; inversion Ej; subst.
    repeat split; try (apply nth_In; lia). unfold cell. apply H5; lia.
  - intros (A & B & C). destruct (label_pos _ _ A) as (i & Hi & Ei). destruct (label_pos _ _ B) as (j & Hj & Ej).
    eexists. split.
    + apply in_map_iff. exists (j, r_d r). split; [reflexivity|].
      rewrite (combine_seq _ 0%Z). apply in_map_iff. exists j. split; [rewrite Ej; auto|]. apply in_seq. lia.
    + apply in_map_iff. exists (i, r_o r). split.
      * cbn. unfold cell. rewrite H5 by auto. rewrite <- Ei, <- Ej, <- C. destruct r as [[? ?] ?]. auto.
      * rewrite (combine_seq _ 0%Z). apply in_map_iff. exists i. split; [rewrite Ei; auto|]. apply in_seq. lia.
Qed.

Lemma melt_keys m : map fst (melt m) =
  flat_map (fun d => map (fun o => (o, d)) (m_idx m)) (m_cols m).
Proof.
  unfold melt, nrows, ncols. generalize (m_cells m). intro cs.
  assert (G : forall ds a, map fst (concat (map (fun jd => map (fun io => mkrec (snd io) (snd jd) (cell cs (fst io) (fst jd)))
                             (combine (seq 0 (length (m_idx m))) (m_idx m)))
              (combine (seq a (length ds)) ds))) = flat_map (fun d => map (fun o => (o, d)) (m_idx m)) ds).
  { induction ds as [|d ds IH]; intro a; simpl; auto. rewrite map_app, IH. f_equal.
    rewrite map_map. cbn [mkrec fst snd].
    transitivity (map (fun o => (o, d)) (map snd (combine (seq 0 (length (m_idx m))) (m_idx m)))).
    - rewrite map_map. apply map_ext. intros [? ?]. reflexivity.
    - f_equal. apply map_snd_combine. apply seq_length. }
  apply G.
Qed.

Lemma nodup_app {A} (a b : list A) : NoDup a -> NoDup b -> (forall x, In x a -> ~ In x b) ->
  NoDup (a ++ b).
Proof.
  induction 1 as [|x a Hx Na IH]; simpl; intros Nb D; auto. constructor.
  - rewrite in_app_iff. intros [Q|Q]; auto. apply (D x); auto.
  - apply IH; auto.
Qed.

Lemma nodup_product (os ds : list Z) : NoDup os -> NoDup ds ->
  NoDup (flat_map (fun d => map (fun o => (o, d)) os) ds).
Proof.
  intros No Nd. induction Nd as [|d ds Hd Nd IH]; simpl; [constructor|].
  apply nodup_app; auto.
  - apply FinFun.Injective_map_NoDup; auto. intros x y E. inversion E; auto.
  - intros p Hp Hq. apply in_map_iff in Hp as (o & <- & _). apply in_flat_map in Hq as (d' & Hd' & Hq).
    apply in_map_iff in Hq as (o' & E & _). inversion E; subst. contradiction.
Qed.

Lemma nodup_filter_recs (l : list rec) p : NoDup (map fst l) -> NoDup (map fst (filter p l)).
Proof.
  induction l as [|a l IH]; simpl; auto. intro H. inversion H; subst.
  destruct (p a); simpl; auto. constructor; auto. intro Q. apply H2.
  apply in_map_iff in Q as (b & E & Hb). apply filter_In in Hb as [Hb _].
  rewrite <- E. apply in_map; auto.
Qed.

(** [sort_recs (drop_nan (melt m))] is the row-major table. *)
Lemma sorted_melt m os ds f : holds m os ds f -> zsorted os -> zsorted ds ->
  sort_recs (drop_nan (melt m)) = tbl os ds f.
Proof.
  intros H So Sd. assert (No := zsorted_nodup _ So). assert (Nd := zsorted_nodup _ Sd).
  apply ksorted_ext.
  - apply sort_recs_ksorted. apply nodup_filter_recs. rewrite melt_keys.
    destruct H as (-> & -> & _). apply nodup_product; auto.
  - apply tbl_sorted; auto.
  - intro r. rewrite sort_recs_in, in_tbl. unfold drop_nan. rewrite filter_In.
    rewrite (in_melt m os ds f r H No Nd). rewrite negb_true_iff, isnan_false. intuition.
Qed.

Lemma to_tbl_recs_tbl m os ds f : holds m os ds f -> zsorted os -> zsorted ds ->
  to_tbl_recs m true = tbl os ds f.
Proof. apply sorted_melt. Qed.

Lemma to_tbl_all m os ds f : holds m os ds f -> zsorted os -> zsorted ds ->
  to_tbl_recs m false = flat_map (fun o => map (fun d => mkrec o d (f o d)) ds) os.
Proof.
  intros H So Sd. assert (No := zsorted_nodup _ So). assert (Nd := zsorted_nodup _ Sd).
  apply ksorted_ext.
  - apply sort_recs_ksorted. rewrite melt_keys.
    destruct H as (-> & -> & _). apply nodup_product; auto.
  - clear H. induction So as [|o os So IH F]; simpl; [constructor|].
    unfold ksorted. rewrite map_app. apply ssorted_app.
    + rewrite map_map. cbn. clear -Sd. induction Sd as [|d ds Sd IH F]; simpl; constructor; auto.
      rewrite Forall_forall in *. intros k Hk. apply in_map_iff in Hk as (d' & <- & Hd).
      unfold slt. apply kcmp_lt. right. cbn. auto.
    + inversion No; subst. apply IH; auto.
    + intros k1 k2 H1 H2. apply in_map_iff in H1 as (r1 & <- & R1). apply in_map_iff in H2 as (r2 & <- & R2).
      apply in_map_iff in R1 as (d1 & <- & _). apply in_flat_map in R2 as (o2 & Ho2 & R2).
      apply in_map_iff in R2 as (d2 & <- & _). rewrite Forall_forall in F. specialize (F _ Ho2).
      unfold slt. apply kcmp_lt. left. cbn. auto.
  - intro r. unfold to_tbl_recs. rewrite sort_recs_in, (in_melt m os ds f r H No Nd), in_flat_map. split.
    + intros (A & B & C). exists (r_o r). split; auto. apply in_map_iff. exists (r_d r). split; auto.
      rewrite <- C. destruct r as [[? ?] ?]. auto.
    + intros (o & Ho & R). apply in_map_iff in R as (d & <- & Hd). cbn. auto.
Qed.

(** Table lookups. *)
Lemma tbl_keys_nodup os ds f : zsorted os -> zsorted ds -> NoDup (map fst (tbl os ds f)).
Proof. intros. apply ksorted_nodup, tbl_sorted; auto. Qed.
Lemma tbl_recorded os ds f o d : recorded (tbl os ds f) o d <-> In o os /\ In d ds /\ f o d <> NaN.
Proof.
  unfold recorded. rewrite in_map_iff. split.
  - intros (r & E & Hr). apply in_tbl in Hr as (A & B & C & D). unfold r_o, r_d in *. rewrite E in *.
    cbn in *. repeat split; auto. congruence.
  - intros (A & B & C). exists (mkrec o d (f o d)). split; auto. apply in_tbl. cbn. auto.
Qed.
Lemma tbl_values os ds f o d : zsorted os -> zsorted ds -> In o os -> In d ds -> f o d <> NaN ->
  values_at (tbl os ds f) o d = [f o d].
Proof.
  intros. apply values_at_nodup.
  - apply tbl_keys_nodup; auto.
  - apply in_tbl. cbn. auto.
Qed.
Lemma tbl_dev_sorted os ds f : zsorted os -> zsorted ds -> dev_sorted (tbl os ds f).
Proof.
  intros So Sd. assert (K := tbl_sorted os ds f So Sd). unfold ksorted in K. unfold dev_sorted.
  revert K. generalize (tbl os ds f). induction l as [|r l IH]; simpl; intro K; constructor.
  - apply IH. inversion K; auto.
  - inversion K; subst. rewrite Forall_forall in *. intros q Hq E.
    assert (Q : slt kcmp (fst r) (fst q)) by (apply H2, in_map; auto).
    unfold slt in Q. apply kcmp_lt in Q. unfold r_o, r_d in *. lia.
Qed.
