(** Proofs about the cumulative constructor and the filling of missing actuals. *)

From Coq Require Import String QArith Qcanon ZArith List Bool Lia Permutation Sorting.Sorted.
From Verif Require Import Val Frame Triangle QcLib ListLib Spec BuildFacts.
Import ListNotations.
Open Scope list_scope.
Open Scope nat_scope.

(** ** Frame operations *)

Lemma fset_keys_has f n c : In n (map fst f) -> map fst (fset f n c) = map fst f.
Proof.
  induction f as [|[m x] f IH]; simpl; [tauto|]. intro H.
  destruct (String.eqb_spec m n); simpl; auto. f_equal. apply IH. intuition.
Qed.
Lemma fset_keys_new f n c : ~ In n (map fst f) -> map fst (fset f n c) = map fst f ++ [n].
Proof.
  induction f as [|[m x] f IH]; simpl; auto. intro H.
  destruct (String.eqb_spec m n); simpl; [intuition|]. f_equal. apply IH. intuition.
Qed.
Lemma fset_nodup f n c : NoDup (map fst f) -> NoDup (map fst (fset f n c)).
Proof.
  intro H. destruct (in_dec String.string_dec n (map fst f)).
  - rewrite fset_keys_has; auto.
  - rewrite fset_keys_new; auto. apply (Permutation_NoDup (l := n :: map fst f)).
    + apply Permutation_cons_append.
    + constructor; auto.
Qed.
Lemma fset_in_same f n c : NoDup (map fst f) -> In (n, c) (fset f n c).
Proof.
  induction f as [|[m x] f IH]; simpl; auto. intro H. inversion H; subst.
  destruct (String.eqb_spec m n); simpl; subst; auto.
Qed.
Lemma fset_in_other f n c m x : m <> n -> In (m, x) f -> In (m, x) (fset f n c).
Proof.
  intro E. induction f as [|[k y] f IH]; simpl; [tauto|].
  intros [Q|Q].
  - inversion Q; subst. destruct (String.eqb_spec m n); [congruence|]. left; auto.
  - destruct (String.eqb_spec k n); simpl; auto.
Qed.
Lemma nodup_filter_keys f (p : String.string * column -> bool) :
  NoDup (map fst f) -> NoDup (map fst (filter p f)).
Proof.
  induction f as [|a f IH]; simpl; auto. intro H. inversion H; subst.
  destruct (p a); simpl; auto. constructor; auto. intro Q. apply H2.
  apply in_map_iff in Q as (b & E & Hb). apply filter_In in Hb as [Hb _].
  rewrite <- E. apply in_map; auto.
Qed.
Lemma frename_nodup f a b : NoDup (map fst f) -> ~ In b (map fst f) ->
  NoDup (map fst (frename f a b)).
Proof.
  unfold frename. induction f as [|[k y] f IH]; simpl; intros H Hb; auto.
  inversion H; subst.
  assert (Hb' : ~ In b (map fst f)) by intuition.
  destruct (String.eqb_spec k a); simpl; constructor; auto.
  - intro Q. apply in_map_iff in Q as (p & E & Hp). apply in_map_iff in Hp as (q & E2 & Hq).
    destruct (String.eqb_spec (fst q) a); subst p.
    + apply H2. subst k. rewrite <- e0. apply in_map; auto.
    + apply Hb'. simpl in E. rewrite <- E. apply in_map; auto.
  - intro Q. apply in_map_iff in Q as (p & E & Hp). apply in_map_iff in Hp as (q & E2 & Hq).
    destruct (String.eqb_spec (fst q) a); subst p.
    + simpl in E. intuition.
    + apply H2. rewrite <- E. apply in_map; auto.
Qed.
Lemma frename_in f a b c : In (a, c) f -> In (b, c) (frename f a b).
Proof.
  intro H. unfold frename. apply in_map_iff. exists (a, c). simpl.
  rewrite String.eqb_refl. auto.
Qed.
Lemma frename_in_other f a b m c : m <> a -> In (m, c) f -> In (m, c) (frename f a b).
Proof.
  intros E H. unfold frename. apply in_map_iff. exists (m, c). simpl.
  destruct (String.eqb_spec m a); [congruence|]. auto.
Qed.

(** ** Running totals *)

Definition ov (r : rec) : Z * val := (r_o r, r_v r).

(** The records with values replaced by running totals in row order. *)
Definition cum_vals (l : list rec) : list val := group_cumsum (map ov l).
Definition cum_recs (l : list rec) : list rec := combine (map fst l) (cum_vals l).

Lemma group_cumsum_from_length seen l : length (group_cumsum_from seen l) = length l.
Proof. revert seen. induction l as [|[o v] l IH]; intro seen; simpl; auto. Qed.
Lemma cum_vals_length l : length (cum_vals l) = length l.
Proof. unfold cum_vals, group_cumsum. rewrite group_cumsum_from_length, map_length. auto. Qed.
Lemma cum_recs_keys l : map fst (cum_recs l) = map fst l.
Proof.
  unfold cum_recs. assert (H : length (cum_vals l) = length (map fst l))
    by (rewrite map_length; apply cum_vals_length).
  revert H. generalize (cum_vals l), (map fst l). intros vs ks.
  revert vs. induction ks; intros [|v vs]; simpl; intro H; try discriminate; auto.
  f_equal. auto.
Qed.
Lemma map_fst_combine {A B} (a : list A) (b : list B) : length a = length b -> map fst (combine a b) = a.
Proof. revert b. induction a; intros [|y b]; simpl; intro H; try discriminate; auto. f_equal; auto. Qed.
Lemma map_snd_combine {A B} (a : list A) (b : list B) : length a = length b -> map snd (combine a b) = b.
Proof. revert b. induction a; intros [|y b]; simpl; intro H; try discriminate; auto. f_equal; auto. Qed.
Lemma cum_recs_o l : map r_o (cum_recs l) = map r_o l.
Proof.
  transitivity (map fst (map fst (cum_recs l))); [symmetry; apply map_map|].
  rewrite cum_recs_keys. apply map_map.
Qed.
Lemma cum_recs_d l : map r_d (cum_recs l) = map r_d l.
Proof.
  transitivity (map snd (map fst (cum_recs l))); [symmetry; apply map_map|].
  rewrite cum_recs_keys. apply map_map.
Qed.
Lemma cum_recs_v l : map r_v (cum_recs l) = cum_vals l.
Proof.
  unfold r_v, cum_recs. apply map_snd_combine. rewrite map_length, cum_vals_length. auto.
Qed.

Section Cum.
  Variables (o d v : String.string).
  Hypothesis Hod : o <> d.
  Hypothesis Hov : o <> v.
  Hypothesis Hdv : d <> v.
  Hypothesis Hoc : o <> "cumval"%string.
  Hypothesis Hdc : d <> "cumval"%string.
  Hypothesis Hvc : v <> "cumval"%string.

  Lemma cum_frame f l f2 : table_in f o d v l ->
    fdrop (fset f "cumval" (VC (cum_vals l))) v = Ok f2 ->
    table_in (frename f2 "cumval" v) o d v (cum_recs l).
  Proof.
    intros (N & To & Td & Tv) D. unfold fdrop in D.
    destruct (fhas (fset f "cumval" (VC (cum_vals l))) v) eqn:E; [|discriminate].
    inversion D; subst f2. clear D E.
    set (g := fset f "cumval" (VC (cum_vals l))).
    assert (Ng : NoDup (map fst g)) by (apply fset_nodup; auto).
    assert (F : forall n c, n <> v -> In (n, c) g ->
                In (n, c) (filter (fun p => negb (String.eqb (fst p) v)) g)).
    { intros n c Hn Hin. apply filter_In. split; auto. simpl.
      destruct (String.eqb_spec n v); auto. }
    split.
    - apply frename_nodup.
      + apply nodup_filter_keys; auto.
      + intro Q. apply in_map_iff in Q as (p & E & Hp). apply filter_In in Hp as [_ Hp].
        rewrite E, String.eqb_refl in Hp. discriminate.
    - rewrite cum_recs_o, cum_recs_d, cum_recs_v. repeat split.
      + apply frename_in_other; auto. apply F; auto. apply fset_in_other; auto.
      + apply frename_in_other; auto. apply F; auto. apply fset_in_other; auto.
      + apply frename_in. apply F; auto. apply fset_in_same; auto.
  Qed.

  Lemma cum_drop_ok f l c : table_in f o d v l -> exists f2, fdrop (fset f "cumval" c) v = Ok f2.
  Proof.
    intros (N & To & Td & Tv). unfold fdrop.
    assert (E : fhas (fset f "cumval" c) v = true).
    { apply fhas_in. apply (fset_in_other f "cumval" c) in Tv; auto.
      change v with (fst (v, VC (map r_v l))). apply in_map; auto. }
    rewrite E. eauto.
  Qed.

  (** The cumulative constructor on a table. *)
  Lemma cum_ctor_table h r f l : hget h r = f -> table_in f o d v l -> l <> [] ->
    snd (cum_ctor h r (Some o) (Some d) (Some v)) =
      Ok (mkTri (build (adjusted (cum_recs l))) o d v).
  Proof.
    intros Hf T Hl. unfold cum_ctor. rewrite Hf.
    assert (T' := T). destruct T' as (N & To & Td & Tv).
    rewrite (fint_in _ _ _ N To), (fval_in _ _ _ N Tv).
    rewrite combine_map_lr. change (map (fun x => (r_o x, r_v x)) l) with (map ov l).
    fold (cum_vals l).
    destruct (cum_drop_ok f l (VC (cum_vals l)) T) as [f2 E]. rewrite E.
    unfold halloc. cbn [dflt].
    set (h2 := hset h r _ ++ [f2]).
    assert (T3 := cum_frame f l f2 T E).
    rewrite (base_ctor_table o d v Hod Hov Hdv (h2 ++ [frename f2 "cumval" v]) (length h2)
               (frename f2 "cumval" v) (cum_recs l)); auto.
    - apply hget_last.
    - intro Q. apply (f_equal (map fst)) in Q. rewrite cum_recs_keys in Q.
      destruct l; [congruence|discriminate].
  Qed.
End Cum.

Lemma group_cumsum_from_app seen a b :
  group_cumsum_from seen (a ++ b) = group_cumsum_from seen a ++ group_cumsum_from (seen ++ a) b.
Proof.
  revert seen. induction a as [|[o v] a IH]; intro seen; simpl.
  - rewrite app_nil_r. auto.
  - f_equal. rewrite IH, <- app_assoc. auto.
Qed.

Definition run_val (a : list rec) (r : rec) : val :=
  if isnan (r_v r) then NaN
  else nan_sum (map r_v (filter (fun q => Z.eqb (r_o q) (r_o r)) (a ++ [r]))).

Lemma filter_ov o l :
  map snd (filter (fun p => Z.eqb (fst p) o) (map ov l))
  = map r_v (filter (fun q => Z.eqb (r_o q) o) l).
Proof.
  induction l as [|r l IH]; simpl; auto. destruct (Z.eqb (r_o r) o); simpl; congruence.
Qed.

Lemma combine_app_eq {A B} (a1 a2 : list A) (b1 b2 : list B) : length a1 = length b1 ->
  combine (a1 ++ a2) (b1 ++ b2) = combine a1 b1 ++ combine a2 b2.
Proof.
  revert b1. induction a1; intros [|y b1]; simpl; intro H; try discriminate; auto.
  f_equal. auto.
Qed.

Lemma cum_recs_split a r b : exists pre post,
  cum_recs (a ++ r :: b) = pre ++ (fst r, run_val a r) :: post.
Proof.
  unfold cum_recs, cum_vals, group_cumsum.
  rewrite !map_app, group_cumsum_from_app. simpl.
  rewrite combine_app_eq by (rewrite group_cumsum_from_length, !map_length; auto).
  eexists _, _. f_equal. simpl. f_equal. f_equal.
  unfold run_val. destruct (isnan (r_v r)); auto. rewrite skipsum_nan_sum. f_equal.
  rewrite <- filter_ov. rewrite map_app. auto.
Qed.

Lemma values_at_nodup l o d x : NoDup (map fst l) -> In ((o, d), x) l -> values_at l o d = [x].
Proof.
  unfold values_at. induction l as [|[[o' d'] y] l IH]; simpl; [tauto|].
  intros N Hin. inversion N; subst. unfold r_o, r_d. simpl.
  destruct Hin as [E|Hin].
  - inversion E; subst. rewrite !Z.eqb_refl. simpl. f_equal.
    assert (Q : values_at l o d = []) by (apply values_at_nil; auto).
    exact Q.
  - destruct (Z.eqb_spec o' o), (Z.eqb_spec d' d); simpl; try (apply IH; auto).
    subst. exfalso. apply H1. change (o, d) with (fst ((o, d), x)). apply in_map; auto.
Qed.

Lemma dev_sorted_nodup l : dev_sorted l -> NoDup (map fst l).
Proof.
  unfold dev_sorted. induction 1 as [|r l H IH F]; simpl; constructor; auto.
  intro Q. apply in_map_iff in Q as (q & E & Hq). rewrite Forall_forall in F.
  specialize (F q Hq). unfold r_o, r_d in F. rewrite E in F. specialize (F eq_refl). lia.
Qed.

Lemma ssorted_app_inv {A} (R : A -> A -> Prop) a b : StronglySorted R (a ++ b) ->
  forall x y, In x a -> In y b -> R x y.
Proof.
  induction a as [|z a IH]; simpl; intros H x y Hx Hy; [contradiction|].
  inversion H; subst. rewrite Forall_forall in H3. destruct Hx as [->|Hx].
  - apply H3. apply in_app_iff; auto.
  - apply IH; auto.
Qed.

Lemma filter_none {A} (f : A -> bool) l : (forall x, In x l -> f x = false) -> filter f l = [].
Proof.
  induction l as [|a l IH]; simpl; intro H; auto. rewrite H by auto. apply IH. auto.
Qed.
Lemma filter_ext_in' {A} (f g : A -> bool) l : (forall x, In x l -> f x = g x) -> filter f l = filter g l.
Proof.
  induction l as [|a l IH]; simpl; intro H; auto. rewrite H by auto. rewrite IH; auto.
Qed.

Lemma run_val_sorted a r b : dev_sorted (a ++ r :: b) -> r_v r <> NaN ->
  run_val a r = running_total (a ++ r :: b) (r_o r) (r_d r).
Proof.
  intros S Hv. unfold run_val. destruct (isnan (r_v r)) eqn:E; [apply isnan_true in E; congruence|].
  unfold running_total. f_equal. f_equal.
  change (a ++ r :: b) with (a ++ [r] ++ b). rewrite app_assoc. rewrite (filter_app _ (a ++ [r])).
  rewrite (filter_none _ b), app_nil_r.
  - apply filter_ext_in'. intros x Hx. apply in_app_iff in Hx.
    destruct (Z.eqb_spec (r_o x) (r_o r)); auto. simpl. symmetry. apply Z.leb_le.
    destruct Hx as [Hx|[<-|[]]]; [|lia].
    assert (H := ssorted_app_inv _ _ _ S x r Hx (or_introl eq_refl)). specialize (H e). lia.
  - intros x Hx. destruct (Z.eqb_spec (r_o x) (r_o r)); auto. simpl. apply Z.leb_gt.
    change (a ++ r :: b) with (a ++ [r] ++ b) in S. rewrite app_assoc in S.
    assert (H := ssorted_app_inv _ _ _ S r x). apply H; auto. apply in_app_iff. right. left. auto.
Qed.

Lemma nan_sum_fin l : (forall v, In v l -> exists q, v = Fin q) -> exists q, nan_sum l = Fin q.
Proof.
  induction l as [|v l IH]; intro H; simpl; eauto.
  destruct (H v (or_introl eq_refl)) as [q ->]. simpl.
  destruct IH as [p ->]; [intros; apply H; right; auto|]. eexists. reflexivity.
Qed.

Lemma running_total_fin l o d : all_finite l -> exists q, running_total l o d = Fin q.
Proof.
  intro H. apply nan_sum_fin. intros v Hv. apply in_map_iff in Hv as (r & <- & Hr).
  apply filter_In in Hr as [Hr _]. auto.
Qed.

Lemma is_first_dev_spec l r : In (r_d r) (map r_d l) -> (is_first_dev l r = true <-> first_dev l (r_d r)).
Proof.
  intro Hin. unfold is_first_dev, first_dev. rewrite forallb_forall. split.
  - intro H. split; auto. intros d' Hd. apply in_map_iff in Hd as (q & <- & Hq).
    apply Z.leb_le. auto.
  - intros [_ H] q Hq. apply Z.leb_le. apply H. apply in_map; auto.
Qed.

(** The cell expected at a recorded key: the running total, or 1 where the first
    development total is not positive. *)
Definition first_devb (l : list rec) (d : Z) : bool := forallb (fun r' => (d <=? r_d r')%Z) l.

Lemma is_first_devb l r : is_first_dev l r = first_devb l (r_d r).
Proof. reflexivity. Qed.
Lemma first_devb_ext l l' d : map r_d l = map r_d l' -> first_devb l d = first_devb l' d.
Proof.
  intro E. unfold first_devb. apply eq_true_iff_eq. rewrite !forallb_forall. split; intros H q Hq.
  - apply (in_map r_d) in Hq. rewrite <- E in Hq. apply in_map_iff in Hq as (p & <- & Hp). auto.
  - apply (in_map r_d) in Hq. rewrite E in Hq. apply in_map_iff in Hq as (p & <- & Hp). auto.
Qed.
Lemma first_devb_spec l d : In d (map r_d l) -> (first_devb l d = true <-> first_dev l d).
Proof.
  intro H. apply in_map_iff in H as (r & <- & Hr). rewrite <- is_first_devb.
  apply is_first_dev_spec. apply in_map; auto.
Qed.

Definition cum_cell (l : list rec) (o d : Z) : val :=
  if first_devb l d && vleb (running_total l o d) (Fin 0%Qc) then Fin 1%Qc
  else running_total l o d.

Lemma recorded_split l o d : recorded l o d -> exists a r b, l = a ++ r :: b /\ fst r = (o, d).
Proof.
  intro H. apply in_map_iff in H as (r & E & Hr). apply in_split in Hr as (a & b & ->).
  exists a, r, b. auto.
Qed.

Lemma cum_cell_sorted l o d : dev_sorted l -> all_finite l -> recorded l o d ->
  cell_total (adjusted (cum_recs l)) o d = cum_cell l o d.
Proof.
  intros S Fin_ R. destruct (recorded_split _ _ _ R) as (a & r & b & -> & Er).
  destruct (cum_recs_split a r b) as (pre & post & E).
  set (l := a ++ r :: b) in *.
  assert (Hr : In r l) by (apply in_app_iff; right; left; auto).
  assert (Hv : r_v r <> NaN) by (destruct (Fin_ r Hr) as [q ->]; discriminate).
  assert (Eo : r_o r = o) by (unfold r_o; rewrite Er; auto).
  assert (Ed : r_d r = d) by (unfold r_d; rewrite Er; auto).
  assert (Rv : run_val a r = running_total l o d) by (rewrite (run_val_sorted a r b S Hv), Eo, Ed; reflexivity).
  assert (In (fst r, run_val a r) (cum_recs l)).
  { rewrite E. apply in_app_iff. right. left. auto. }
  assert (N : NoDup (map fst (adjusted (cum_recs l)))).
  { rewrite adjusted_keys, cum_recs_keys. apply dev_sorted_nodup; auto. }
  assert (In ((o, d), cum_cell l o d) (adjusted (cum_recs l))).
  { unfold adjusted at 1. apply in_map_iff. exists (fst r, run_val a r). split; auto.
    cbn [fst]. rewrite Er. f_equal. unfold cum_cell. rewrite is_first_devb.
    unfold r_d at 1. cbn [fst snd].
    rewrite (first_devb_ext (cum_recs l) l d) by apply cum_recs_d.
    cbn [r_v snd]. rewrite Rv. auto. }
  unfold cell_total. rewrite (values_at_nodup _ _ _ _ N H0). simpl.
  assert (Q : exists q, cum_cell l o d = Fin q).
  { unfold cum_cell. destruct (running_total_fin l o d Fin_) as [q ->].
    destruct (_ && _); eauto. }
  destruct Q as [q ->]. simpl. f_equal. ring.
Qed.

Lemma cell_total_unrecorded l o d : ~ recorded l o d -> cell_total (adjusted (cum_recs l)) o d = NaN.
Proof.
  intro H. unfold cell_total.
  assert (E : values_at (adjusted (cum_recs l)) o d = []).
  { apply values_at_nil. rewrite adjusted_keys, cum_recs_keys. auto. }
  rewrite E. auto.
Qed.
