(** Proofs about the constructors: groupby-sum, pivot, negative handling. *)

From Coq Require Import String QArith Qcanon ZArith List Bool Lia Permutation Sorting.Sorted.
From Verif Require Import Val Frame Triangle QcLib ListLib Spec.
Import ListNotations.
Open Scope list_scope.
Open Scope nat_scope.

(** ** [holds] *)

Lemma holds_unique m m' os ds f : holds m os ds f -> holds m' os ds f -> m = m'.
Proof.
  intros (A1 & A2 & A3 & A4 & A5) (B1 & B2 & B3 & B4 & B5).
  destruct m as [i1 c1 x1], m' as [i2 c2 x2]. simpl in *.
  f_equal; try congruence. apply (wfm_ext (length os) (length ds)).
  - split; auto.
  - split; auto.
  - intros i j Hi Hj. unfold cell. rewrite A5, B5; auto.
Qed.

Lemma holds_ext m os ds f g :
  (forall o d, In o os -> In d ds -> f o d = g o d) -> holds m os ds f -> holds m os ds g.
Proof.
  intros E (A1 & A2 & A3 & A4 & A5). repeat split; auto.
  intros i j Hi Hj. rewrite A5 by auto. apply E; apply nth_In; auto.
Qed.

Lemma holds_cell_at m os ds f o d : holds m os ds f -> In o os -> In d ds ->
  cell_at m o d = Some (f o d).
Proof.
  intros (A1 & A2 & A3 & A4 & A5) Ho Hd. unfold cell_at. rewrite A1, A2.
  destruct (zfind_in o os Ho) as [i Ei]. destruct (zfind_in d ds Hd) as [j Ej].
  rewrite Ei, Ej. apply zfind_some in Ei as [Hi Ei]. apply zfind_some in Ej as [Hj Ej].
  unfold cell. rewrite A5 by auto. rewrite Ei, Ej. auto.
Qed.

Lemma holds_wfm m os ds f : holds m os ds f -> wfm (nrows m) (ncols m) (m_cells m).
Proof. intros (A1 & A2 & A3 & A4 & A5). unfold nrows, ncols. subst. split; auto. Qed.

Lemma holds_cell m os ds f i j : holds m os ds f -> i < length os -> j < length ds ->
  cell (m_cells m) i j = f (nth i os 0%Z) (nth j ds 0%Z).
Proof. intros (A1 & A2 & A3 & A4 & A5) Hi Hj. apply A5; auto. Qed.

(** ** Sums *)

Lemma skipsum_nan_sum l : skipsum l = nan_sum l.
Proof.
  induction l as [|v l IH]; simpl; auto.
  destruct (isnan v); rewrite IH; auto. rewrite vadd_0_l. auto.
Qed.

(** ** [group_sum] *)

Lemma group_sum_keys l : map fst (group_sum l) = uniq kcmp (map fst l).
Proof. unfold group_sum. rewrite map_map. simpl. apply map_id. Qed.

Lemma kuniq_sorted l : StronglySorted (slt kcmp) (uniq kcmp l).
Proof. apply uniq_sorted; eauto using kcmp_eq, kcmp_opp, kcmp_trans. Qed.
Lemma kuniq_in x l : In x (uniq kcmp l) <-> In x l.
Proof. apply uniq_in. apply kcmp_eq. Qed.
Lemma kuniq_nodup l : NoDup (uniq kcmp l).
Proof. apply (ssorted_nodup kcmp); eauto using kcmp_eq. apply kuniq_sorted. Qed.

Lemma ksorted_recs l : StronglySorted (slt kcmp) (map fst l) -> sort_recs l = l.
Proof.
  intro H. unfold sort_recs. apply ssort_id. remember (map fst l) as ks eqn:E.
  revert l E. induction H as [|k ks H IH F]; intros [|[k' v] l] E; simpl in E; try discriminate.
  - constructor.
  - inversion E; subst. constructor; auto. apply Forall_forall. intros [k2 v2] Hin. simpl.
    rewrite Forall_forall in F. assert (Q : slt kcmp k' k2).
    { apply F. change k2 with (fst (k2, v2)). apply in_map; auto. }
    unfold slt in Q. congruence.
Qed.

Lemma sort_group_sum l : sort_recs (group_sum l) = group_sum l.
Proof. apply ksorted_recs. rewrite group_sum_keys. apply kuniq_sorted. Qed.

Lemma filter_key_values l o d :
  map r_v (filter (fun r => keqb (fst r) (o, d)) l) = values_at l o d.
Proof. reflexivity. Qed.

Lemma values_at_nil l o d : values_at l o d = [] <-> ~ In (o, d) (map fst l).
Proof.
  unfold values_at. induction l as [|r l IH]; simpl; [intuition|].
  destruct r as [[o' d'] v]. unfold r_o, r_d. simpl.
  destruct (Z.eqb_spec o' o), (Z.eqb_spec d' d); simpl; subst.
  - split; [discriminate|]. intro H. exfalso. apply H. auto.
  - rewrite IH. split; intros H; [intros [Q|Q]; [congruence|auto]|]. intro; apply H; auto.
  - rewrite IH. split; intros H; [intros [Q|Q]; [congruence|auto]|]. intro; apply H; auto.
  - rewrite IH. split; intros H; [intros [Q|Q]; [congruence|auto]|]. intro; apply H; auto.
Qed.

Lemma find_map_key (g : key -> val) ks k :
  find (fun q => keqb (fst q) k) (map (fun k => (k, g k)) ks)
  = if existsb (fun k' => keqb k' k) ks then Some (k, g k) else None.
Proof.
  induction ks as [|k' ks IH]; simpl; auto.
  destruct (keqb_spec k' k); simpl; subst; auto.
Qed.

Lemma rec_lookup_group_sum l o d :
  rec_lookup (group_sum l) o d =
  match values_at l o d with [] => None | vs => Some (nan_sum vs) end.
Proof.
  unfold rec_lookup, group_sum.
  rewrite (find_map_key (fun k => skipsum (map r_v (filter (fun r => keqb (fst r) k) l)))).
  destruct (existsb (fun k' => keqb k' (o, d)) (uniq kcmp (map fst l))) eqn:E.
  - apply existsb_exists in E as (k & Hk & Ek). apply keqb_eq in Ek. subst k.
    rewrite kuniq_in in Hk. unfold r_v at 1. simpl.
    rewrite filter_key_values, skipsum_nan_sum.
    destruct (values_at l o d) eqn:V; auto. apply values_at_nil in V. contradiction.
  - destruct (values_at l o d) eqn:V; auto.
    assert (In (o, d) (map fst l)).
    { destruct (in_dec (fun a b => match keqb_spec a b with
        | ReflectT _ p => left p | ReflectF _ p => right p end) (o, d) (map fst l)); auto.
      apply values_at_nil in n. congruence. }
    rewrite <- kuniq_in in H. assert (existsb (fun k' => keqb k' (o, d)) (uniq kcmp (map fst l)) = true).
    { apply existsb_exists. exists (o, d). split; auto. apply keqb_refl. }
    congruence.
Qed.

Lemma in_group_sum_o l x : In x (map r_o (group_sum l)) <-> In x (map r_o l).
Proof.
  assert (E : map r_o (group_sum l) = map fst (uniq kcmp (map fst l))).
  { rewrite <- group_sum_keys, map_map. reflexivity. }
  rewrite E. assert (F : map r_o l = map fst (map fst l)) by (rewrite map_map; reflexivity).
  rewrite F. rewrite !in_map_iff. split; intros (k & A & B); exists k; split; auto; rewrite ?kuniq_in in *; auto.
Qed.
Lemma in_group_sum_d l x : In x (map r_d (group_sum l)) <-> In x (map r_d l).
Proof.
  assert (E : map r_d (group_sum l) = map snd (uniq kcmp (map fst l))).
  { rewrite <- group_sum_keys, map_map. reflexivity. }
  rewrite E. assert (F : map r_d l = map snd (map fst l)) by (rewrite map_map; reflexivity).
  rewrite F. rewrite !in_map_iff. split; intros (k & A & B); exists k; split; auto; rewrite ?kuniq_in in *; auto.
Qed.

(** ** [build] *)

Lemma pivot_holds l : holds (pivot l) (zuniq (map r_o l)) (zuniq (map r_d l))
  (fun o d => match rec_lookup l o d with Some v => v | None => NaN end).
Proof.
  unfold pivot. fold zuniq. repeat split; simpl; auto.
  - rewrite map_length. auto.
  - intros row H. apply in_map_iff in H as (o & <- & _). rewrite map_length. auto.
  - intros i j Hi Hj.
    rewrite (nth_map_in _ (zuniq (map r_o l)) i _ 0%Z) by auto.
    rewrite (nth_map_in _ (zuniq (map r_d l)) j _ 0%Z) by auto. auto.
Qed.

Lemma build_holds l :
  holds (build l) (zuniq (map r_o l)) (zuniq (map r_d l)) (cell_total l).
Proof.
  unfold build. rewrite sort_group_sum.
  assert (H := pivot_holds (group_sum l)).
  rewrite (zuniq_ext _ _ (in_group_sum_o l)), (zuniq_ext _ _ (in_group_sum_d l)) in H.
  eapply holds_ext; [|exact H]. intros o d _ _. cbv beta. rewrite rec_lookup_group_sum.
  unfold cell_total. destruct (values_at l o d); auto.
Qed.

(** ** Negative handling *)

Lemma zmin_le l x : In x l -> (zmin l <= x)%Z.
Proof.
  induction l as [|a l IH]; simpl; [tauto|]. intros [->|H].
  - destruct l; lia.
  - specialize (IH H). destruct l; [contradiction|]. lia.
Qed.
Lemma zmin_in l : l <> [] -> In (zmin l) l.
Proof.
  induction l as [|a l IH]; [congruence|]. intros _. destruct l as [|b l]; [left; auto|].
  assert (H : In (zmin (b :: l)) (b :: l)) by (apply IH; discriminate).
  change (zmin (a :: b :: l)) with (Z.min a (zmin (b :: l))).
  destruct (Z.min_spec a (zmin (b :: l))) as [[_ ->]|[_ ->]]; [left|right]; auto.
Qed.

Lemma is_first_dev_zmin l r : In r l -> is_first_dev l r = Z.eqb (r_d r) (zmin (map r_d l)).
Proof.
  intro H. unfold is_first_dev. apply eq_true_iff_eq.
  rewrite forallb_forall, Z.eqb_eq. split.
  - intro F. assert (A : In (zmin (map r_d l)) (map r_d l)).
    { apply zmin_in. destruct l; [contradiction|discriminate]. }
    apply in_map_iff in A as (q & Eq & Hq). specialize (F q Hq). apply Z.leb_le in F.
    assert (zmin (map r_d l) <= r_d r)%Z by (apply zmin_le, in_map; auto). lia.
  - intros E q Hq. apply Z.leb_le. rewrite E. apply zmin_le, in_map; auto.
Qed.

Lemma zip_neg l :
  zip_recs (map r_o l) (map r_d l) (neg_handler (map r_d l) (map r_v l)) = adjusted l.
Proof.
  unfold zip_recs, neg_handler, adjusted. rewrite !combine_map_lr, map_map, combine_map_lr.
  apply map_ext_in. intros r Hr. rewrite is_first_dev_zmin by auto.
  destruct r as [[o d] v]. reflexivity.
Qed.

Lemma adjusted_keys l : map fst (adjusted l) = map fst l.
Proof. unfold adjusted. rewrite map_map. reflexivity. Qed.
Lemma adjusted_o l : map r_o (adjusted l) = map r_o l.
Proof. unfold adjusted. rewrite map_map. reflexivity. Qed.
Lemma adjusted_d l : map r_d (adjusted l) = map r_d l.
Proof. unfold adjusted. rewrite map_map. reflexivity. Qed.

(** ** Frames *)

Lemma fget_in f n c : NoDup (map fst f) -> In (n, c) f -> fget f n = Some c.
Proof.
  induction f as [|[m d] f IH]; simpl; [tauto|]. intros H Hin. inversion H; subst.
  destruct Hin as [E|Hin].
  - inversion E; subst. rewrite String.eqb_refl. auto.
  - destruct (String.eqb_spec m n); auto. subst. exfalso. apply H2.
    change n with (fst (n, c)). apply in_map; auto.
Qed.
Lemma fhas_in f n : fhas f n = true <-> In n (map fst f).
Proof.
  unfold fhas. rewrite existsb_exists. split.
  - intros ([m c] & Hin & E). apply String.eqb_eq in E. simpl in E. subst.
    change n with (fst (n, c)). apply in_map; auto.
  - intro H. apply in_map_iff in H as (p & <- & Hp). exists p. split; auto. apply String.eqb_refl.
Qed.
Lemma fcount_nodup f n : NoDup (map fst f) -> fcount f n <= 1.
Proof.
  unfold fcount. induction f as [|[m d] f IH]; simpl; [lia|]. intro H. inversion H; subst.
  destruct (String.eqb_spec m n); [|auto]. subst. simpl.
  assert (E : filter (fun p => String.eqb (fst p) n) f = []).
  { destruct (filter (fun p => String.eqb (fst p) n) f) as [|p l] eqn:F; auto.
    assert (Hp : In p (filter (fun p => String.eqb (fst p) n) f)) by (rewrite F; left; auto).
    apply filter_In in Hp as [Hp Ep]. apply String.eqb_eq in Ep. subst. exfalso. apply H2.
    apply in_map; auto. }
  rewrite E. simpl. lia.
Qed.
Lemma fint_in f n l : NoDup (map fst f) -> In (n, ZC l) f -> fint f n = Ok l.
Proof.
  intros H Hin. unfold fint. assert (fcount f n <= 1) by (apply fcount_nodup; auto).
  destruct (Nat.ltb_spec 1 (fcount f n)); [lia|].
  rewrite (fget_in f n _ H Hin). auto.
Qed.
Lemma fval_in f n l : NoDup (map fst f) -> In (n, VC l) f -> fval f n = Ok l.
Proof.
  intros H Hin. unfold fval. assert (fcount f n <= 1) by (apply fcount_nodup; auto).
  destruct (Nat.ltb_spec 1 (fcount f n)); [lia|].
  rewrite (fget_in f n _ H Hin). auto.
Qed.

Lemma hget_last h f : hget (h ++ [f]) (length h) = f.
Proof. unfold hget. rewrite app_nth2, Nat.sub_diag; auto. Qed.
Lemma hset_last h f g : hset (h ++ [f]) (length h) g = h ++ [g].
Proof. induction h; simpl; auto. f_equal; auto. Qed.

Section Ctor.
  Variables (o d v : String.string).
  Hypothesis Hod : o <> d.
  Hypothesis Hov : o <> v.
  Hypothesis Hdv : d <> v.

  Lemma names_ok : String.eqb o d || String.eqb o v || String.eqb d v = false.
  Proof.
    rewrite !orb_false_iff. repeat split; apply String.eqb_neq; auto.
  Qed.

  Lemma table_names f l : table_in f o d v l ->
    fhas f o = true /\ fhas f d = true /\ fhas f v = true.
  Proof.
    intros (N & A & B & C). rewrite !fhas_in.
    apply (in_map fst) in A, B, C. auto.
  Qed.

  (** The base constructor on a table. *)
  Lemma base_ctor_table h r f l : hget h r = f -> table_in f o d v l -> l <> [] ->
    base_ctor h r o d v =
      (hset h r (fset f v (VC (neg_handler (map r_d l) (map r_v l)))),
       Ok (mkTri (build (adjusted l)) o d v)).
  Proof.
    intros Hf T Hl. destruct (table_names f l T) as (A & B & C). destruct T as (N & To & Td & Tv).
    unfold base_ctor. rewrite Hf. unfold validate. rewrite A, B, C. cbn [negb].
    rewrite names_ok.
    rewrite (fint_in _ _ _ N To), (fint_in _ _ _ N Td), (fval_in _ _ _ N Tv).
    rewrite zip_neg. destruct l; [congruence|]. reflexivity.
  Qed.
End Ctor.
