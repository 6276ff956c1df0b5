(** Proof library: sorted lists, grouping, matrices. No modelling here. *)

From Coq Require Import QArith Qcanon ZArith List Bool Lia Permutation Sorting.Sorted.
From Verif Require Import Val Frame QcLib.
Import ListNotations.
Open Scope list_scope.
Open Scope nat_scope.

(** ** [uniq] and [ssort] *)

Section SortLemmas.
  Context {A : Type} (cmp : A -> A -> comparison).
  Hypothesis cmp_eq : forall x y, cmp x y = Eq <-> x = y.
  Hypothesis cmp_opp : forall x y, cmp y x = CompOpp (cmp x y).
  Hypothesis cmp_trans : forall x y z, cmp x y = Lt -> cmp y z = Lt -> cmp x z = Lt.

  Definition slt (a b : A) := cmp a b = Lt.

  Lemma uins_in x y l : In y (uins cmp x l) <-> y = x \/ In y l.
  Proof.
    induction l as [|z l IH]; cbn [uins].
    - simpl. intuition congruence.
    - destruct (cmp x z) eqn:E; simpl.
      + apply cmp_eq in E. subst. intuition congruence.
      + intuition congruence.
      + rewrite IH. intuition congruence.
  Qed.
  Lemma uins_sorted x l : StronglySorted slt l -> StronglySorted slt (uins cmp x l).
  Proof.
    induction 1 as [|z l Hl IH Hz]; cbn [uins].
    - repeat constructor.
    - destruct (cmp x z) eqn:E.
      + constructor; auto.
      + constructor; [constructor; auto|]. constructor; auto.
        eapply Forall_impl; [|exact Hz]. intros a Ha. eapply cmp_trans; eauto.
      + constructor; auto. apply Forall_forall. intros y Hy. apply uins_in in Hy.
        destruct Hy as [->|Hy].
        * unfold slt. rewrite cmp_opp, E. reflexivity.
        * rewrite Forall_forall in Hz. auto.
  Qed.
  Lemma uniq_in x l : In x (uniq cmp l) <-> In x l.
  Proof.
    unfold uniq. induction l as [|a l IH]; cbn [fold_right]; [reflexivity|].
    rewrite uins_in, IH. simpl. intuition congruence.
  Qed.
  Lemma uniq_sorted l : StronglySorted slt (uniq cmp l).
  Proof. induction l; cbn [uniq fold_right]; [constructor | apply uins_sorted; auto]. Qed.

  Lemma slt_irrefl x : ~ slt x x.
  Proof. unfold slt. assert (cmp x x = Eq) by (apply cmp_eq; auto). congruence. Qed.

  Lemma ssorted_ext l1 : forall l2, StronglySorted slt l1 -> StronglySorted slt l2 ->
    (forall x, In x l1 <-> In x l2) -> l1 = l2.
  Proof.
    induction l1 as [|a l1 IH]; intros l2 H1 H2 E.
    - destruct l2 as [|b l2]; auto. exfalso. apply (E b). left; auto.
    - destruct l2 as [|b l2]; [exfalso; apply (E a); left; auto|].
      inversion H1 as [|? ? S1 F1]; subst. inversion H2 as [|? ? S2 F2]; subst.
      rewrite Forall_forall in F1, F2.
      assert (a = b).
      { assert (Ha : In a (b :: l2)) by (apply E; left; auto).
        assert (Hb : In b (a :: l1)) by (apply E; left; auto).
        destruct Ha as [->|Ha]; auto. destruct Hb as [->|Hb]; auto.
        exfalso. apply (slt_irrefl a). eapply cmp_trans; [apply F1, Hb | apply F2, Ha]. }
      subst b. f_equal. apply IH; auto. intro x.
      specialize (E x). simpl in E. split; intro Hx.
      + assert (Q : a = x \/ In x l2) by (apply E; auto). destruct Q as [Q|Q]; auto.
        subst x. exfalso. apply (slt_irrefl a); auto.
      + assert (Q : a = x \/ In x l1) by (apply E; auto). destruct Q as [Q|Q]; auto.
        subst x. exfalso. apply (slt_irrefl a); auto.
  Qed.
  Lemma uniq_ext l1 l2 : (forall x, In x l1 <-> In x l2) -> uniq cmp l1 = uniq cmp l2.
  Proof.
    intro E. apply ssorted_ext; auto using uniq_sorted.
    intro x. rewrite !uniq_in. auto.
  Qed.
  Lemma uniq_id l : StronglySorted slt l -> uniq cmp l = l.
  Proof. intro H. apply ssorted_ext; auto using uniq_sorted. intro. apply uniq_in. Qed.
  Lemma ssorted_nodup l : StronglySorted slt l -> NoDup l.
  Proof.
    induction 1 as [|a l H IH F]; constructor; auto.
    rewrite Forall_forall in F. intro Hin. apply (slt_irrefl a); auto.
  Qed.
End SortLemmas.

Section StableSort.
  Context {A : Type} (cmp : A -> A -> comparison).
  Lemma sins_perm x l : Permutation (sins cmp x l) (x :: l).
  Proof.
    induction l as [|y l IH]; cbn [sins]; auto.
    destruct (cmp x y); auto.
    rewrite IH. apply perm_swap.
  Qed.
  Lemma ssort_perm l : Permutation (ssort cmp l) l.
  Proof.
    induction l; cbn [ssort fold_right]; auto. fold (ssort cmp l).
    rewrite sins_perm. constructor; auto.
  Qed.
  Lemma ssort_in x l : In x (ssort cmp l) <-> In x l.
  Proof. split; apply Permutation_in; [|symmetry]; apply ssort_perm. Qed.
  Lemma ssort_length l : length (ssort cmp l) = length l.
  Proof. apply Permutation_length, ssort_perm. Qed.
  (** An already sorted list is unchanged. *)
  Lemma ssort_id l : StronglySorted (fun a b => cmp a b <> Gt) l -> ssort cmp l = l.
  Proof.
    induction 1 as [|a l H IH F]; auto.
    cbn [ssort fold_right]. fold (ssort cmp l). rewrite IH.
    destruct l as [|b l]; auto. cbn [sins].
    rewrite Forall_forall in F. specialize (F b (or_introl eq_refl)).
    destruct (cmp a b); congruence.
  Qed.
  Hypothesis cmp_opp : forall x y, cmp y x = CompOpp (cmp x y).
  Hypothesis cmp_le_trans : forall x y z, cmp x y <> Gt -> cmp y z <> Gt -> cmp x z <> Gt.
  Lemma sins_sorted x l : StronglySorted (fun a b => cmp a b <> Gt) l ->
    StronglySorted (fun a b => cmp a b <> Gt) (sins cmp x l).
  Proof.
    induction 1 as [|y l H IH F]; cbn [sins].
    - repeat constructor.
    - destruct (cmp x y) eqn:E.
      + constructor; [constructor; auto|]. constructor; [congruence|].
        eapply Forall_impl; [|exact F]. intros a Ha. eapply cmp_le_trans; [|exact Ha]. congruence.
      + constructor; [constructor; auto|]. constructor; [congruence|].
        eapply Forall_impl; [|exact F]. intros a Ha. eapply cmp_le_trans; [|exact Ha]. congruence.
      + constructor; auto. apply Forall_forall. intros z Hz.
        apply (Permutation_in _ (sins_perm x l)) in Hz. destruct Hz as [->|Hz].
        * rewrite cmp_opp, E. discriminate.
        * rewrite Forall_forall in F. auto.
  Qed.
  Lemma ssort_sorted l : StronglySorted (fun a b => cmp a b <> Gt) (ssort cmp l).
  Proof. induction l; cbn [ssort fold_right]; [constructor | apply sins_sorted; auto]. Qed.
End StableSort.

(** Instances *)
Lemma zcmp_eq x y : Z.compare x y = Eq <-> x = y.
Proof. apply Z.compare_eq_iff. Qed.
Lemma zcmp_opp x y : Z.compare y x = CompOpp (Z.compare x y).
Proof. apply Z.compare_antisym. Qed.
Lemma zcmp_trans x y z : Z.compare x y = Lt -> Z.compare y z = Lt -> Z.compare x z = Lt.
Proof. rewrite !Z.compare_lt_iff. lia. Qed.

Lemma kcmp_eq x y : kcmp x y = Eq <-> x = y.
Proof.
  destruct x as [a b], y as [c d]. unfold kcmp; simpl.
  destruct (Z.compare_spec a c); split; intro H0; try congruence; subst; try lia.
  - apply Z.compare_eq_iff in H0. congruence.
  - inversion H0; subst. apply Z.compare_eq_iff; auto.
  - inversion H0; lia.
  - inversion H0; lia.
Qed.
Lemma kcmp_opp x y : kcmp y x = CompOpp (kcmp x y).
Proof.
  destruct x as [a b], y as [c d]. unfold kcmp; simpl.
  rewrite (Z.compare_antisym a c). destruct (Z.compare a c) eqn:E; simpl; auto.
  apply Z.compare_antisym.
Qed.
Lemma kcmp_lt x y : kcmp x y = Lt <-> (fst x < fst y \/ fst x = fst y /\ snd x < snd y)%Z.
Proof.
  unfold kcmp. destruct (Z.compare_spec (fst x) (fst y)).
  - rewrite Z.compare_lt_iff. lia.
  - split; auto; lia.
  - split; try congruence; lia.
Qed.
Lemma kcmp_trans x y z : kcmp x y = Lt -> kcmp y z = Lt -> kcmp x z = Lt.
Proof. rewrite !kcmp_lt. lia. Qed.
Lemma keqb_eq a b : keqb a b = true <-> a = b.
Proof.
  destruct a, b. unfold keqb; simpl. rewrite andb_true_iff, !Z.eqb_eq.
  split; [intros [-> ->]; auto | inversion 1; auto].
Qed.
Lemma keqb_refl a : keqb a a = true.
Proof. apply keqb_eq; auto. Qed.
Lemma keqb_spec a b : reflect (a = b) (keqb a b).
Proof. apply iff_reflect. symmetry. apply keqb_eq. Qed.

Definition zsorted (l : list Z) := StronglySorted Z.lt l.
Lemma zsorted_slt l : zsorted l <-> StronglySorted (slt Z.compare) l.
Proof.
  unfold zsorted, slt. split; intro H; induction H; constructor; auto;
  eapply Forall_impl; try eassumption; cbv beta; intros; apply Z.compare_lt_iff; auto.
Qed.
Definition zuniq := uniq Z.compare.
Lemma zuniq_in x l : In x (zuniq l) <-> In x l.
Proof. apply uniq_in. apply zcmp_eq. Qed.
Lemma zuniq_sorted l : zsorted (zuniq l).
Proof. apply zsorted_slt, uniq_sorted; eauto using zcmp_eq, zcmp_opp, zcmp_trans. Qed.
Lemma zuniq_id l : zsorted l -> zuniq l = l.
Proof. intro. apply uniq_id; eauto using zcmp_eq, zcmp_opp, zcmp_trans. Qed.
Lemma zuniq_ext a b : (forall x, In x a <-> In x b) -> zuniq a = zuniq b.
Proof. intro. apply uniq_ext; eauto using zcmp_eq, zcmp_opp, zcmp_trans. Qed.
Lemma zsorted_nodup l : zsorted l -> NoDup l.
Proof. intro. apply (ssorted_nodup Z.compare); eauto using zcmp_eq. Qed.
Lemma zsorted_ext a b : zsorted a -> zsorted b -> (forall x, In x a <-> In x b) -> a = b.
Proof.
  intros. apply (ssorted_ext Z.compare); eauto using zcmp_eq, zcmp_trans; apply zsorted_slt; auto.
Qed.
Lemma zsorted_nth l i j d : zsorted l -> i < j < length l -> (nth i l d < nth j l d)%Z.
Proof.
  intro H. revert i j. induction H as [|a l H IH F]; intros i j Hij; simpl in *; [lia|].
  destruct i, j; try lia.
  - rewrite Forall_forall in F. apply F. apply nth_In. lia.
  - apply IH. lia.
Qed.
Lemma zsorted_zvsort {A} (s : list (Z * A)) : zsorted (map fst s) ->
  ssort (fun a b => Z.compare (fst a) (fst b)) s = s.
Proof.
  intro H. apply ssort_id. remember (map fst s) as l eqn:E. revert s E.
  induction H as [|a l H IH F]; intros [|[k v] s] E; simpl in E; try discriminate; constructor.
  - apply IH. congruence.
  - apply Forall_forall. intros [k' v'] Hin. inversion E; subst. simpl.
    rewrite Forall_forall in F. assert (k < k')%Z.
    { apply F. change k' with (fst (k', v')). apply in_map; auto. }
    rewrite Z.compare_gt_iff. lia.
Qed.

(** ** Positions and labels *)

Lemma zfind_some x l i : zfind x l = Some i -> i < length l /\ forall d, nth i l d = x.
Proof.
  revert i. induction l as [|y l IH]; cbn [zfind]; intros i H; [discriminate|].
  destruct (Z.eqb_spec x y).
  - inversion H; subst. simpl. split; [lia|auto].
  - destruct (zfind x l); simpl in H; inversion H; subst. destruct (IH n0 eq_refl).
    simpl. split; [lia|auto].
Qed.
Lemma zfind_none x l : zfind x l = None <-> ~ In x l.
Proof.
  induction l as [|y l IH]; cbn [zfind]; simpl; [intuition|].
  destruct (Z.eqb_spec x y); [intuition congruence|].
  destruct (zfind x l); simpl; intuition congruence.
Qed.
Lemma zfind_in x l : In x l -> exists i, zfind x l = Some i.
Proof.
  intro H. destruct (zfind x l) eqn:E; eauto. apply zfind_none in E. contradiction.
Qed.
Lemma zfind_nth l i d : NoDup l -> i < length l -> zfind (nth i l d) l = Some i.
Proof.
  intros H. revert i. induction H as [|y l Hy Hl IH]; intros i Hi; simpl in *; [lia|].
  destruct i.
  - rewrite Z.eqb_refl. auto.
  - destruct (Z.eqb_spec (nth i l d) y).
    + subst y. exfalso. apply Hy, nth_In. lia.
    + rewrite IH by lia. auto.
Qed.

(** ** Matrices *)

Lemma nth_map_seq {A} (f : nat -> A) n i d : i < n -> nth i (map f (seq 0 n)) d = f i.
Proof.
  intro H. rewrite nth_indep with (d' := f 0) by (rewrite map_length, seq_length; auto).
  rewrite map_nth, seq_nth; auto.
Qed.
Lemma nth_map_in {A B} (f : A -> B) l i d d' : i < length l -> nth i (map f l) d = f (nth i l d').
Proof.
  intro H. rewrite nth_indep with (d' := f d') by (rewrite map_length; auto). apply map_nth.
Qed.
Lemma cell_mk nr nc f i j : i < nr -> j < nc -> cell (mk nr nc f) i j = f i j.
Proof.
  intros Hi Hj. unfold cell, mk. rewrite nth_map_seq by auto. rewrite nth_map_seq by auto. auto.
Qed.
Lemma mk_length {A} nr nc (f : nat -> nat -> A) : length (mk nr nc f) = nr.
Proof. unfold mk. rewrite map_length, seq_length. auto. Qed.
Lemma mk_ext {A} nr nc (f g : nat -> nat -> A) :
  (forall i j, i < nr -> j < nc -> f i j = g i j) -> mk nr nc f = mk nr nc g.
Proof.
  intro H. unfold mk. apply map_ext_in. intros i Hi. apply map_ext_in. intros j Hj.
  apply in_seq in Hi, Hj. apply H; lia.
Qed.
(** Every list of [nr] rows of width [nc] is [mk] of its cells. *)
Definition wfm (nr nc : nat) (cs : list (list val)) :=
  length cs = nr /\ forall r, In r cs -> length r = nc.
Lemma list_map_nth {A} (l : list A) d : map (fun i => nth i l d) (seq 0 (length l)) = l.
Proof.
  apply nth_ext with (d := d) (d' := d).
  - rewrite map_length, seq_length; auto.
  - rewrite map_length, seq_length. intros n Hn. rewrite nth_map_seq; auto.
Qed.
Lemma wfm_mk nr nc cs : wfm nr nc cs -> mk nr nc (cell cs) = cs.
Proof.
  intros [Hl Hr]. subst nr. unfold mk.
  rewrite <- (list_map_nth cs []) at 2. apply map_ext_in. intros i Hi. apply in_seq in Hi.
  rewrite <- (list_map_nth (nth i cs []) NaN).
  rewrite (Hr (nth i cs [])) by (apply nth_In; lia). reflexivity.
Qed.
Lemma mk_wfm nr nc f : wfm nr nc (mk nr nc f).
Proof.
  split; [apply mk_length|]. unfold mk. intros r Hr. apply in_map_iff in Hr.
  destruct Hr as (i & <- & _). rewrite map_length, seq_length. auto.
Qed.
Lemma wfm_ext nr nc a b : wfm nr nc a -> wfm nr nc b ->
  (forall i j, i < nr -> j < nc -> cell a i j = cell b i j) -> a = b.
Proof.
  intros Ha Hb H. rewrite <- (wfm_mk nr nc a Ha), <- (wfm_mk nr nc b Hb). apply mk_ext; auto.
Qed.

Lemma map_nth_seq_fst {A} (l : list A) d : map (fun i => nth i l d) (seq 0 (length l)) = l.
Proof. apply list_map_nth. Qed.

Lemma combine_seq {A} (l : list A) d a :
  combine (seq a (length l)) l = map (fun i => (a + i, nth i l d)) (seq 0 (length l)).
Proof.
  revert a. induction l as [|x l IH]; intro a; simpl; auto.
  f_equal.
  - f_equal. lia.
  - rewrite IH, <- seq_shift, map_map. apply map_ext. intro i. simpl. f_equal. lia.
Qed.
Lemma combine_map_lr {A B C} (f : A -> B) (g : A -> C) l :
  combine (map f l) (map g l) = map (fun x => (f x, g x)) l.
Proof. induction l; simpl; congruence. Qed.

(** ** [last_valid] *)
Lemma last_valid_some l k : last_valid l = Some k <->
  k < length l /\ nth k l NaN <> NaN /\ forall j, k < j -> nth j l NaN = NaN.
Proof.
  revert k. induction l as [|v l IH]; intro k; simpl.
  - split; [discriminate|]. intros (H & _). lia.
  - destruct (last_valid l) as [q|] eqn:E.
    + destruct (IH q) as [IH1 _]. destruct (IH1 eq_refl) as (Hq & Hv & Hn).
      split.
      * inversion 1; subst. repeat split; auto; [lia|]. intros j Hj. destruct j; [lia|].
        apply Hn; lia.
      * intros (Hk & Hkv & Hkn). f_equal. destruct k.
        -- exfalso. apply Hv. apply (Hkn (S q)). lia.
        -- f_equal. assert (~ (q < k)). { intro. apply Hkv. apply (Hn k). lia. }
           assert (~ (k < q)). { intro. apply Hv. apply (Hkn (S q)). lia. } lia.
    + assert (N : forall j, nth j l NaN = NaN).
      { intro j. clear IH. revert j. induction l as [|w l IHl]; intro j; [destruct j; auto|].
        simpl in E. destruct (last_valid l); [discriminate|].
        destruct (isnan w) eqn:W; [|discriminate]. apply isnan_true in W.
        destruct j; simpl; auto. }
      destruct (isnan v) eqn:V.
      * apply isnan_true in V. subst. split; [discriminate|].
        intros (_ & Hkv & _). exfalso. apply Hkv. destruct k; auto.
      * apply isnan_false in V. split.
        -- inversion 1; subst. repeat split; auto; [lia|]. intros j Hj. destruct j; [lia|]. auto.
        -- intros (_ & Hkv & _). destruct k; auto. exfalso. apply Hkv. auto.
Qed.
Lemma last_valid_none l : last_valid l = None <-> forall j, nth j l NaN = NaN.
Proof.
  split; intro H.
  - intro j. destruct (isnan (nth j l NaN)) eqn:E; [apply isnan_true; auto|].
    exfalso. revert j E. induction l as [|v l IH]; intros j E; [destruct j; discriminate|].
    simpl in H. destruct (last_valid l) eqn:L; [discriminate|].
    destruct (isnan v) eqn:V; [|discriminate].
    destruct j; simpl in E; [congruence|]. eapply IH; eauto.
  - destruct (last_valid l) as [k|] eqn:E; auto. apply last_valid_some in E.
    destruct E as (_ & N & _). exfalso. apply N, H.
Qed.

(** ** mapM *)
Lemma mapM_ok {A B} (f : A -> res B) (g : A -> B) l :
  (forall x, In x l -> f x = Ok (g x)) -> mapM f l = Ok (map g l).
Proof.
  induction l as [|a l IH]; intro H; simpl; auto.
  rewrite H by (left; auto). simpl. rewrite IH by (intros; apply H; right; auto). auto.
Qed.
Lemma mapM_length {A B} (f : A -> res B) l r : mapM f l = Ok r -> length r = length l.
Proof.
  revert r. induction l as [|a l IH]; simpl; intros r H; [inversion H; auto|].
  destruct (f a); simpl in H; [|discriminate]. destruct (mapM f l); simpl in H; [|discriminate].
  inversion H; subst. simpl. f_equal; auto.
Qed.
Lemma mapM_nth {A B} (f : A -> res B) l r i da db : mapM f l = Ok r -> i < length l ->
  f (nth i l da) = Ok (nth i r db).
Proof.
  revert r i. induction l as [|a l IH]; simpl; intros r i H Hi; [lia|].
  destruct (f a) eqn:E; simpl in H; [|discriminate].
  destruct (mapM f l) eqn:F; simpl in H; [|discriminate].
  inversion H; subst. destruct i; simpl; auto. apply IH; auto. lia.
Qed.
Lemma mapM_ext {A B} (f g : A -> res B) l :
  (forall x, In x l -> f x = g x) -> mapM f l = mapM g l.
Proof.
  induction l as [|a l IH]; intro H; simpl; auto.
  rewrite H by (left; auto). rewrite IH by (intros; apply H; right; auto). auto.
Qed.

Lemma filter_perm {A} (f : A -> bool) l1 l2 : Permutation l1 l2 -> Permutation (filter f l1) (filter f l2).
Proof.
  induction 1; simpl; auto.
  - destruct (f x); auto.
  - destruct (f x), (f y); auto. apply perm_swap.
  - etransitivity; eauto.
Qed.
Lemma find_nodup_key (l : list rec) r : NoDup (map fst l) -> In r l ->
  find (fun q => keqb (fst q) (fst r)) l = Some r.
Proof.
  induction l as [|a l IH]; simpl; [tauto|]. intros H Hin. inversion H; subst.
  destruct (keqb_spec (fst a) (fst r)) as [E|E].
  - destruct Hin as [->|Hin]; auto. exfalso. apply H2. rewrite E. apply in_map; auto.
  - destruct Hin as [->|Hin]; [congruence|]. auto.
Qed.
