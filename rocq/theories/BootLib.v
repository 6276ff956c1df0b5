(** Facts about the bootstrap tables that hold for every triangle. *)

From Coq Require Import String QArith Qcanon ZArith List Bool Lia Permutation Sorting.Sorted.
From Verif Require Import Val Frame Triangle A2A Base Mack Boot ListLib QcLib RegFacts BaseClaims.
Import ListNotations.
Open Scope list_scope.
Open Scope nat_scope.

(** ** Lists indexed by (sim, row) *)

Definition cube {A} (sims nr : nat) (g : nat -> nat -> A) : list A :=
  flat_map (fun s => map (g s) (seq 0 nr)) (seq 0 sims).

Lemma flat_map_seq_ext {A} (f g : nat -> list A) a n : (forall i, a <= i < a + n -> f i = g i) ->
  flat_map f (seq a n) = flat_map g (seq a n).
Proof.
  revert a. induction n as [|n IH]; intros a H; simpl; auto. rewrite H by lia. f_equal. apply IH. intros; apply H; lia.
Qed.
Lemma cube_ext {A} sims nr (g h : nat -> nat -> A) : (forall s i, s < sims -> i < nr -> g s i = h s i) ->
  cube sims nr g = cube sims nr h.
Proof.
  intro H. apply flat_map_seq_ext. intros s Hs. apply map_seq_ext. intros i Hi. apply H; lia.
Qed.
Lemma in_cube {A} sims nr (g : nat -> nat -> A) x : In x (cube sims nr g) <-> exists s i, s < sims /\ i < nr /\ x = g s i.
Proof.
  unfold cube. rewrite in_flat_map. split.
  - intros (s & Hs & Hx). apply in_map_iff in Hx as (i & <- & Hi). apply in_seq in Hs. apply in_seq in Hi. exists s, i. repeat split; lia.
  - intros (s & i & Hs & Hi & ->). exists s. split; [apply in_seq; lia|]. apply in_map, in_seq. lia.
Qed.
Lemma map_cube {A B} (f : A -> B) sims nr g : map f (cube sims nr g) = cube sims nr (fun s i => f (g s i)).
Proof.
  unfold cube. generalize (seq 0 sims) as l. induction l; simpl; auto. rewrite map_app, map_map, IHl. auto.
Qed.
Lemma cube_length {A} sims nr (g : nat -> nat -> A) : length (cube sims nr g) = sims * nr.
Proof.
  unfold cube. rewrite <- (seq_length sims 0) at 2. generalize (seq 0 sims) as l. induction l; simpl; auto.
  rewrite app_length, map_length, seq_length, IHl. auto.
Qed.
Lemma flat_map_cube {A B} (f : A -> list B) sims nr g :
  flat_map f (cube sims nr g) = flat_map (fun s => flat_map (fun i => f (g s i)) (seq 0 nr)) (seq 0 sims).
Proof.
  unfold cube. generalize (seq 0 sims) as l. induction l; simpl; auto. rewrite flat_map_app, IHl. f_equal.
  rewrite !flat_map_concat_map, map_map. auto.
Qed.
Lemma flat_map_single {A B} (f : A -> B) l : flat_map (fun x => [f x]) l = map f l.
Proof. induction l; simpl; f_equal; auto. Qed.
Lemma seq_map_add a b k : seq (a + b) k = map (fun i => a + i) (seq b k).
Proof. revert b. induction k; intro b; simpl; auto. f_equal. rewrite <- IHk. f_equal. lia. Qed.
Lemma flat_map_app_seq {A} (f : nat -> list A) n m : flat_map f (seq 0 (n + m)) = flat_map f (seq 0 n) ++ flat_map f (seq n m).
Proof. rewrite seq_app, flat_map_app. auto. Qed.
(** Positions of the entries of a cube. *)
Lemma combine_app_eq {A B} (a a' : list A) (b b' : list B) : length a = length b ->
  combine (a ++ a') (b ++ b') = combine a b ++ combine a' b'.
Proof. revert b. induction a; destruct b; simpl; intros; try discriminate; auto. f_equal. auto. Qed.
Lemma combine_seq_cube {A} sims nr (g : nat -> nat -> A) :
  combine (seq 0 (sims * nr)) (cube sims nr g) = cube sims nr (fun s i => (s * nr + i, g s i)).
Proof.
  induction sims as [|k IH]; auto. unfold cube in *. replace (S k * nr) with (k * nr + nr) by lia.
  rewrite seq_app. rewrite <- Nat.add_1_r, !flat_map_app_seq. rewrite combine_app_eq.
  - rewrite IH. f_equal. cbn [seq flat_map]. rewrite !app_nil_r.
    replace (0 + k * nr) with (k * nr + 0) by lia. rewrite seq_map_add, combine_map_lr. auto.
  - rewrite seq_length. change (flat_map (fun s => map (g s) (seq 0 nr)) (seq 0 k)) with (cube k nr g).
    rewrite cube_length. auto.
Qed.
Lemma combine_nth_map {A B} (a : list A) (g : nat -> B) da :
  combine a (map g (seq 0 (length a))) = map (fun j => (nth j a da, g j)) (seq 0 (length a)).
Proof.
  rewrite <- (combine_map_lr (fun j => nth j a da) g). f_equal. symmetry. apply list_map_nth.
Qed.

(** ** Sorting the reserve records *)

Lemma sorted_unique {A} (le : A -> A -> Prop) (l1 : list A) : forall l2, Permutation l1 l2 ->
  StronglySorted le l1 -> StronglySorted le l2 ->
  (forall x y, In x l1 -> In y l1 -> le x y -> le y x -> x = y) -> l1 = l2.
Proof.
  induction l1 as [|a l1 IH]; intros l2 P S1 S2 H.
  - apply Permutation_nil in P. auto.
  - destruct l2 as [|b l2]; [symmetry in P; apply Permutation_nil in P; discriminate|].
    inversion S1 as [|? ? S1' F1]; subst. inversion S2 as [|? ? S2' F2]; subst. rewrite Forall_forall in F1, F2.
    assert (E : a = b).
    { assert (A1 : In a (b :: l2)) by (eapply Permutation_in; [exact P|left; auto]).
      assert (B1 : In b (a :: l1)) by (eapply Permutation_in; [symmetry; exact P|left; auto]).
      destruct A1 as [->|A1]; auto. destruct B1 as [->|B1]; auto.
      apply H; simpl; auto. }
    subst b. f_equal. apply IH; auto.
    + eapply Permutation_cons_inv; exact P.
    + intros; apply H; simpl; auto.
Qed.

Lemma rrec_cmp_opp x y : rrec_cmp y x = CompOpp (rrec_cmp x y).
Proof.
  unfold rrec_cmp. rewrite (Z.compare_antisym (v_o x) (v_o y)). destruct (v_o x ?= v_o y)%Z; simpl; auto.
  apply Nat.compare_antisym.
Qed.
Lemma rrec_cmp_le x y : rrec_cmp x y <> Gt <-> (v_o x < v_o y)%Z \/ v_o x = v_o y /\ v_sim x <= v_sim y.
Proof.
  unfold rrec_cmp. destruct (Z.compare_spec (v_o x) (v_o y)) as [E|E|E].
  - rewrite Nat.compare_le_iff. split; [auto|]. intros [Q|[_ Q]]; auto; lia.
  - split; [auto|discriminate].
  - split; [congruence|]. intros [Q|[Q _]]; lia.
Qed.
Lemma rrec_cmp_trans x y z : rrec_cmp x y <> Gt -> rrec_cmp y z <> Gt -> rrec_cmp x z <> Gt.
Proof. rewrite !rrec_cmp_le. lia. Qed.

Lemma perm_flip {A} (g : nat -> nat -> A) n m :
  Permutation (flat_map (fun s => map (g s) (seq 0 m)) (seq 0 n)) (flat_map (fun i => map (fun s => g s i) (seq 0 n)) (seq 0 m)).
Proof.
  induction n as [|n IH].
  - simpl. induction (seq 0 m); simpl; auto.
  - rewrite <- Nat.add_1_r, flat_map_app_seq. cbn [seq flat_map]. rewrite app_nil_r.
    rewrite IH. clear IH. rewrite seq_app. generalize (seq 0 m) as l. intro l.
    induction l as [|i l IHl]; simpl; auto.
    rewrite map_app. simpl. rewrite <- IHl. clear IHl. rewrite <- !app_assoc. apply Permutation_app_head.
    rewrite Permutation_app_comm. simpl. constructor. apply Permutation_app_comm.
Qed.

Lemma sort_cube os sims (R : nat -> nat -> rrec) : zsorted os ->
  (forall s i, s < sims -> i < length os -> v_sim (R s i) = s /\ v_o (R s i) = nth i os 0%Z) ->
  ssort rrec_cmp (cube sims (length os) R) = flat_map (fun i => map (fun s => R s i) (seq 0 sims)) (seq 0 (length os)).
Proof.
  intros So K. apply (sorted_unique (fun a b => rrec_cmp a b <> Gt)).
  - rewrite ssort_perm. apply perm_flip.
  - apply ssort_sorted; [apply rrec_cmp_opp|apply rrec_cmp_trans].
  - assert (G : forall c a, a + c <= length os ->
      StronglySorted (fun a b => rrec_cmp a b <> Gt) (flat_map (fun i => map (fun s => R s i) (seq 0 sims)) (seq a c))).
    { induction c as [|c IH]; intros a L; cbn [seq flat_map]; [constructor|].
      assert (G2 : forall k b, b + k <= sims -> forall t, StronglySorted (fun a b => rrec_cmp a b <> Gt) t ->
         (forall s x, s < sims -> In x t -> rrec_cmp (R s a) x <> Gt) ->
         StronglySorted (fun a b => rrec_cmp a b <> Gt) (map (fun s => R s a) (seq b k) ++ t)).
      { induction k as [|k IHk]; intros b Lb t St Ht; cbn [seq map app]; auto.
        constructor.
        - apply IHk; auto. lia.
        - apply Forall_forall. intros x Hx. apply in_app_or in Hx as [Hx|Hx].
          + apply in_map_iff in Hx as (s & <- & Hs). apply in_seq in Hs. apply rrec_cmp_le.
            destruct (K b a), (K s a); try lia. 
          + apply Ht; auto. lia. }
      apply G2; [lia|apply IH; lia|].
      intros s x Hs Hx. apply in_flat_map in Hx as (i & Hi & Hx). apply in_seq in Hi.
      apply in_map_iff in Hx as (s' & <- & Hs'). apply in_seq in Hs'. apply rrec_cmp_le. left.
      destruct (K s a) as [_ ->]; try lia. destruct (K s' i) as [_ ->]; try lia.
      apply zsorted_nth; auto. lia. }
    apply G. lia.
  - intros x y Hx Hy. rewrite ssort_in in Hx, Hy.
    apply in_cube in Hx as (s & i & Hs & Hi & ->). apply in_cube in Hy as (s' & i' & Hs' & Hi' & ->).
    rewrite !rrec_cmp_le. destruct (K s i) as [-> ->]; auto. destruct (K s' i') as [-> ->]; auto.
    intros A B. assert (E : nth i os 0%Z = nth i' os 0%Z) by lia.
    assert (i = i').
    { destruct (Nat.lt_trichotomy i i') as [Q|[Q|Q]]; auto.
      - assert (W := zsorted_nth os i i' 0%Z So). lia.
      - assert (W := zsorted_nth os i' i 0%Z So). lia. }
    assert (s = s') by lia. subst. auto.
Qed.

(** ** Structure of the tables *)

Definition key (r : simrow) : nat * Z * Z := (b_sim r, b_o r, b_d r).

Lemma cum_from_length op l : forall acc, length (cum_from op acc l) = length l.
Proof. induction l; intro acc; simpl; auto. destruct (isnan a); simpl; f_equal; auto. Qed.
Lemma cumsum_length l : length (cumsum l) = length l.
Proof. apply cum_from_length. Qed.

Lemma group_key rt m fit resid s i :
  map key (sample_group rt m fit resid s i) = map (fun d => (s, nth i (m_idx m) 0%Z, d)) (m_cols m).
Proof.
  unfold sample_group, key. rewrite map_map. cbn [b_sim b_o b_d].
  etransitivity; [|apply (f_equal (map _) (list_map_nth (m_cols m) 0%Z))]. rewrite map_map. auto.
Qed.

Definition gsorted (g : list simrow) := StronglySorted (fun a b => b_o a = b_o b /\ (b_d a < b_d b)%Z) g.

Lemma group_sorted g s o ds : zsorted ds -> map key g = map (fun d => (s, o, d)) ds -> gsorted g.
Proof.
  intros Sd. revert g. induction Sd as [|d ds Sd IH F]; intros [|r g] E; try discriminate; [constructor|].
  injection E as E1 E2 E3 E4. constructor; [apply IH; auto|].
  apply Forall_forall. intros x Hx. assert (Hk : In (key x) (map (fun d => (s, o, d)) ds)) by (rewrite <- E4; apply in_map; auto).
  apply in_map_iff in Hk as (d' & Hk & Hd). unfold key in Hk. injection Hk as K1 K2 K3.
  rewrite Forall_forall in F. specialize (F d' Hd). split; congruence || lia.
Qed.
Lemma act_fc ladev g : gsorted g -> act_part ladev g ++ fc_part ladev g = g.
Proof.
  intro S. induction S as [|r g S IH F]; auto. unfold act_part, fc_part in *. cbn [filter].
  destruct (Z.leb_spec (ladev (b_o r)) (b_d r)) as [L|L]; cbn [negb].
  - assert (A : forall l, Forall (fun b => b_o r = b_o b /\ (b_d r < b_d b)%Z) l ->
        filter (fun x => negb (ladev (b_o x) <=? b_d x)%Z) l = [] /\ filter (fun x => (ladev (b_o x) <=? b_d x)%Z) l = l).
    { induction 1 as [|x l [E D] Fl [I1 I2]]; auto. cbn [filter].
      assert (Q : (ladev (b_o x) <=? b_d x)%Z = true) by (apply Z.leb_le; rewrite <- E; lia).
      rewrite Q. cbn [negb]. rewrite I1, I2. auto. }
    destruct (A g F) as [-> ->]. auto.
  - cbn [app]. f_equal. auto.
Qed.

Lemma incr_from_length l : forall p, length (incr_from p l) = length l.
Proof. induction l as [|[d c] l IH]; intro p; simpl; auto. Qed.
Lemma set_cum_inc_spec g cs : length cs = length g ->
  set_cum_inc g cs = map (fun j => let r := nth j g (mkS 0 0 0 false NaN NaN) in
     mkS (b_sim r) (b_o r) (b_d r) (b_fc r)
         (at1 (incr_from NaN (combine (map b_d g) cs)) j) (at1 cs j)) (seq 0 (length g)).
Proof.
  intro L. unfold set_cum_inc. set (ic := incr_from _ _).
  assert (Li : length ic = length g) by (unfold ic; rewrite incr_from_length, combine_length, map_length; lia).
  assert (E : combine cs ic = map (fun j => (at1 cs j, at1 ic j)) (seq 0 (length g))).
  { rewrite <- (combine_map_lr (at1 cs) (at1 ic)). f_equal.
    - rewrite <- L. symmetry. apply list_map_nth.
    - rewrite <- Li. symmetry. apply list_map_nth. }
  rewrite E. rewrite (combine_nth_map g _ (mkS 0 0 0 false NaN NaN)), map_map. auto.
Qed.
Lemma set_cum_inc_key g cs : length cs = length g -> map key (set_cum_inc g cs) = map key g.
Proof.
  intro L. rewrite set_cum_inc_spec by auto. rewrite map_map. unfold key. cbn [b_sim b_o b_d].
  etransitivity; [|apply (f_equal (map _) (list_map_nth g (mkS 0 0 0 false NaN NaN)))]. rewrite map_map. auto.
Qed.

Definition fc_cums (ladev : Z -> Z) (g : list simrow) (sh : list val) : list val :=
  map b_cum (act_part ladev g) ++ map (cum_final (l_act_cum ladev g)) (combine (fc_part ladev g) sh).
Lemma removelast_length {A} (x : A) l : length (removelast (x :: l)) = length l.
Proof. revert x. induction l; intro x; auto. cbn [removelast length] in *. f_equal. apply IHl. Qed.
Lemma fc_cums_length ladev g sh : gsorted g -> length sh = length (fc_part ladev g) -> length (fc_cums ladev g sh) = length g.
Proof.
  intros S L. unfold fc_cums. rewrite app_length, !map_length, combine_length, L, Nat.min_id.
  rewrite <- app_length, act_fc; auto.
Qed.
Lemma cum_ldfs_length ladev lt g : length (cum_ldfs ladev lt g) = length (fc_part ladev g).
Proof. unfold cum_ldfs, cumprod. rewrite cum_from_length, map_length. auto. Qed.

Lemma forecasts_keys m ladev lt tab : (forall g, In g tab -> gsorted g) -> forall prev,
  Forall2 (fun g e => map key (snd e) = map key g /\ (is_first m g = true -> fst e = NaN)) tab (forecasts m ladev lt prev tab).
Proof.
  induction tab as [|g tab IH]; intros S prev; [constructor|]. cbn [forecasts].
  destruct (is_first m g) eqn:E.
  - constructor; [|apply IH; intros; apply S; right; auto]. cbn [fst snd]. split; auto.
    apply set_cum_inc_key, map_length.
  - constructor; [|apply IH; intros; apply S; right; auto]. cbn [fst snd]. split; [|intro; congruence].
    assert (G : gsorted g) by (apply S; left; auto).
    rewrite act_fc by auto. apply set_cum_inc_key. apply fc_cums_length; auto.
    rewrite removelast_length. apply cum_ldfs_length.
Qed.

(** ** Reserve records *)

Definition rec_of (s : nat) (o : Z) (la u : val) : rrec :=
  mkR s o (if isnan la then u else la) u (nan0 (vsub u la)).
Lemma group_rec m s o la g vs : zsorted (m_cols m) -> m_cols m <> [] ->
  map key g = map (fun d => (s, o, d)) (m_cols m) -> length vs = length g ->
  flat_map (fun p => let r := fst p in let u := snd p in
         if (b_d r =? zmax (m_cols m))%Z
         then [mkR (b_sim r) (b_o r) (if isnan la then u else la) u (nan0 (vsub u la))] else [])
      (combine g vs) = [rec_of s o la (last vs NaN)].
Proof.
  intros Sd Nd K L. set (z := zmax (m_cols m)).
  assert (Z1 : (forall d, In d (m_cols m) -> (d <= z)%Z) /\ In z (m_cols m)).
  { split.
    - intros d Hd. apply BaseClaims.zmax_ge. auto.
    - unfold z. clear -Nd. destruct (m_cols m) as [|d0 l]; [congruence|]. clear Nd.
      revert d0. induction l as [|d l IH]; intro d0; [left; auto|].
      change (In (Z.max d0 (zmax (d :: l))) (d0 :: d :: l)). destruct (Z.max_spec d0 (zmax (d :: l))) as [[_ E]|[_ E]]; rewrite E.
      + right. apply IH.
      + left. auto. }
  destruct Z1 as [Zu Zi]. clearbody z. revert Sd Zu Zi g vs K L. clear Nd. generalize (m_cols m) as ds.
  induction ds as [|d ds IH]; intros Sd Zu Zi g vs K L; [contradiction|].
  destruct g as [|r g]; [discriminate|]. destruct vs as [|v vs]; [discriminate|].
  injection K as K1 K2 K3 K4. injection L as L. inversion Sd as [|? ? Sd' F]; subst.
  cbn [combine flat_map fst snd]. destruct ds as [|d' ds].
  - destruct g; [|discriminate]. destruct vs; [|discriminate]. cbn [combine flat_map last].
    destruct Zi as [Zi|[]]. rewrite <- Zi, Z.eqb_refl. simpl. unfold rec_of. congruence.
  - assert (Q : (b_d r =? z)%Z = false).
    { apply Z.eqb_neq. rewrite Forall_forall in F. assert (A := F d' (or_introl eq_refl)).
      assert (B := Zu d' (or_intror (or_introl eq_refl))). lia. }
    rewrite Q. cbn [app]. rewrite IH; auto.
    + destruct g as [|r' g]; [discriminate|]. destruct vs as [|v' vs]; [discriminate|]. auto.
    + intros; apply Zu; right; auto.
    + destruct Zi as [<-|Zi]; auto. rewrite Z.eqb_refl in Q. discriminate.
Qed.

Lemma final_incr_length (gd : nat -> val) pos (g : list simrow) :
  length (cumsum (map (fun p => final_incr gd (fst p) (snd p)) (combine (seq pos (length g)) g))) = length g.
Proof. rewrite cumsum_length, map_length, combine_length, seq_length. lia. Qed.

Lemma reserve_recs_spec m gd tab fcs : zsorted (m_cols m) -> m_cols m <> [] ->
  Forall2 (fun g e => map key (snd e) = map key g /\ (is_first m g = true -> fst e = NaN)) tab fcs ->
  (forall g, In g tab -> exists s o, map key g = map (fun d => (s, o, d)) (m_cols m)) -> forall pos,
  Forall2 (fun g r => exists s o la u, map key g = map (fun d => (s, o, d)) (m_cols m) /\
      (is_first m g = true -> la = NaN) /\ r = rec_of s o la u) tab (reserve_recs m (final_groups gd pos fcs)).
Proof.
  intros Sd Nd F K. induction F as [|g [la h] tab fcs [E1 E2] F IH]; intro pos; [constructor|].
  destruct (K g (or_introl eq_refl)) as (s & o & Kg). cbn [fst snd] in *.
  cbn [final_groups]. unfold reserve_recs. cbn [flat_map fst snd].
  rewrite (group_rec m s o) by (auto using final_incr_length; congruence).
  cbn [app]. constructor.
  - eexists s, o, la, _. split; auto.
  - apply IH. intros; apply K; right; auto.
Qed.

Lemma forall2_nth {A B} (P : A -> B -> Prop) l1 l2 da db k : Forall2 P l1 l2 -> k < length l1 -> P (nth k l1 da) (nth k l2 db).
Proof. intro F. revert k. induction F; intros [|k] L; simpl in *; try lia; auto. apply IHF. lia. Qed.
Lemma cube_nth {A} sims nr (g : nat -> nat -> A) s i d : s < sims -> i < nr -> nth (s * nr + i) (cube sims nr g) d = g s i.
Proof.
  intros Hs Hi. assert (E := combine_seq_cube sims nr g).
  assert (L : s * nr + i < sims * nr) by nia.
  assert (W := In_nth). 
  assert (Q : In (nth (s * nr + i) (combine (seq 0 (sims * nr)) (cube sims nr g)) (0, d)) (combine (seq 0 (sims * nr)) (cube sims nr g))).
  { apply nth_In. rewrite combine_length, seq_length, cube_length. lia. }
  rewrite E in Q at 2. rewrite combine_nth in Q by (rewrite seq_length, cube_length; auto).
  rewrite seq_nth in Q by auto. apply in_cube in Q as (s' & i' & Hs' & Hi' & Q). injection Q as Q1 Q2.
  assert (s = s') by nia. subst. assert (i = i') by lia. subst. auto.
Qed.
Lemma cube_of_list {A} sims nr (l : list A) d : length l = sims * nr -> l = cube sims nr (fun s i => nth (s * nr + i) l d).
Proof.
  intro L. apply (nth_ext _ _ d d).
  - rewrite cube_length. auto.
  - intros k Hk. rewrite L in Hk. assert (0 < nr) by nia.
    assert (k = (k / nr) * nr + k mod nr) by (rewrite Nat.mul_comm; apply Nat.div_mod; lia).
    assert (k / nr < sims) by (apply Nat.div_lt_upper_bound; nia).
    assert (k mod nr < nr) by (apply Nat.mod_upper_bound; lia).
    rewrite H0 at 2. rewrite cube_nth; auto. congruence.
Qed.

Theorem c43_gen rt m cl rl fit scale sims resid gam : zsorted (m_idx m) -> zsorted (m_cols m) -> m_cols m <> [] ->
  let recs := simulate rt m cl rl fit scale sims resid gam in
  exists R, recs = flat_map (fun i => map (fun s => R s i) (seq 0 sims)) (seq 0 (length (m_idx m))) /\
   forall s i, s < sims -> i < length (m_idx m) -> exists la u,
     R s i = rec_of s (nth i (m_idx m) 0%Z) la u /\ (i = 0 -> la = NaN).
Proof.
  intros So Sd Nd recs. unfold simulate in recs. set (tab := samples rt m fit sims resid) in recs.
  set (lt := bs_ldfs m cl sims tab) in recs.
  set (ladev := fun o : Z => match zfind o (m_idx m) with Some i => nth (nth i rl 0) (m_cols m) 0%Z | None => 0%Z end) in recs.
  assert (Tab : tab = cube sims (length (m_idx m)) (sample_group rt m fit resid)) by reflexivity.
  assert (Kg : forall g, In g tab -> exists s o, map key g = map (fun d => (s, o, d)) (m_cols m)).
  { intros g Hg. rewrite Tab in Hg. apply in_cube in Hg as (s & i & Hs & Hi & ->). eexists _, _. apply group_key. }
  assert (Sg : forall g, In g tab -> gsorted g).
  { intros g Hg. destruct (Kg g Hg) as (s & o & K). eapply group_sorted; eauto. }
  assert (F := forecasts_keys m ladev lt tab Sg NaN).
  assert (F2 := reserve_recs_spec m (gam (gparams scale (forecasts m ladev lt NaN tab))) tab _ Sd Nd F Kg 0).
  set (l := reserve_recs m _) in F2.
  assert (Ll : length l = sims * length (m_idx m)).
  { rewrite <- (cube_length sims (length (m_idx m)) (sample_group rt m fit resid)), <- Tab. symmetry.
    clear -F2. induction F2; simpl; auto. }
  set (R := fun s i => nth (s * length (m_idx m) + i) l (mkR 0 0 NaN NaN NaN)).
  assert (E : l = cube sims (length (m_idx m)) R) by (apply cube_of_list; auto).
  assert (P : forall s i, s < sims -> i < length (m_idx m) -> exists la u,
     R s i = rec_of s (nth i (m_idx m) 0%Z) la u /\ (i = 0 -> la = NaN)).
  { intros s i Hs Hi.
    assert (Q := forall2_nth _ _ _ [] (mkR 0 0 NaN NaN NaN) (s * length (m_idx m) + i) F2).
    rewrite Tab, cube_length, cube_nth in Q by auto.
    destruct Q as (s' & o' & la & u & Q1 & Q2 & Q3); [nia|]. rewrite group_key in Q1.
    destruct (m_cols m) as [|d ds]; [congruence|]. injection Q1 as A1 A2 _. subst s' o'.
    exists la, u. split; [exact Q3|]. intros ->. apply Q2. unfold is_first.
    assert (G := group_key rt m fit resid s 0). destruct (sample_group rt m fit resid s 0) as [|r g].
    - auto.
    - destruct (m_cols m) eqn:Ec; [discriminate|]. injection G as G1 G2 G3 G4. rewrite G2. apply Z.eqb_eq.
      clear -So Hi. destruct (m_idx m) as [|o0 l]; [simpl in Hi; lia|]. cbn [nth].
      assert (Q := BaseClaims.zmin_in (o0 :: l) ltac:(discriminate)). destruct Q as [Q|Q]; auto.
      inversion So as [|? ? S' F]; subst. rewrite Forall_forall in F. specialize (F _ Q).
      assert (W : forall x, In x (o0 :: l) -> (zmin (o0 :: l) <= x)%Z).
      { clear. revert o0. induction l as [|d l IH]; intros o0 x Hx.
        - destruct Hx as [->|[]]. simpl. lia.
        - change (Z.min o0 (zmin (d :: l)) <= x)%Z. destruct Hx as [->|Hx]; [lia|].
          specialize (IH d x Hx). lia. }
      specialize (W o0 (or_introl eq_refl)). lia. }
  exists R. split; auto. unfold recs, bs_reserves, process_error. change (ssort rrec_cmp l = flat_map (fun i => map (fun s => R s i) (seq 0 sims)) (seq 0 (length (m_idx m)))).
  rewrite E. apply sort_cube; auto. intros s i Hs Hi. destruct (P s i Hs Hi) as (la & u & -> & _). auto.
Qed.
