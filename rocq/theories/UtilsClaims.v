(** Proofs about the dataset utilities (C46, C47). *)

From Coq Require Import String QArith Qcanon ZArith NArith List Bool Ascii Lia Sorting.Sorted Permutation.
From Verif Require Import Val Frame Triangle ListLib QcLib Spec BuildFacts TriClaims Utils SpecUtils.
Import ListNotations.
Open Scope string_scope.
Open Scope list_scope.

Lemma picks_filter {A} (p : A -> bool) (P : A -> Prop) l :
  (forall x, In x l -> (p x = true <-> P x)) -> picks P l (filter p l).
Proof.
  induction l as [|x l IH]; intros H; simpl; [constructor|].
  assert (Hl : picks P l (filter p l)) by (apply IH; intros; apply H; right; assumption).
  destruct (p x) eqn:E.
  - apply picks_keep; [apply H; [left; reflexivity|exact E]|exact Hl].
  - apply picks_drop; [|exact Hl]. intros HP. apply (H x (or_introl eq_refl)) in HP. congruence.
Qed.
Lemma picks_unique {A} (P : A -> Prop) l s t : picks P l s -> picks P l t -> s = t.
Proof.
  intros H. revert t. induction H; intros t Ht; inversion Ht; subst; try contradiction; auto.
  f_equal. auto.
Qed.
Lemma picks_in {A} (P : A -> Prop) l s x : picks P l s -> (In x s <-> In x l /\ P x).
Proof.
  induction 1; simpl.
  - tauto.
  - rewrite IHpicks. intuition (subst; auto).
  - rewrite IHpicks. intuition (subst; tauto).
Qed.

(** ** C46 *)
Definition acceptb {A} (eqb : A -> A -> bool) (arg : option A) (x : A) : bool :=
  match arg with None => true | Some a => eqb x a end.
Lemma acceptb_ok {A} (eqb : A -> A -> bool) arg x :
  (forall a b, eqb a b = true <-> a = b) -> (acceptb eqb arg x = true <-> accepts arg x).
Proof. intros H. destruct arg; simpl; [apply H|tauto]. Qed.
Lemma filter_true {A} (l : list A) : filter (fun _ => true) l = l.
Proof. induction l; simpl; congruence. Qed.
Lemma keep_cases {A} (eqb : A -> A -> bool) (field : lrow -> A) arg l :
  let k := filter (fun r => acceptb eqb arg (field r)) l in
  (keep eqb field arg l = Ok k /\ ((arg = None /\ k = l) \/ k <> [])) \/
  (keep eqb field arg l = Err ValueError /\ arg <> None /\ k = []).
Proof.
  destruct arg as [a|]; simpl.
  - destruct (existsb (fun r => eqb (field r) a) l) eqn:E.
    + left. split; [reflexivity|]. right. apply existsb_exists in E. destruct E as [x [Hx Ex]].
      intros N. assert (H : In x (filter (fun r => eqb (field r) a) l)) by (apply filter_In; auto).
      rewrite N in H. destruct H.
    + right. split; [reflexivity|]. split; [discriminate|].
      destruct (filter (fun r => eqb (field r) a) l) as [|x s] eqn:F; [reflexivity|].
      assert (H : In x (filter (fun r => eqb (field r) a) l)) by (rewrite F; left; reflexivity).
      apply filter_In in H. exfalso. assert (T : existsb (fun r => eqb (field r) a) l = true) by (apply existsb_exists; exists x; auto).
      congruence.
  - left. rewrite filter_true. auto.
Qed.
Lemma filter_filter {A} (p q : A -> bool) l : filter q (filter p l) = filter (fun x => p x && q x) l.
Proof.
  induction l as [|x l IH]; simpl; [reflexivity|]. destruct (p x); simpl; [destruct (q x); congruence|exact IH].
Qed.
Definition chosen (lob : option string) (grcode : option Z) (grname : option string) (r : lrow) : bool :=
  acceptb String.eqb lob (l_key r) && acceptb Z.eqb grcode (l_grcode r) && acceptb String.eqb grname (l_grname r).
Lemma chosen_ok lob grcode grname r : chosen lob grcode grname r = true <-> matching lob grcode grname r.
Proof.
  unfold chosen, matching. rewrite !andb_true_iff, !acceptb_ok; [tauto| | |].
  - apply String.eqb_eq.
  - apply Z.eqb_eq.
  - apply String.eqb_eq.
Qed.
Lemma three lob grcode grname rows :
  let r := bind (keep String.eqb l_key lob rows) (fun l1 =>
           bind (keep Z.eqb l_grcode grcode l1) (fun l2 => keep String.eqb l_grname grname l2)) in
  let k := filter (chosen lob grcode grname) rows in
  (r = Ok k /\ (no_filter lob grcode grname \/ k <> [])) \/
  (r = Err ValueError /\ ~ no_filter lob grcode grname /\ k = []).
Proof.
  cbv zeta.
  assert (F : filter (chosen lob grcode grname) rows = filter (fun r => acceptb String.eqb grname (l_grname r))
             (filter (fun r => acceptb Z.eqb grcode (l_grcode r)) (filter (fun r => acceptb String.eqb lob (l_key r)) rows))).
  { rewrite !filter_filter. apply filter_ext. intros r. unfold chosen. rewrite andb_assoc. reflexivity. }
  rewrite F. unfold no_filter.
  destruct (keep_cases String.eqb l_key lob rows) as [[-> C1]|[-> [N1 C1]]].
  2:{ right. rewrite C1. simpl. tauto. }
  cbv beta iota delta [bind].
  destruct (keep_cases Z.eqb l_grcode grcode (filter (fun r => acceptb String.eqb lob (l_key r)) rows)) as [[-> C2]|[-> [N2 C2]]].
  2:{ right. rewrite C2. simpl. tauto. }
  destruct (keep_cases String.eqb l_grname grname (filter (fun r => acceptb Z.eqb grcode (l_grcode r))
    (filter (fun r => acceptb String.eqb lob (l_key r)) rows))) as [[-> C3]|[-> [N3 C3]]].
  2:{ right. tauto. }
  left. split; [reflexivity|].
  destruct C3 as [[-> E3]|C3]; [|auto]. rewrite E3. destruct C2 as [[-> E2]|C2]; [|auto]. rewrite E2.
  destruct C1 as [[-> E1]|C1]; auto.
Qed.

Lemma loss_test s : negb (starts_with "p" s || starts_with "i" s) = false <-> known_loss s.
Proof.
  rewrite negb_false_iff, orb_true_iff. unfold known_loss. destruct s as [|a s]; simpl.
  - split; [intros [H|H]; discriminate H|intros [r [H|H]]; discriminate H].
  - rewrite !Ascii.eqb_eq. split; [intros [-> | ->]; exists s; auto|intros [r [H|H]]; injection H as -> _; auto].
Qed.
Lemma loss_pick s : known_loss s -> (if starts "i" s then l_incrd else l_paid) = loss_of s.
Proof. intros [r [->| ->]]; reflexivity. Qed.


Section Lrdb.
Variables (fs : files) (dr : refs) (path : string) (rows : list lrow).
Hypothesis Href : ref_get dr "lrdb" = Some path.
Hypothesis Hfile : fs path = Some (Lrdb rows).

Lemma load_eq tri_type loss_type lob grcode grname train : known_loss loss_type ->
  load_lrdb fs dr tri_type loss_type lob grcode grname train =
  bind (bind (keep String.eqb l_key lob rows) (fun l1 =>
        bind (keep Z.eqb l_grcode grcode l1) (fun l2 => keep String.eqb l_grname grname l2)))
    (fun l3 => as_type tri_type (table_of (loss_of loss_type) (if train then filter (fun r => (l_train r =? 1)%Z) l3 else l3))).
Proof.
  intros Hl. unfold load_lrdb. rewrite (proj2 (loss_test _) Hl), Href. unfold read_csv. rewrite Hfile.
  rewrite (loss_pick _ Hl). cbv beta iota zeta delta [bind].
  destruct (keep String.eqb l_key lob rows) as [l1|e]; [|reflexivity].
  destruct (keep Z.eqb l_grcode grcode l1) as [l2|e]; [|reflexivity].
  destruct (keep String.eqb l_grname grname l2) as [l3|e]; [|reflexivity]. destruct train; reflexivity.
Qed.
Lemma chosen_train lob grcode grname train :
  picks (fun r => matching lob grcode grname r /\ (train = true -> l_train r = 1%Z)) rows
    (if train : bool then filter (fun r => (l_train r =? 1)%Z) (filter (chosen lob grcode grname) rows)
     else filter (chosen lob grcode grname) rows).
Proof.
  destruct train.
  - rewrite filter_filter. apply picks_filter. intros r _. rewrite andb_true_iff, chosen_ok, Z.eqb_eq. intuition.
  - apply picks_filter. intros r _. rewrite chosen_ok. intuition discriminate.
Qed.
Lemma c46 tri_type loss_type lob grcode grname train : known_loss loss_type ->
  (no_filter lob grcode grname \/ (exists r, In r rows /\ matching lob grcode grname r) ->
   exists sel, picks (fun r => matching lob grcode grname r /\ (train = true -> l_train r = 1%Z)) rows sel /\
     load_lrdb fs dr tri_type loss_type lob grcode grname train = as_type tri_type (table_of (loss_of loss_type) sel)) /\
  (~ no_filter lob grcode grname -> (forall r, In r rows -> ~ matching lob grcode grname r) ->
   load_lrdb fs dr tri_type loss_type lob grcode grname train = Err ValueError).
Proof.
  intros Hl. rewrite (load_eq tri_type loss_type lob grcode grname train Hl).
  destruct (three lob grcode grname rows) as [[-> H]|[-> [Hn H]]].
  - split.
    + intros _. exists (if train then filter (fun r => (l_train r =? 1)%Z) (filter (chosen lob grcode grname) rows)
        else filter (chosen lob grcode grname) rows). split; [apply chosen_train|reflexivity].
    + intros Hn Hm. exfalso. destruct H as [H|H]; [contradiction|].
      destruct (filter (chosen lob grcode grname) rows) as [|x s] eqn:F; [congruence|].
      assert (Hx : In x (filter (chosen lob grcode grname) rows)) by (rewrite F; left; reflexivity).
      apply filter_In in Hx. destruct Hx as [Hx Hc]. apply (Hm x Hx). apply chosen_ok. exact Hc.
  - split.
    + intros [N|[r [Hr Hm]]]; [contradiction|]. exfalso.
      assert (Hx : In r (filter (chosen lob grcode grname) rows)) by (apply filter_In; split; [exact Hr|apply chosen_ok; exact Hm]).
      rewrite H in Hx. destruct Hx.
    + intros _ _. reflexivity.
Qed.
End Lrdb.
Lemma c46_bad_loss fs dr tri_type loss_type lob grcode grname train : ~ known_loss loss_type ->
  load_lrdb fs dr tri_type loss_type lob grcode grname train = Err ValueError.
Proof.
  intros H. unfold load_lrdb. destruct (negb _) eqn:E; [reflexivity|]. apply loss_test in E. contradiction.
Qed.
Lemma c46_bad_type t l : (forall r, t <> String "c" r) -> (forall r, t <> String "i" r) -> as_type (Some t) l = Err ValueError.
Proof.
  intros H1 H2. unfold as_type. destruct t as [|a t]; [reflexivity|]. simpl.
  destruct (Ascii.eqb_spec a "c"); [subst; exfalso; eapply H1; reflexivity|].
  destruct (Ascii.eqb_spec a "i"); [subst; exfalso; eapply H2; reflexivity|]. reflexivity.
Qed.
Lemma c46_incr l : l <> [] ->
  exists ob os ds, as_type (Some "incr") l = Ok (LTri ob) /\
    distinct_sorted os (map r_o l) /\ distinct_sorted ds (map r_d l) /\
    holds (t_mat (ob_tri ob)) os ds (cell_total (adjusted l)).
Proof.
  intros Hl. destruct (c01 (recs_frame "origin" "dev" "value" l) "origin" "dev" "value" l) as [ob [os [ds [E H]]]];
    try discriminate; auto.
  - repeat split; simpl; auto. repeat constructor; simpl; intuition discriminate.
  - exists ob, os, ds. split; [|exact H]. unfold as_type. rewrite E. reflexivity.
Qed.

(** ** C47 *)
Lemma scmp_eq a b : String.compare a b = Eq <-> a = b.
Proof.
  split; [apply String.compare_eq_iff|]. intros <-. induction a as [|c a IH]; simpl; [reflexivity|].
  unfold Ascii.compare. rewrite N.compare_refl. exact IH.
Qed.
Lemma scmp_opp a b : String.compare b a = CompOpp (String.compare a b).
Proof. apply String.compare_antisym. Qed.
Lemma scmp_trans a b c : String.compare a b = Lt -> String.compare b c = Lt -> String.compare a c = Lt.
Proof.
  revert b c. induction a as [|x a IH]; intros [|y b] [|z c]; simpl; try discriminate; auto.
  unfold Ascii.compare.
  destruct (N.compare_spec (N_of_ascii x) (N_of_ascii y)) as [E1|E1|E1]; try discriminate;
  destruct (N.compare_spec (N_of_ascii y) (N_of_ascii z)) as [E2|E2|E2]; try discriminate; intros H1 H2.
  - rewrite E1, E2, N.compare_refl. eauto.
  - rewrite E1. apply N.compare_lt_iff in E2. rewrite E2. reflexivity.
  - rewrite <- E2. apply N.compare_lt_iff in E1. rewrite E1. reflexivity.
  - pose proof (N.lt_trans _ _ _ E1 E2) as E3. apply N.compare_lt_iff in E3. rewrite E3. reflexivity.
Qed.
Lemma le_trans_of {A} (cmp : A -> A -> comparison) :
  (forall x y, cmp x y = Eq <-> x = y) -> (forall x y, cmp y x = CompOpp (cmp x y)) ->
  (forall x y z, cmp x y = Lt -> cmp y z = Lt -> cmp x z = Lt) ->
  forall x y z, cmp x y <> Gt -> cmp y z <> Gt -> cmp x z <> Gt.
Proof.
  intros He Ho Ht x y z H1 H2. destruct (cmp x y) eqn:E1; [|destruct (cmp y z) eqn:E2|congruence].
  - apply He in E1. subst. exact H2.
  - apply He in E2. subst. congruence.
  - rewrite (Ht _ _ _ E1 E2). discriminate.
  - congruence.
Qed.
Lemma ssort_str_sorted l : StronglySorted (fun a b => String.compare a b <> Gt) (ssort String.compare l).
Proof. apply ssort_sorted; [apply scmp_opp|apply le_trans_of; [apply scmp_eq|apply scmp_opp|apply scmp_trans]]. Qed.
Lemma strict_of_nodup {A} (cmp : A -> A -> comparison) l : (forall x y, cmp x y = Eq -> x = y) ->
  StronglySorted (fun a b => cmp a b <> Gt) l -> NoDup l -> StronglySorted (fun a b => cmp a b = Lt) l.
Proof.
  intros He. induction 1 as [|a l Hl IH Ha]; intros Hn; constructor.
  - apply IH. inversion Hn; assumption.
  - inversion Hn as [|? ? N1 N2]; subst. apply Forall_forall. intros x Hx. rewrite Forall_forall in Ha. specialize (Ha x Hx).
    destruct (cmp a x) eqn:E; [|reflexivity|congruence]. apply He in E. subst x. contradiction.
Qed.
Lemma nodup_perm {A} (a b : list A) : Permutation a b -> NoDup a -> NoDup b.
Proof. intros P. apply Permutation_NoDup. exact P. Qed.

Lemma c47_datasets dr : NoDup (map fst dr) ->
  StronglySorted (fun a b => String.compare a b = Lt) (get_datasets dr) /\
  (forall name, In name (get_datasets dr) <-> In name (map fst dr) /\ name <> "lrdb").
Proof.
  intros Hn. unfold get_datasets. split.
  - apply strict_of_nodup; [intros; apply scmp_eq; assumption|apply ssort_str_sorted|].
    eapply nodup_perm; [apply Permutation_sym, ssort_perm|]. apply NoDup_filter. exact Hn.
  - intros name. rewrite ssort_in, filter_In, negb_true_iff, String.eqb_neq. reflexivity.
Qed.
Lemma ref_get_in dr name path : ref_get dr name = Some path -> In (name, path) dr.
Proof.
  unfold ref_get. destruct (find _ dr) as [[k v]|] eqn:E; [|discriminate]. intros H. injection H as <-.
  apply find_some in E. destruct E as [H E]. apply String.eqb_eq in E. simpl in E. subst. exact H.
Qed.
Lemma ref_get_some dr name : In name (map fst dr) -> exists path, ref_get dr name = Some path.
Proof.
  intros H. unfold ref_get. destruct (find (fun p => String.eqb (fst p) name) dr) as [p|] eqn:E; [exists (snd p); reflexivity|].
  apply in_map_iff in H. destruct H as [p [Ep Hp]]. pose proof (find_none _ _ E p Hp) as N. simpl in N.
  rewrite Ep, String.eqb_refl in N. discriminate N.
Qed.
Lemma ref_get_none dr name : ~ In name (map fst dr) -> ref_get dr name = None.
Proof.
  intros H. destruct (ref_get dr name) as [p|] eqn:E; [|reflexivity]. exfalso. apply H.
  apply ref_get_in in E. apply in_map_iff. exists (name, p). auto.
Qed.
Lemma c47_load fs dr name : installed fs dr -> In name (get_datasets dr) ->
  exists path l, In (name, path) dr /\ fs path = Some (Plain l) /\ load fs dr name None = Ok (LTable l).
Proof.
  intros Hi H. unfold get_datasets in H. rewrite ssort_in, filter_In, negb_true_iff, String.eqb_neq in H.
  destruct H as [H Hne]. destruct (ref_get_some _ _ H) as [path E]. pose proof (ref_get_in _ _ _ E) as Hin.
  destruct (Hi _ _ Hin Hne) as [l Hl]. exists path, l. split; [exact Hin|]. split; [exact Hl|].
  unfold load, read_csv. rewrite E, Hl. reflexivity.
Qed.
Lemma c47_unknown fs dr name t : ~ In name (map fst dr) -> load fs dr name t = Err KeyError.
Proof. intros H. unfold load. rewrite (ref_get_none _ _ H). reflexivity. Qed.
Lemma c47_lrdb fs dr path rows t : ref_get dr "lrdb" = Some path -> fs path = Some (Lrdb rows) ->
  load fs dr "lrdb" t = Err KeyError.
Proof. intros H1 H2. unfold load, read_csv. rewrite H1, H2. reflexivity. Qed.

Lemma c46_missing fs dr name path : ref_get dr name = Some path -> fs path = None ->
  (forall t, load fs dr name t = Err FileNotFoundError) /\
  (name = "lrdb" -> forall tri_type loss_type lob grcode grname train, known_loss loss_type ->
   load_lrdb fs dr tri_type loss_type lob grcode grname train = Err FileNotFoundError).
Proof.
  intros H1 H2. split; [intros t; unfold load, read_csv; rewrite H1, H2; reflexivity|].
  intros -> tri_type loss_type lob grcode grname train L. apply loss_test in L.
  unfold load_lrdb, read_csv. rewrite L, H1, H2. reflexivity.
Qed.
Lemma c46_noref fs dr : ~ In "lrdb" (map fst dr) ->
  forall tri_type loss_type lob grcode grname train, known_loss loss_type ->
  load_lrdb fs dr tri_type loss_type lob grcode grname train = Err KeyError.
Proof.
  intros H tri_type loss_type lob grcode grname train L. apply loss_test in L.
  unfold load_lrdb. rewrite L, (ref_get_none _ _ H). reflexivity.
Qed.

Section Firsts.
Context {A : Type} (eqb : A -> A -> bool).
Hypothesis eqb_ok : forall a b, eqb a b = true <-> a = b.
Lemma firsts_in x l : In x (firsts eqb l) <-> In x l.
Proof.
  induction l as [|y l IH]; simpl; [tauto|]. rewrite filter_In, IH, negb_true_iff.
  destruct (eqb y x) eqn:E.
  - apply eqb_ok in E. subst. intuition.
  - intuition.
Qed.
Lemma firsts_nodup l : NoDup (firsts eqb l).
Proof.
  induction l as [|y l IH]; simpl; constructor.
  - rewrite filter_In, negb_true_iff. intros [_ H]. rewrite (proj2 (eqb_ok y y) eq_refl) in H. discriminate H.
  - apply NoDup_filter. exact IH.
Qed.
End Firsts.

Lemma c47_lobs rows :
  StronglySorted (fun a b => String.compare a b = Lt) (get_lrdb_lobs rows) /\
  (forall k, In k (get_lrdb_lobs rows) <-> exists r, In r rows /\ l_key r = k).
Proof.
  unfold get_lrdb_lobs. split.
  - apply strict_of_nodup; [intros; apply scmp_eq; assumption|apply ssort_str_sorted|].
    eapply nodup_perm; [apply Permutation_sym, ssort_perm|]. apply firsts_nodup. apply String.eqb_eq.
  - intros k. rewrite ssort_in, firsts_in by apply String.eqb_eq. rewrite in_map_iff.
    split; intros [r [H1 H2]]; exists r; auto.
Qed.
Lemma spec_eqb_ok a b : spec_eqb a b = true <-> a = b.
Proof.
  destruct a as [[k1 g1] n1], b as [[k2 g2] n2]. simpl.
  rewrite !andb_true_iff, !String.eqb_eq, Z.eqb_eq. split; [intros [[-> ->] ->]; reflexivity|].
  intros H. injection H as -> -> ->. auto.
Qed.
Lemma spec_cmp_opp a b : spec_cmp b a = CompOpp (spec_cmp a b).
Proof.
  destruct a as [[k1 g1] n1], b as [[k2 g2] n2]. simpl. rewrite (scmp_opp k1 k2).
  destruct (String.compare k1 k2); simpl; auto. apply Z.compare_antisym.
Qed.
Lemma spec_cmp_le a b : spec_cmp a b <> Gt <-> by_key_code a b.
Proof.
  destruct a as [[k1 g1] n1], b as [[k2 g2] n2]. simpl. destruct (String.compare k1 k2) eqn:E.
  - apply scmp_eq in E. subst. unfold Z.le. split; [intros H; right; auto|]. intros [H|[_ H]]; [discriminate H|exact H].
  - split; [intros _; left; reflexivity|intros _; discriminate].
  - split; [intros H; exfalso; apply H; reflexivity|]. intros [H|[-> _]]; [discriminate H|].
    rewrite (proj2 (scmp_eq k2 k2) eq_refl) in E. discriminate E.
Qed.
Lemma by_trans a b c : by_key_code a b -> by_key_code b c -> by_key_code a c.
Proof.
  destruct a as [[k1 g1] n1], b as [[k2 g2] n2], c as [[k3 g3] n3]. simpl.
  intros [H1|[-> H1]] [H2|[-> H2]]; auto.
  - left. eapply scmp_trans; eassumption.
  - right. split; [reflexivity|]. lia.
Qed.
Lemma ss_map {A} (R S : A -> A -> Prop) l : (forall a b, R a b -> S a b) -> StronglySorted R l -> StronglySorted S l.
Proof. intros H. induction 1; constructor; auto. eapply Forall_impl; [|eassumption]. auto. Qed.
Lemma c47_specs rows :
  NoDup (get_lrdb_specs rows) /\ StronglySorted by_key_code (get_lrdb_specs rows) /\
  (forall k g n, In (k, g, n) (get_lrdb_specs rows) <->
     exists r, In r rows /\ l_key r = k /\ l_grcode r = g /\ l_grname r = n).
Proof.
  unfold get_lrdb_specs. split; [|split].
  - eapply nodup_perm; [apply Permutation_sym, ssort_perm|]. apply firsts_nodup. apply spec_eqb_ok.
  - eapply ss_map; [|apply ssort_sorted; [apply spec_cmp_opp|intros x y z; rewrite !spec_cmp_le; apply by_trans]].
    intros a b. apply spec_cmp_le.
  - intros k g n. rewrite ssort_in, firsts_in by apply spec_eqb_ok. rewrite in_map_iff. unfold spec_of.
    split.
    + intros [r [E H]]. injection E as <- <- <-. exists r. auto.
    + intros [r [H [<- [<- <-]]]]. exists r. auto.
Qed.
(** Every listed combination can be loaded. *)
Lemma c47_specs_load fs dr path rows k g n loss train :
  ref_get dr "lrdb" = Some path -> fs path = Some (Lrdb rows) -> known_loss loss ->
  In (k, g, n) (get_lrdb_specs rows) ->
  exists l, load_lrdb fs dr None loss (Some k) (Some g) (Some n) train = Ok (LTable l).
Proof.
  intros H1 H2 Hl H. apply c47_specs in H. destruct H as [r [Hr [E1 [E2 E3]]]].
  destruct (proj1 (c46 fs dr path rows H1 H2 None loss (Some k) (Some g) (Some n) train Hl)) as [sel [_ E]].
  - right. exists r. split; [exact Hr|]. split; [exact E1|]. split; assumption.
  - rewrite E. eexists. reflexivity.
Qed.
