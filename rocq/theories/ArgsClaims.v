(** Proofs about arguments. *)

From Coq Require Import String QArith Qcanon ZArith List Bool Ascii Lia.
From Verif Require Import Val Frame Triangle A2A Base Mack Boot QcLib ListLib Spec Spec2 RegFacts AvgFacts AvgClaims Args SpecArgs.
Import ListNotations.
Open Scope string_scope.
Open Scope list_scope.
Open Scope nat_scope.

Lemma is_space_blank c : is_space c = true <-> blank c.
Proof.
  unfold is_space, blank. set (n := nat_of_ascii c). cbn [In].
  rewrite !orb_true_iff, !andb_true_iff, Nat.eqb_eq, !Nat.leb_le. lia.
Qed.
Lemma drop_space_app a l : (forall c, In c a -> is_space c = true) -> drop_space (a ++ l) = drop_space l.
Proof. induction a as [|c a IH]; intro H; auto. cbn [app drop_space]. rewrite H by (left; auto). apply IH. intros. apply H. right. auto. Qed.
Lemma drop_space_split l : exists a, l = a ++ drop_space l /\ (forall c, In c a -> is_space c = true).
Proof.
  induction l as [|c l (a & E & H)]; [exists []; split; [auto|intros x []]|]. cbn [drop_space]. destruct (is_space c) eqn:Q.
  - exists (c :: a). split; [cbn [app]; congruence|]. intros x [<-|Hx]; auto.
  - exists []. split; [auto|intros x []].
Qed.
Lemma drop_space_id c l : is_space c = false -> drop_space (c :: l) = c :: l.
Proof. intro H. cbn. rewrite H. auto. Qed.
Lemma lower_case c x : In (nat_of_ascii x) [97; 103; 109] ->
  (lower1 c = x <-> c = x \/ c = ascii_of_nat (nat_of_ascii x - 32)).
Proof.
  intro H.
  assert (E : x = "a"%char \/ x = "g"%char \/ x = "m"%char).
  { cbn [In] in H. destruct H as [H|[H|[H|H]]]; [left|right; left|right; right|contradiction]; rewrite <- (ascii_nat_embedding x), <- H; auto. }
  clear H. destruct E as [Q|[Q|Q]]; subst x; destruct c as [b0 b1 b2 b3 b4 b5 b6 b7]; destruct b0, b1, b2, b3, b4, b5, b6, b7; vm_compute; (split; [intro Q|intros [Q|Q]]); try discriminate Q; auto.
Qed.

Lemma procdist_spec s : procdist_ok s = true <-> says_gamma s.
Proof.
  unfold procdist_ok, says_gamma. rewrite String.eqb_eq. split.
  - intro H. unfold strip in H.
    destruct (drop_space_split (list_ascii_of_string s)) as (a & Ea & Ha).
    destruct (drop_space_split (rev (drop_space (list_ascii_of_string s)))) as (z & Ez & Hz).
    set (w := rev (drop_space (rev (drop_space (list_ascii_of_string s))))) in *.
    exists a, w, (rev z). split.
    + rewrite Ea at 1. f_equal. apply (f_equal (@rev _)) in Ez. rewrite rev_involutive, rev_app_distr in Ez. exact Ez.
    + split; [intros c [Hc|Hc]; apply is_space_blank; [auto|apply Hz, in_rev; auto]|].
      apply (f_equal list_ascii_of_string) in H. rewrite list_ascii_of_string_of_list_ascii in H.
      cbn [list_ascii_of_string] in H. clearbody w. clear -H.
      destruct w as [|c1 [|c2 [|c3 [|c4 [|c5 [|c6 w]]]]]]; try discriminate. cbn [map] in H. injection H as H1 H2 H3 H4 H5.
      apply (proj1 (lower_case c1 "g" ltac:(cbn; auto))) in H1. apply (proj1 (lower_case c2 "a" ltac:(cbn; auto))) in H2.
      apply (proj1 (lower_case c3 "m" ltac:(cbn; auto))) in H3. apply (proj1 (lower_case c4 "m" ltac:(cbn; auto))) in H4.
      apply (proj1 (lower_case c5 "a" ltac:(cbn; auto))) in H5.
      destruct H1 as [-> | ->], H2 as [-> | ->], H3 as [-> | ->], H4 as [-> | ->], H5 as [-> | ->]; repeat (apply Forall2_cons; [cbn; auto|]); apply Forall2_nil.
  - intros (a & w & z & E & B & F).
    assert (Ba : forall c, In c a -> is_space c = true) by (intros; apply is_space_blank, B; auto).
    assert (Bz : forall c, In c (rev z) -> is_space c = true) by (intros c Hc; apply in_rev in Hc; apply is_space_blank, B; auto).
    unfold strip. rewrite E, drop_space_app by auto.
    inversion F as [|c1 ? w1 ? H1 F1]; subst. inversion F1 as [|c2 ? w2 ? H2 F2]; subst. inversion F2 as [|c3 ? w3 ? H3 F3]; subst.
    inversion F3 as [|c4 ? w4 ? H4 F4]; subst. inversion F4 as [|c5 ? w5 ? H5 F5]; subst. inversion F5; subst.
    cbn [app].
    assert (S1 : is_space c1 = false) by (destruct H1 as [<-|[<-| []]]; auto).
    assert (S5 : is_space c5 = false) by (destruct H5 as [<-|[<-| []]]; auto).
    rewrite drop_space_id by auto. change (c1 :: c2 :: c3 :: c4 :: c5 :: z) with ([c1; c2; c3; c4; c5] ++ z).
    rewrite rev_app_distr, drop_space_app by auto. cbn [rev app]. rewrite drop_space_id by auto. cbn [rev app map].
    destruct H1 as [<-|[<-| []]], H2 as [<-|[<-| []]], H3 as [<-|[<-| []]], H4 as [<-|[<-| []]], H5 as [<-|[<-| []]]; reflexivity.
Qed.

Theorem c67_procdist gm rt t cl rl ind sims par procdist rng :
  (says_gamma procdist ->
     boot_call gm rt t cl rl ind sims par procdist rng = boot_cl gm rt t cl rl ind sims par rng) /\
  (~ says_gamma procdist -> forall b, boot_cl gm rt t cl rl ind sims par rng = Ok b ->
     boot_call gm rt t cl rl ind sims par procdist rng = Err ValueError) /\
  (~ says_gamma procdist -> exists e, boot_call gm rt t cl rl ind sims par procdist rng = Err e).
Proof.
  unfold boot_call. split; [|split].
  - intro H. apply procdist_spec in H. rewrite H. destruct (boot_cl _ _ _ _ _ _ _ _ _); auto.
  - intros H b B. rewrite B. cbn [bind]. destruct (procdist_ok procdist) eqn:Q; auto. exfalso. apply H. apply procdist_spec. auto.
  - intro H. destruct (boot_cl _ _ _ _ _ _ _ _ _) as [b|e]; [|exists e; auto]. cbn [bind].
    destruct (procdist_ok procdist) eqn:Q; [exfalso; apply H; apply procdist_spec; auto|]. eauto.
Qed.

Lemma mapM_fst {A B} (f : A -> res (string * B)) (g : A -> string) l r :
  (forall a p, In a l -> f a = Ok p -> fst p = g a) -> mapM f l = Ok r -> map fst r = map g l.
Proof.
  revert r. induction l as [|a l IH]; intros r H E; cbn [mapM] in E.
  - injection E as <-. auto.
  - destruct (f a) as [p|] eqn:Fa; [|discriminate]. cbn [bind] in E. destruct (mapM f l) as [q|] eqn:Fl; [|discriminate]. cbn [bind] in E.
    injection E as <-. cbn [map]. f_equal; [apply H; auto; left; auto|]. apply IH; auto. intros. apply H; auto. right. auto.
Qed.
Lemma avgs_labels_list gm m ind avgs : a2a_avgs gm m ind = Ok avgs ->
  map fst avgs = map (fun sp => avg_label (fst sp) (snd sp)) (avg_specs (nrows (a2a m))).
Proof.
  unfold a2a_avgs. apply mapM_fst. intros sp p _ E. destruct (mapM _ _); [|discriminate]. cbn [bind] in E. injection E as <-. auto.
Qed.
Lemma in_labels na s : In s (map (fun sp => avg_label (fst sp) (snd sp)) (avg_specs na)) <-> average_name (S na) s.
Proof.
  rewrite in_map_iff. unfold average_name. split.
  - intros ([a k] & <- & H). apply in_avg_specs in H. cbn [fst snd]. exists (avg_name a). split; [destruct a; cbn; auto|].
    unfold avg_label. destruct (Nat.eqb_spec k 0) as [->|K]; [left; auto|right]. exists k. split; [lia|auto].
  - intros (kind & Hk & H).
    assert (exists a, kind = avg_name a) as (a & ->).
    { destruct Hk as [<-|[<-|[<-|[<-| []]]]]; [exists Simple|exists Geometric|exists Medial|exists Weighted]; auto. }
    destruct H as [->|(k & K & ->)].
    + exists (a, 0). split; auto. apply in_avg_specs. auto.
    + exists (a, k). split; [|apply in_avg_specs; lia]. unfold avg_label. cbn [fst snd]. destruct (Nat.eqb_spec k 0); [lia|auto].
Qed.

Theorem c67_labels gm m n C ind avgs : regular m n C -> positive n C -> 0 < n -> a2a_avgs gm m ind = Ok avgs ->
  NoDup (map fst avgs) /\ (forall s, In s (map fst avgs) <-> average_name n s) /\
  forall o d v cl tail s, ~ average_name n s ->
    snd (base_cl gm (mkTri m o d v) cl ind (SelLabel s) tail) = Err KeyError.
Proof.
  intros Rg Pos Hn E. assert (L := avgs_labels_list _ _ _ _ E).
  assert (Na : nrows (a2a m) = n - 1).
  { apply regular_rmat in Rg as (Em & So & Sd & Lo & Ld). rewrite Em, (r_a2a _ _ n C) by auto. unfold nrows, rmat. cbn [m_idx]. rewrite firstn_length. lia. }
  assert (In' : forall s, In s (map fst avgs) <-> average_name n s).
  { intro s. rewrite L, in_labels, Na. replace (S (n - 1)) with n by lia. reflexivity. }
  split; [|split; auto].
  - rewrite L. apply FinFun.Injective_map_NoDup; [|apply avg_specs_nodup].
    intros [a k] [b l] Q. cbn [fst snd] in Q. apply avg_label_inj in Q as (-> & ->). auto.
  - intros o d v cl tail s H. unfold base_cl, select_ldfs, ldfs_of_label. cbn [t_mat]. rewrite E. cbn [bind].
    destruct (find (fun p => String.eqb (fst p) s) avgs) as [p|] eqn:Fd; auto.
    exfalso. apply find_some in Fd as (Ip & Ep). apply String.eqb_eq in Ep. apply H. apply In'. rewrite <- Ep. apply in_map. auto.
Qed.
