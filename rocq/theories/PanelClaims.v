(** Proofs of C72 and C73. *)
From Coq Require Import String QArith Qcanon Qround ZArith List Bool Lia Permutation Sorting.Sorted.
From Verif Require Import Val QcLib ListLib Frame Triangle A2A Base Boot Quant Plot Panels.
From Verif Require Import SpecQuant SpecPanels QuantFacts QuantClaims Spec PlotClaims.
Import ListNotations.
Open Scope list_scope.
Open Scope nat_scope.

(** * Maxima *)
Lemma vmax_fin l : l <> [] -> exists x, vmax_skip (map Fin l) = Fin x /\ is_max l x.
Proof.
  induction l as [|a l IH]; [congruence|]. intros _. cbn [map vmax_skip fold_right]. fold (vmax_skip (map Fin l)).
  destruct l as [|b l].
  - exists a. split; [reflexivity|]. split; [left; reflexivity|]. intros x [<-| []]. apply Qcle_refl.
  - destruct IH as (x & E & Hi & Hm); [discriminate|]. rewrite E. cbn [vmax2].
    destruct (qcltb_spec a x) as [L|L].
    + exists x. split; [reflexivity|]. split; [right; exact Hi|]. intros y [<-|Hy]; [apply Qclt_le_weak, L|auto].
    + exists a. split; [reflexivity|]. split; [left; reflexivity|]. intros y [<-|Hy]; [apply Qcle_refl|].
      eapply Qcle_trans; [apply Hm, Hy|]. apply Qcnot_lt_le, L.
Qed.

Lemma same_label_eq a b : same_label a b = true <-> a = b.
Proof.
  destruct a, b; cbn; split; intro H; try discriminate; try reflexivity.
  - apply Z.eqb_eq in H. congruence.
  - injection H as ->. apply Z.eqb_refl.
Qed.

(** * Labels *)
Lemma position_lt z l : In z l -> position z l < List.length l.
Proof.
  induction l as [|x l IH]; [intros []|]. cbn [position List.length]. intro H. destruct (Z.eqb_spec x z); [lia|].
  destruct H; [congruence|]. specialize (IH H). lia.
Qed.
Lemma position_spec z l : In z l -> nth (position z l) l 0%Z = z.
Proof.
  induction l as [|x l IH]; [intros []|]. cbn [position]. intro H. destruct (Z.eqb_spec x z); [exact e|].
  cbn [nth]. apply IH. destruct H; [congruence|exact H].
Qed.

Definition idx_of (os : list Z) (o : option Z) : nat :=
  match o with Some z => position z os | None => List.length os end.

Lemma nat_uniq_seq (l : list nat) n : (forall i, In i l <-> i < n) -> uniq Nat.compare l = seq 0 n.
Proof.
  intro H.
  assert (Ce : forall x y, Nat.compare x y = Eq <-> x = y) by (intros; apply Nat.compare_eq_iff).
  assert (Co : forall x y, Nat.compare y x = CompOpp (Nat.compare x y)) by (intros; apply Nat.compare_antisym).
  assert (Ct : forall x y z, Nat.compare x y = Lt -> Nat.compare y z = Lt -> Nat.compare x z = Lt)
    by (intros x y z A B; rewrite Nat.compare_lt_iff in *; lia).
  apply (ssorted_ext Nat.compare); auto.
  - apply uniq_sorted; auto.
  - assert (G : forall k a, StronglySorted (slt Nat.compare) (seq a k)).
    { induction k as [|k IH]; intro a; cbn [seq]; constructor; [apply IH|].
      apply Forall_forall. intros x Hx. apply in_seq in Hx. unfold slt. apply Nat.compare_lt_iff. lia. }
    apply G.
  - intro x. rewrite uniq_in by exact Ce. rewrite H, in_seq. lia.
Qed.

Section Data.
  Variables (data : list plotrec) (os : list Z).
  Hypothesis Hs : zsorted os.
  Hypothesis Hidx : forall q, In q data -> q_index q = idx_of os (q_origin q).
  Hypothesis Hos : forall o, In o os <-> exists q, In q data /\ q_origin q = Some o.
  Hypothesis Htot : exists q, In q data /\ q_origin q = None.

  Lemma labels_in q : In q data -> q_index q < S (List.length os).
  Proof.
    intro H. rewrite (Hidx q H). destruct (q_origin q) as [z|] eqn:E; cbn [idx_of]; [|lia].
    assert (In z os) by (apply Hos; exists q; auto). pose proof (position_lt z os H0). lia.
  Qed.
  Lemma labels_at i : i < S (List.length os) -> exists q, In q data /\ q_index q = i /\
     q_origin q = nth i (map Some os ++ [None]) None.
  Proof.
    intro H. destruct (Nat.eq_dec i (List.length os)) as [->|N].
    - destruct Htot as (q & Hq & E). exists q. split; [exact Hq|]. split; [rewrite (Hidx q Hq), E; reflexivity|].
      rewrite app_nth2 by (rewrite map_length; lia). rewrite map_length, Nat.sub_diag. exact E.
    - assert (L : i < List.length os) by lia.
      assert (I : In (nth i os 0%Z) os) by (apply nth_In; exact L).
      apply Hos in I. destruct I as (q & Hq & E). exists q. split; [exact Hq|]. split.
      + rewrite (Hidx q Hq), E. cbn [idx_of]. apply position_nth; [apply zsorted_nodup, Hs|exact L].
      + rewrite app_nth1 by (rewrite map_length; exact L). rewrite E.
        rewrite (nth_indep (map Some os) None (Some 0%Z)) by (rewrite map_length; exact L).
        rewrite map_nth. reflexivity.
  Qed.
  Lemma label_order_eq : label_order data = map Some os ++ [None].
  Proof.
    unfold label_order. rewrite (nat_uniq_seq _ (S (List.length os))).
    - assert (E : forall i, In i (seq 0 (S (List.length os))) ->
         match find (fun q => q_index q =? i) data with Some q => [q_origin q] | None => [] end
         = [nth i (map Some os ++ [None]) None]).
      { intros i Hi. apply in_seq in Hi. destruct (labels_at i) as (q & Hq & Ei & Eo); [lia|].
        destruct (find (fun q0 => q_index q0 =? i) data) as [q'|] eqn:F.
        - apply find_some in F. destruct F as [Hq' E']. apply Nat.eqb_eq in E'. f_equal.
          rewrite <- Eo. pose proof (Hidx q Hq) as A. pose proof (Hidx q' Hq') as B.
          rewrite Ei in A. rewrite E' in B.
          assert (O : forall r, In r data -> forall z, q_origin r = Some z -> In z os) by (intros r Hr z Ez; apply Hos; exists r; split; assumption).
          destruct (q_origin q) as [z|] eqn:Q1, (q_origin q') as [z'|] eqn:Q2; cbn [idx_of] in A, B; auto.
          + f_equal. transitivity (nth (position z' os) os 0%Z); [symmetry; apply position_spec; exact (O q' Hq' z' Q2)|].
            replace (position z' os) with (position z os) by congruence. apply position_spec. exact (O q Hq z Q1).
          + pose proof (position_lt z os (O q Hq z Q1)). lia.
          + pose proof (position_lt z' os (O q' Hq' z' Q2)). lia.
        - exfalso. apply (find_none _ _ F) in Hq. rewrite Ei, Nat.eqb_refl in Hq. discriminate. }
      transitivity (flat_map (fun i => [nth i (map Some os ++ [None]) None]) (seq 0 (S (List.length os)))).
      + revert E. generalize (seq 0 (S (List.length os))). induction l as [|i l IH]; intro E; [reflexivity|].
        cbn [flat_map]. rewrite E by (left; reflexivity). f_equal. apply IH. intros; apply E; right; assumption.
      + assert (G : forall (g : nat -> option Z) l, flat_map (fun i => [g i]) l = map g l)
          by (intros g l; induction l as [|x l IH]; cbn [flat_map map app]; [reflexivity|f_equal; exact IH]).
        rewrite G. replace (S (List.length os)) with (List.length (map (@Some Z) os ++ [None]))
          by (rewrite app_length, map_length; cbn; lia).
        apply list_map_nth.
    - intro i. rewrite in_map_iff. split.
      + intros (q & <- & Hq). apply labels_in, Hq.
      + intro H. destruct (labels_at i H) as (q & Hq & E & _). exists q. auto.
  Qed.
End Data.

(** What [data_transform] guarantees of its records. *)
Lemma data_labels m cl r l : data_transform m cl r = Ok l ->
  exists os, zsorted os /\ (forall q, In q l -> q_index q = idx_of os (q_origin q)) /\
    (forall o, In o os <-> exists q, In q l /\ q_origin q = Some o) /\ exists q, In q l /\ q_origin q = None.
Proof.
  unfold data_transform. destruct (increment (map fst (c_ldfs r))) as [inc|e]; [|discriminate]. cbn [bind].
  set (ult := map _ (seq 0 (nrows m))). set (act := map _ (filter _ _)). set (pred := map _ (filter _ _)).
  set (all := act ++ pred ++ ult ++ plot_totals pred ++ plot_totals ult).
  set (os := uniq Z.compare (flat_map _ all)).
  destruct (List.length os =? 0) eqn:E; [discriminate|]. intro H. injection H as <-. exists os.
  apply Nat.eqb_neq in E.
  assert (Hos : forall o, In o os <-> exists p, In p all /\ p_origin p = Some o).
  { intro o. unfold os. change (uniq Z.compare) with zuniq. rewrite zuniq_in, in_flat_map. split.
    - intros (p & Hp & Ho). exists p. split; [exact Hp|]. destruct (p_origin p); [destruct Ho as [->| []]; reflexivity|destruct Ho].
    - intros (p & Hp & Ho). exists p. split; [exact Hp|]. rewrite Ho. left. reflexivity. }
  split; [apply zuniq_sorted|]. split; [|split].
  - intros q Hq. apply in_map_iff in Hq. destruct Hq as (p & <- & Hp). reflexivity.
  - intro o. rewrite Hos. split.
    + intros (p & Hp & Ho). eexists. split; [apply in_map; exact Hp|]. exact Ho.
    + intros (q & Hq & Ho). apply in_map_iff in Hq. destruct Hq as (p & <- & Hp). exists p. auto.
  - assert (N : nrows m <> 0).
    { intro Z0. apply E. assert (A : all = []).
      { unfold all, act, pred, ult. rewrite Z0.
        assert (F : flat_map (fun j => map (fun i : nat => (i, j)) (seq 0 0)) (seq 0 (ncols m)) = []).
        { generalize (seq 0 (ncols m)). induction l as [|x l IH]; [reflexivity|]. cbn [flat_map seq map app]. exact IH. }
        rewrite F. reflexivity. }
      unfold os. rewrite A. reflexivity. }
    assert (U : plot_totals ult <> []).
    { unfold plot_totals, ult. destruct (nrows m) as [|k]; [congruence|]. cbn [seq map]. intro X.
      apply map_eq_nil in X. change (uniq Z.compare) with zuniq in X.
      match type of X with zuniq (?a :: ?b) = [] => assert (I : In a (zuniq (a :: b))) by (apply zuniq_in; left; reflexivity) end.
      rewrite X in I. destruct I. }
    destruct (plot_totals ult) as [|p t] eqn:P; [congruence|].
    assert (Hp : In p (plot_totals ult)) by (rewrite P; left; reflexivity).
    eexists. split; [apply in_map; instantiate (1 := p)|].
    + unfold all. rewrite !in_app_iff. right. right. right. right. try rewrite P. left. reflexivity.
    + unfold plot_totals in Hp. apply in_map_iff in Hp. destruct Hp as (d & <- & _). reflexivity.
Qed.

Definition losses (l : list plotrec) (o : option Z) : list val :=
  map q_loss (filter (fun q => same_label (q_origin q) o) l).

Lemma mapM_spec {A B} (f : A -> res B) (P : A -> B -> Prop) l :
  (forall a, In a l -> exists b, f a = Ok b /\ P a b) -> exists bs, mapM f l = Ok bs /\ Forall2 P l bs.
Proof.
  induction l as [|a l IH]; intro H; [exists []; split; [reflexivity|constructor]|].
  destruct (H a) as (b & E & Pb); [left; reflexivity|]. destruct IH as (bs & E' & F); [intros; apply H; right; assumption|].
  exists (b :: bs). split; [cbn [mapM]; rewrite E; cbn [bind]; rewrite E'; reflexivity|constructor; assumption].
Qed.
Lemma mapM_fail {A B} (f : A -> res B) e l :
  (forall a, In a l -> (exists b, f a = Ok b) \/ f a = Err e) -> (exists a, In a l /\ f a = Err e) -> mapM f l = Err e.
Proof.
  induction l as [|a l IH]; intros H (x & Hx & E); [destruct Hx|]. cbn [mapM].
  destruct (H a) as [(b & Eb)|Eb]; [left; reflexivity| |rewrite Eb; reflexivity].
  rewrite Eb. cbn [bind]. rewrite IH; [reflexivity|intros; apply H; right; assumption|].
  exists x. split; [|exact E]. destruct Hx as [<-|Hx]; [congruence|exact Hx].
Qed.

Lemma losses_fin l o (q : plotrec) : (forall q, In q l -> exists x, q_loss q = Fin x) -> In q l -> q_origin q = o ->
  exists xs, xs <> [] /\ losses l o = map Fin xs.
Proof.
  intros Hf Hq Ho. unfold losses.
  assert (G : forall k, (forall q, In q k -> exists x, q_loss q = Fin x) -> exists xs, map q_loss k = map Fin xs).
  { induction k as [|a k IH]; intro H; [exists []; reflexivity|]. destruct (H a) as (x & E); [left; reflexivity|].
    destruct IH as (xs & E'); [intros; apply H; right; assumption|]. exists (x :: xs). cbn [map]. congruence. }
  destruct (G (filter (fun q => same_label (q_origin q) o) l)) as (xs & E).
  { intros a Ha. apply Hf. apply filter_In in Ha. apply Ha. }
  exists xs. split; [|exact E]. intros ->. apply map_eq_nil in E.
  assert (I : In q (filter (fun q => same_label (q_origin q) o) l)) by (apply filter_In; split; [exact Hq|apply same_label_eq, Ho]).
  rewrite E in I. destruct I.
Qed.

Lemma is_max_unique l a b : is_max l a -> is_max l b -> a = b.
Proof. intros [A1 A2] [B1 B2]. apply Qcle_antisym; auto. Qed.

Lemma map_fin_inj a b : map Fin a = map Fin b -> a = b.
Proof.
  revert b. induction a as [|x a IH]; intros [|y b] H; cbn [map] in H; try discriminate; [reflexivity|].
  injection H as -> H. f_equal. apply IH, H.
Qed.

Lemma panel_one l xt o (q : plotrec) : (forall q, In q l -> exists x, q_loss q = Fin x) -> In q l -> q_origin q = o ->
  exists xs x, losses l o = map Fin xs /\ is_max xs x /\
    (do y <- yticks_of (vmax_skip (losses l o)) ; Ok (mkPanel o [] xt y)) = (do y <- get_yticks x ; Ok (mkPanel o [] xt y)).
Proof.
  intros Hf Hq Ho. destruct (losses_fin l o q Hf Hq Ho) as (xs & N & E). destruct (vmax_fin xs N) as (x & Ex & M).
  exists xs, x. split; [exact E|]. split; [exact M|]. rewrite E, Ex. reflexivity.
Qed.

Lemma greatest_iff l o xs x : losses l o = map Fin xs -> is_max xs x -> greatest_loss l o x.
Proof.
  intros E [Hi Hm]. split.
  - assert (I : In (Fin x) (losses l o)) by (rewrite E; apply in_map, Hi).
    unfold losses in I. apply in_map_iff in I. destruct I as (q & Eq & Hq). apply filter_In in Hq. destruct Hq as [A B].
    apply same_label_eq in B. exists q. auto.
  - intros q y Hq Ho Ey. apply Hm. apply in_map_fin. rewrite <- E. unfold losses. rewrite <- Ey. apply in_map.
    apply filter_In. split; [exact Hq|apply same_label_eq, Ho].
Qed.
Lemma greatest_unique l o x y : greatest_loss l o x -> greatest_loss l o y -> x = y.
Proof.
  intros [(q & A & B & C) D] [(q' & A' & B' & C') D']. apply Qcle_antisym; eauto.
Qed.

Lemma get_yticks_err x e : get_yticks x = Err e -> e = ValueError.
Proof.
  unfold get_yticks. destruct (rev _); [congruence|]. destruct (filter _ _); congruence.
Qed.

Lemma c72 m cl r l : data_transform m cl r = Ok l -> (forall q, In q l -> exists x, q_loss q = Fin x) ->
  exists os, increasing os /\ (forall o, In o os <-> exists q, In q l /\ q_origin q = Some o) /\
  let labels := map Some os ++ [None] in
  (forall o, In o labels -> exists x, greatest_loss l o x) /\
  ((forall o x, In o labels -> greatest_loss l o x -> decade x) ->
     exists panels, base_plot m cl r = Ok panels /\ map n_label panels = labels /\
       forall p, In p panels ->
         n_points p = [] /\
         increasing (n_xticks p) /\ (forall d, In d (n_xticks p) <-> exists q, In q l /\ q_dev q = d) /\
         exists x u, greatest_loss l (n_label p) x /\
           n_yticks p = map (fun k => u * (qn k / qz 4))%Qc (seq 0 5) /\ (x < u)%Qc /\ (u < x + x)%Qc) /\
  ((exists o x, In o labels /\ greatest_loss l o x /\ ~ decade x) -> base_plot m cl r = Err ValueError).
Proof.
  intros H Hf. destruct (data_labels m cl r l H) as (os & So & Hidx & Hos & Htot). exists os.
  split; [exact So|]. split; [exact Hos|]. intro labels.
  assert (W : forall o, In o labels -> exists q, In q l /\ q_origin q = o).
  { intros o Ho. apply in_app_or in Ho. destruct Ho as [Ho|[<-| []]]; [|exact Htot].
    apply in_map_iff in Ho. destruct Ho as (z & <- & Hz). apply Hos, Hz. }
  assert (G : forall o, In o labels -> exists x, greatest_loss l o x /\
     (do y <- yticks_of (vmax_skip (losses l o)) ; Ok (mkPanel o [] (uniq Z.compare (map q_dev l)) y))
     = (do y <- get_yticks x ; Ok (mkPanel o [] (uniq Z.compare (map q_dev l)) y))).
  { intros o Ho. destruct (W o Ho) as (q & Hq & Eq).
    destruct (panel_one l (uniq Z.compare (map q_dev l)) o q Hf Hq Eq) as (xs & x & E & M & P).
    exists x. split; [exact (greatest_iff l o xs x E M)|exact P]. }
  split; [intros o Ho; destruct (G o Ho) as (x & A & _); exists x; exact A|].
  unfold base_plot. rewrite H. cbn [bind]. rewrite (label_order_eq l os So Hidx Hos Htot). fold labels.
  split.
  - intro D.
    destruct (mapM_spec (fun o => do y <- yticks_of (vmax_skip (losses l o)) ; Ok (mkPanel o [] (uniq Z.compare (map q_dev l)) y))
      (fun o p => n_label p = o /\ n_points p = [] /\
         increasing (n_xticks p) /\ (forall d, In d (n_xticks p) <-> exists q, In q l /\ q_dev q = d) /\
         exists x u, greatest_loss l o x /\
           n_yticks p = map (fun k => u * (qn k / qz 4))%Qc (seq 0 5) /\ (x < u)%Qc /\ (u < x + x)%Qc) labels) as (ps & E & F).
    + intros o Ho. destruct (G o Ho) as (x & A & P). rewrite P.
      destruct (c48_ok x (D o x Ho A)) as (u & Eu & L1 & L2). rewrite Eu. cbn [bind]. eexists. split; [reflexivity|].
      cbn [n_label n_points n_xticks n_yticks]. split; [reflexivity|]. split; [reflexivity|].
      split; [apply zuniq_sorted|]. split; [|exists x, u; auto].
      intro d. change (uniq Z.compare) with zuniq. rewrite zuniq_in, in_map_iff. split; intros (q & A1 & A2); exists q; auto.
    + exists ps. split; [exact E|].
      assert (Lb : map n_label ps = labels).
      { revert F. generalize labels ps. induction 1 as [|o p ls qs (B1 & _) F IH]; [reflexivity|]. cbn [map]. congruence. }
      split; [exact Lb|]. intros p Hp.
      assert (X : exists o, n_label p = o /\ n_points p = [] /\
         increasing (n_xticks p) /\ (forall d, In d (n_xticks p) <-> exists q, In q l /\ q_dev q = d) /\
         exists x u, greatest_loss l o x /\
           n_yticks p = map (fun k => u * (qn k / qz 4))%Qc (seq 0 5) /\ (x < u)%Qc /\ (u < x + x)%Qc).
      { clear -F Hp. induction F as [|o p' ls qs B F IH]; [destruct Hp|]. destruct Hp as [<-|Hp]; [exists o; exact B|apply IH, Hp]. }
      destruct X as (o & -> & X). exact X.
  - intros (o & x & Ho & A & D). apply (mapM_fail (fun o => do y <- yticks_of (vmax_skip (losses l o)) ; Ok (mkPanel o [] (uniq Z.compare (map q_dev l)) y))).
    + intros o' Ho'. destruct (G o' Ho') as (x' & A' & P). rewrite P.
      destruct (get_yticks x') as [y|e] eqn:Ey; cbn [bind]; [left; eexists; reflexivity|right].
      f_equal. destruct (get_yticks_err x' e Ey). reflexivity.
    + exists o. split; [exact Ho|]. destruct (G o Ho) as (x' & A' & P). rewrite P.
      rewrite (greatest_unique l o x' x A' A). rewrite (c48_err x D). reflexivity.
Qed.

(** * Histograms *)
Lemma filter_perm_len {A} (p : A -> bool) l l' : Permutation l l' -> List.length (filter p l) = List.length (filter p l').
Proof.
  induction 1 as [|x l l' P IH|x y l|l l' l'' P1 IH1 P2 IH2]; cbn [filter]; [reflexivity| | |congruence].
  - destruct (p x); cbn [List.length]; congruence.
  - destruct (p x), (p y); reflexivity.
Qed.
Lemma sorted_le s i j : StronglySorted Qcle s -> i <= j -> j < List.length s -> (nth i s 0 <= nth j s 0)%Qc.
Proof.
  intro H. revert i j. induction H as [|a s H IH F]; intros i j L B; [cbn in B; lia|].
  destruct j as [|j]; [replace i with 0 by lia; apply Qcle_refl|]. cbn [List.length] in B. destruct i as [|i].
  - cbn [nth]. rewrite Forall_forall in F. apply F, nth_In. lia.
  - cbn [nth]. apply IH; lia.
Qed.
Lemma filter_all_len {A} (p : A -> bool) l : (forall x, In x l -> p x = true) -> filter p l = l.
Proof.
  induction l as [|x l IH]; intro H; [reflexivity|]. cbn [filter]. rewrite H by (left; reflexivity). f_equal.
  apply IH. intros. apply H. right. assumption.
Qed.
Lemma count_low s x i : StronglySorted Qcle s -> i < List.length s -> (nth i s 0 <= x)%Qc ->
  S i <= List.length (filter (fun y => if Qclt_le_dec x y then false else true) s).
Proof.
  intros H L B. rewrite <- (firstn_skipn (S i) s) at 1. rewrite filter_app, app_length, filter_all_len.
  - rewrite firstn_length. lia.
  - intros y Hy. apply (In_nth _ _ 0%Qc) in Hy. destruct Hy as (k & Hk & <-). rewrite firstn_length in Hk.
    assert (E : nth k (firstn (S i) s) 0%Qc = nth k s 0%Qc).
    { rewrite <- (firstn_skipn (S i) s) at 2. rewrite app_nth1; [reflexivity|]. rewrite firstn_length. lia. }
    rewrite E. destruct (Qclt_le_dec x (nth k s 0%Qc)) as [C|C]; [|reflexivity]. exfalso.
    apply (Qclt_not_le _ _ C). eapply Qcle_trans; [|exact B]. apply sorted_le; [exact H|lia|lia].
Qed.
Lemma nth_skipn' {A} (d : A) i s k : nth k (skipn i s) d = nth (i + k) s d.
Proof. revert s. induction i as [|i IH]; intro s; [reflexivity|]. destruct s; [destruct k; reflexivity|]. apply IH. Qed.
Lemma qn_plus a b : qn (a + b) = (qn a + qn b)%Qc.
Proof. induction a as [|a IH]; cbn [Nat.add]; [rewrite qn_0; ring|]. rewrite !qn_S, IH. ring. Qed.
Lemma count_high s x i : StronglySorted Qcle s -> i < List.length s -> (x <= nth i s 0)%Qc ->
  List.length s - i <= List.length (filter (fun y => if Qclt_le_dec y x then false else true) s).
Proof.
  intros H L B. rewrite <- (firstn_skipn i s) at 2. rewrite filter_app, app_length, (filter_all_len _ (skipn i s)).
  - rewrite skipn_length. lia.
  - intros y Hy. apply (In_nth _ _ 0%Qc) in Hy. destruct Hy as (k & Hk & <-). rewrite skipn_length in Hk.
    rewrite nth_skipn'. destruct (Qclt_le_dec (nth (i + k) s 0%Qc) x) as [C|C]; [|reflexivity]. exfalso.
    apply (Qclt_not_le _ _ C). eapply Qcle_trans; [exact B|]. apply sorted_le; [exact H|lia|lia].
Qed.

Lemma even_half n : Nat.even n = true -> n = 2 * (n / 2).
Proof. intro E. apply Nat.even_spec in E. destruct E as (k & ->). rewrite Nat.mul_comm, Nat.div_mul by lia. lia. Qed.
Lemma odd_half n : Nat.even n = false -> n = 2 * (n / 2) + 1.
Proof.
  intro E. assert (O : Nat.odd n = true) by (unfold Nat.odd; rewrite E; reflexivity).
  apply Nat.odd_spec in O. destruct O as (k & ->).
  assert (Hd : (2 * k + 1) / 2 = k) by (symmetry; apply (Nat.div_unique _ 2 k 1); lia). rewrite Hd. reflexivity.
Qed.

Lemma mid_le (a b : Qc) : (a <= b)%Qc -> (a <= (a + b) / qz 2 <= b)%Qc.
Proof.
  intro H. assert (T : (0 < qz 2)%Qc) by reflexivity. assert (N : qz 2 <> 0%Qc) by discriminate.
  assert (E : forall x, x = (x * qz 2 / qz 2)%Qc) by (intro x; field; exact N).
  assert (D : forall x, (x * qz 2 = x + x)%Qc) by (intro x; replace (qz 2) with (1 + 1)%Qc by (apply Qc_is_canon; reflexivity); ring).
  split; [rewrite (E a) at 1|rewrite (E b) at 2]; rewrite D; unfold Qcdiv;
    (apply Qcmult_le_compat_r; [|discriminate]); apply Qcplus_le_compat; auto using Qcle_refl.
Qed.

Lemma median_spec l : l <> [] -> is_median l (median l).
Proof.
  intro N. unfold median. set (s := ssort Qccompare l). destruct (ssort_stats l) as [P S]. fold s in P, S.
  assert (Ls : List.length s = List.length l) by (symmetry; apply Permutation_length, P).
  assert (N0 : 0 < List.length l) by (destruct l; [congruence|cbn; lia]).
  unfold is_median. rewrite !(filter_perm_len _ l s P). set (n := List.length l) in *.
  destruct (Nat.even n) eqn:E.
  - pose proof (even_half n E) as H. set (k := n / 2) in *.
    assert (M : (nth (k - 1) s 0 <= nth k s 0)%Qc) by (apply sorted_le; [exact S|lia|lia]).
    destruct (mid_le _ _ M) as [M1 M2].
    pose proof (count_low s _ (k - 1) S ltac:(lia) M1). pose proof (count_high s _ k S ltac:(lia) M2). split; lia.
  - pose proof (odd_half n E) as H. set (k := n / 2) in *.
    pose proof (count_low s _ k S ltac:(lia) (Qcle_refl (nth k s 0%Qc))).
    pose proof (count_high s _ k S ltac:(lia) (Qcle_refl (nth k s 0%Qc))). split; lia.
Qed.

Lemma median_percentile l : l <> [] -> percentile Linear l (1 / qz 2)%Qc = Ok (median l).
Proof.
  intro N. assert (N0 : 0 < List.length l) by (destruct l; [congruence|cbn; lia]).
  assert (Q2 : qz 2 <> 0%Qc) by discriminate.
  unfold median. set (s := ssort Qccompare l). set (n := List.length l) in *.
  destruct (Nat.even n) eqn:E.
  - pose proof (even_half n E) as H. set (k := n / 2) in *.
    assert (Hq : (qn (n - 1) * (1 / qz 2) = qn (k - 1) + 1 / qz 2)%Qc).
    { replace (n - 1) with ((k - 1) + (k - 1) + 1) by lia. rewrite !qn_plus. rewrite !qn_1.
      replace (qz 2) with (1 + 1)%Qc by (apply Qc_is_canon; reflexivity). field. discriminate. }
    rewrite (plin l N s (k - 1)).
    + fold n. rewrite Hq. replace (k - 1 + 1) with k by lia. f_equal.
      replace (qz 2) with (1 + 1)%Qc by (apply Qc_is_canon; reflexivity). field. discriminate.
    + apply ssort_stats.
    + fold n. lia.
    + fold n. rewrite Hq, qn_plus. rewrite !qn_1.
      split; [rewrite <- (Qcplus_0_r (qn (k - 1))) at 1|]; (apply Qcplus_le_compat; [apply Qcle_refl|discriminate]).
  - pose proof (odd_half n E) as H. set (k := n / 2) in *.
    assert (Hq : (qn (n - 1) * (1 / qz 2) = qn k)%Qc).
    { replace (n - 1) with (k + k) by lia. rewrite !qn_plus.
      replace (qz 2) with (1 + 1)%Qc by (apply Qc_is_canon; reflexivity). field. discriminate. }
    rewrite (plin l N s k).
    + fold n. rewrite Hq. f_equal. ring.
    + apply ssort_stats.
    + fold n. lia.
    + fold n. rewrite Hq, qn_plus. rewrite !qn_1.
      split; [apply Qcle_refl|rewrite <- (Qcplus_0_r (qn k)) at 1; apply Qcplus_le_compat; [apply Qcle_refl|discriminate]].
Qed.

Lemma clip_larger x : larger x 0%Qc (clip0 x).
Proof.
  unfold clip0, larger. destruct (qcltb_spec x 0%Qc) as [L|L].
  - split; [apply Qclt_le_weak, L|]. split; [apply Qcle_refl|right; reflexivity].
  - apply Qcnot_lt_le in L. split; [apply Qcle_refl|]. split; [exact L|left; reflexivity].
Qed.
Lemma clip_raise x : clip0 x = raise_to (Some 0%Qc) x.
Proof. reflexivity. Qed.
Lemma greatest_max l : l <> [] -> is_max l (greatest l).
Proof.
  intro N. unfold greatest.
  assert (G : forall d k, is_max (k ++ [d]) (fold_right (fun a b => if qcltb a b then b else a) d k)).
  { intros d k. induction k as [|a k (IH1 & IH2)]; cbn [fold_right app].
    - split; [left; reflexivity|]. intros x [<-| []]. apply Qcle_refl.
    - set (b := fold_right _ d k) in *. destruct (qcltb_spec a b) as [L|L].
      + split; [right; exact IH1|]. intros x [<-|Hx]; [apply Qclt_le_weak, L|auto].
      + split; [left; reflexivity|]. apply Qcnot_lt_le in L. intros x [<-|Hx]; [apply Qcle_refl|].
        eapply Qcle_trans; [apply IH2, Hx|exact L]. }
  destruct l as [|a l]; [congruence|]. cbn [hd]. destruct (G a (a :: l)) as (H1 & H2). split.
  - apply in_app_or in H1. destruct H1 as [H1|[H1| []]]; [exact H1|]. rewrite <- H1. left. reflexivity.
  - intros x Hx. apply H2, in_or_app. left. exact Hx.
Qed.

Lemma finite_some l : (forall v, In v l -> exists x, v = Fin x) -> exists xs, finite l = Some xs /\ l = map Fin xs.
Proof.
  induction l as [|v l IH]; intro H; [exists []; split; reflexivity|].
  destruct (H v) as (x & ->); [left; reflexivity|]. destruct IH as (xs & E & ->); [intros; apply H; right; assumption|].
  exists (x :: xs). cbn [finite map]. rewrite E. split; reflexivity.
Qed.

Lemma samples_fin rs os l : (forall r, In r rs -> exists x, v_reserve r = Fin x) -> In l (samples rs os) ->
  forall v, In v l -> exists x, v = Fin x.
Proof.
  intros Hf Hl v Hv. unfold samples in Hl. apply in_app_or in Hl. destruct Hl as [Hl|[<-| []]].
  - apply in_map_iff in Hl. destruct Hl as (o & <- & _). unfold origin_sample in Hv. apply in_map_iff in Hv.
    destruct Hv as (r & <- & Hr). apply filter_In in Hr. apply Hf, Hr.
  - unfold total_sample in Hv. apply in_map_iff in Hv. destruct Hv as (k & <- & _).
    assert (G : forall l0, (forall v, In v l0 -> exists x, v = Fin x) -> exists x, skipsum l0 = Fin x).
    { intros l0 H. destruct (finite_some l0 H) as (xs & _ & ->). rewrite skipsum_fin. eexists. reflexivity. }
    apply G. intros w Hw. apply in_map_iff in Hw. destruct Hw as (r & <- & Hr). apply filter_In in Hr. apply Hf, Hr.
Qed.
Lemma samples_nonempty rs l : rs <> [] -> In l (samples rs (uniq Z.compare (map v_o rs))) -> l <> [].
Proof.
  intros N Hl. unfold samples in Hl. apply in_app_or in Hl. destruct Hl as [Hl|[<-| []]].
  - apply in_map_iff in Hl. destruct Hl as (o & <- & Ho). change (uniq Z.compare) with zuniq in Ho. rewrite zuniq_in in Ho.
    apply in_map_iff in Ho. destruct Ho as (r & <- & Hr). intro E. unfold origin_sample in E. apply map_eq_nil in E.
    assert (I : In r (filter (fun r0 => (v_o r0 =? v_o r)%Z) rs)) by (apply filter_In; split; [exact Hr|apply Z.eqb_refl]).
    rewrite E in I. destruct I.
  - intro E. unfold total_sample in E. apply map_eq_nil in E. destruct rs as [|r rs]; [congruence|].
    assert (I : In (v_sim r) (uniq Nat.compare (map v_sim (r :: rs)))).
    { apply uniq_in; [intros; apply Nat.compare_eq_iff|left; reflexivity]. }
    rewrite E in I. destruct I.
Qed.

Lemma c73 rs cols : rs <> [] -> (forall r, In r rs -> exists x, v_reserve r = Fin x) ->
  let os := uniq Z.compare (map v_o rs) in
  exists panels cols', hist rs cols = Ok (panels, cols') /\
    Forall2 (fun l p => l = map Fin (fst (fst p)) /\
               (exists med, is_median (fst (fst p)) med /\ larger med 0%Qc (snd (fst p))) /\
               (exists mx top, is_max (fst (fst p)) mx /\ larger mx 0%Qc top /\ snd p = (top * (qz 41 / qz 40))%Qc))
            (samples rs os) panels /\
    boot_get_quantiles rs os [Fin (1 / qz 2)%Qc] Linear (Some 0%Qc)
      = Ok [("50th"%string, map (fun p => snd (fst p)) panels)].
Proof.
  intros N Hf os. unfold hist. fold os.
  destruct (mapM_spec hist_panel (fun l p => l = map Fin (fst (fst p)) /\
               snd (fst p) = clip0 (median (fst (fst p))) /\ fst (fst p) <> [] /\
               snd p = (clip0 (greatest (fst (fst p))) * (qz 41 / qz 40))%Qc) (samples rs os)) as (ps & E & F).
  { intros l Hl. destruct (finite_some l (samples_fin rs os l Hf Hl)) as (xs & Ex & El).
    unfold hist_panel. rewrite Ex. eexists. split; [reflexivity|]. cbn [fst snd].
    split; [exact El|]. split; [reflexivity|]. split; [|reflexivity]. intros ->.
    exact (samples_nonempty rs l N Hl El). }
  assert (Os : os <> []).
  { destruct rs as [|r rs]; [congruence|]. intro O. assert (I : In (v_o r) os) by (unfold os; change (uniq Z.compare) with zuniq; apply zuniq_in; left; reflexivity).
    rewrite O in I. destruct I. }
  destruct os as [|o0 os0] eqn:Eo; [congruence|]. rewrite <- Eo in *. rewrite E. cbn [bind]. eexists _, _. split; [reflexivity|]. split.
  - clear -F. induction F as [|l p ls ps (A & B & C & D) F IH]; constructor; [|exact IH].
    split; [exact A|]. split.
    + exists (median (fst (fst p))). split; [apply median_spec, C|]. rewrite B. apply clip_larger.
    + exists (greatest (fst (fst p))), (clip0 (greatest (fst (fst p)))). split; [apply greatest_max, C|].
      split; [apply clip_larger|exact D].
  - unfold boot_get_quantiles.
    assert (R : result_formatter [Fin (1 / qz 2)%Qc] = Ok ([(1 / qz 2)%Qc], ["50th"%string])) by (vm_compute; reflexivity).
    rewrite R. cbn [bind fst snd mapM].
    assert (M : mapM (fun l => pctl Linear l (1 / qz 2)%Qc) (samples rs os) = Ok (map (fun p => median (fst (fst p))) ps)).
    { clear -F. induction F as [|l p ls ps (A & B & C & D) F IH]; [reflexivity|]. cbn [mapM map].
      assert (X : pctl Linear l (1 / qz 2)%Qc = Ok (median (fst (fst p)))).
      { unfold pctl. subst l. assert (Fm : forall xs, finite (map Fin xs) = Some xs) by (induction xs as [|x xs IHx]; cbn [map finite]; [reflexivity|rewrite IHx; reflexivity]).
        rewrite Fm. apply median_percentile, C. }
      rewrite X. cbn [bind]. rewrite IH. reflexivity. }
    rewrite M. cbn [bind combine fold_left dict_set fst snd map]. do 3 f_equal.
    rewrite map_map. clear -F. induction F as [|l p ls ps (A & B & C & D) F IH]; [reflexivity|]. cbn [map].
    rewrite IH, B. reflexivity.
Qed.

Lemma c72_empty m cl r panels p : base_plot m cl r = Ok panels -> In p panels -> n_points p = [].
Proof.
  unfold base_plot. destruct (data_transform m cl r) as [l|e]; [|discriminate]. cbn [bind].
  generalize (label_order l). intro ls. revert panels. induction ls as [|o ls IH]; intros panels H Hp; cbn [mapM] in H.
  - injection H as <-. destruct Hp.
  - destruct (yticks_of _) as [y|e] in H; [|discriminate]. cbn [bind] in H.
    destruct (mapM _ ls) as [ps|e] eqn:E in H; [|discriminate]. cbn [bind] in H. injection H as <-.
    destruct Hp as [<-|Hp]; [reflexivity|]. exact (IH ps E Hp).
Qed.

Lemma c73_changes rs ps cols' : hist rs reserve_columns = Ok (ps, cols') ->
  reserve_columns = ["sim"; "origin"; "latest"; "ultimate"; "reserve"]%string /\
  cols' = ["sim"; "origin"; "latest"; "ultimate"; "reserve"; "origin_index"]%string /\
  forall ps' cols'', hist rs cols' = Ok (ps', cols'') -> cols'' = cols' /\ ps' = ps.
Proof.
  unfold hist. destruct (uniq Z.compare (map v_o rs)) as [|o os]; [discriminate|].
  destruct (mapM hist_panel (samples rs (o :: os))) as [q|e]; [|discriminate]. cbn [bind].
  intro H. injection H as <- E.
  assert (X : cols' = reserve_columns ++ ["origin_index"%string]) by (rewrite <- E; reflexivity).
  rewrite X. split; [reflexivity|]. split; [reflexivity|]. intros ps' cols'' H. injection H as <- <-. split; reflexivity.
Qed.
