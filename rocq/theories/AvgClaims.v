(** Proofs of C17, C19-C21. *)

From Coq Require Import String Ascii QArith Qcanon ZArith List Bool Lia Permutation Sorting.Sorted.
From Verif Require Import Val Frame Triangle A2A Base QcLib ListLib Spec BuildFacts CumFacts FillFacts
  TotriFacts TblFacts TriClaims ConvFacts TriClaims2 TriClaims4 TriClaims5 RegFacts AvgFacts.
Import ListNotations.
Open Scope list_scope.
Open Scope nat_scope.

(** ** C20 *)

Definition qcmp (a b : Qc) : comparison := if qcltb a b then Lt else if qcltb b a then Gt else Eq.
Definition qsort := ssort qcmp.

Lemma qcmp_le a b : qcmp a b <> Gt <-> (a <= b)%Qc.
Proof.
  unfold qcmp. destruct (qcltb_spec a b) as [H|H]; [split; intro; [qlra|discriminate]|].
  destruct (qcltb_spec b a) as [H'|H']; split; intro Q; try congruence; try discriminate; qlra.
Qed.
Lemma qcmp_opp a b : qcmp b a = CompOpp (qcmp a b).
Proof.
  unfold qcmp. destruct (qcltb_spec a b), (qcltb_spec b a); auto. exfalso. qlra.
Qed.
Lemma qsort_sorted l : StronglySorted Qcle (qsort l).
Proof.
  assert (H : StronglySorted (fun a b => qcmp a b <> Gt) (qsort l)).
  { apply ssort_sorted; [apply qcmp_opp|]. intros x y z A B. apply qcmp_le in A, B. apply qcmp_le. qlra. }
  clear -H. induction H; constructor; auto. eapply Forall_impl; [|exact H0]. intros. apply qcmp_le. auto.
Qed.
Lemma qsorted_perm l : forall l', StronglySorted Qcle l -> StronglySorted Qcle l' -> Permutation l l' -> l = l'.
Proof.
  induction l as [|a l IH]; intros l' H1 H2 P.
  - apply Permutation_nil in P. auto.
  - destruct l' as [|b l']; [symmetry in P; apply Permutation_nil in P; discriminate|].
    inversion H1 as [|? ? S1 F1]; subst. inversion H2 as [|? ? S2 F2]; subst. rewrite Forall_forall in F1, F2.
    assert (a = b).
    { assert (Ha : In a (b :: l')) by (eapply Permutation_in; [exact P|left; auto]).
      assert (Hb : In b (a :: l)) by (eapply Permutation_in; [symmetry; exact P|left; auto]).
      destruct Ha as [->|Ha]; auto. destruct Hb as [->|Hb]; auto. apply F2 in Ha. apply F1 in Hb.
      apply Qcle_antisym; auto. }
    subst b. f_equal. apply IH; auto. eapply Permutation_cons_inv; eauto.
Qed.
Lemma qsort_perm_eq l l' : Permutation l l' -> qsort l = qsort l'.
Proof.
  intro P. apply qsorted_perm; auto using qsort_sorted. unfold qsort. rewrite !ssort_perm. auto.
Qed.
Lemma ssort_fin l : ssort vcmp (map Fin l) = map Fin (qsort l).
Proof.
  assert (G : forall x l, sins vcmp (Fin x) (map Fin l) = map Fin (sins qcmp x l)).
  { clear. intros x l. induction l as [|y l IH]; auto. cbn [map sins].
    change (vcmp (Fin x) (Fin y)) with (qcmp x y). destruct (qcmp x y); cbn [map]; congruence. }
  induction l as [|x l IH]; auto. cbn [map ssort fold_right]. fold (ssort vcmp (map Fin l)).
  rewrite IH. rewrite G. reflexivity.
Qed.

Lemma veqb_fin a b : veqb (Fin a) (Fin b) = qceqb a b.
Proof. reflexivity. Qed.
Lemma forallb_fin x l : forallb (fun v => veqb v (Fin x)) (map Fin l) = forallb (fun y => qceqb y x) l.
Proof. induction l; auto. cbn [map forallb]. rewrite IHl. auto. Qed.
Lemma filter_fin x y l : filter (fun v => negb (veqb v (Fin x)) && negb (veqb v (Fin y))) (map Fin l)
  = map Fin (filter (fun v => negb (qceqb v x) && negb (qceqb v y)) l).
Proof.
  induction l as [|a l IH]; auto. cbn [map filter]. rewrite !veqb_fin.
  destruct (negb (qceqb a x) && negb (qceqb a y)); cbn [map]; rewrite IH; auto.
Qed.
Lemma last_fin l d : l <> [] -> last (map Fin l) d = Fin (last l 0%Qc).
Proof.
  intro N. rewrite (app_removelast_last 0%Qc N) at 1. rewrite map_app. simpl. apply last_last.
Qed.
Lemma vdiv_mean l : l <> [] -> vdiv (vsum (map Fin l)) (Fin (qn (length (map Fin l)))) = Fin (mean l).
Proof.
  intro N. rewrite vsum_fin, map_length, vdiv_fin; auto. apply qc_pos_neq, qn_pos. destruct l; simpl; [congruence|lia].
Qed.

Lemma sorted_hd_min x r : StronglySorted Qcle (x :: r) -> forall y, In y (x :: r) -> (x <= y)%Qc.
Proof.
  intro S. inversion S; subst. rewrite Forall_forall in H2. intros y [->|H]; auto. apply Qcle_refl.
Qed.
Lemma sorted_last_max l : StronglySorted Qcle l -> forall y, In y l -> (y <= last l 0)%Qc.
Proof.
  induction 1 as [|x l S IH F]; intros y Hy; [contradiction|]. destruct l as [|z l].
  - destruct Hy as [->|[]]. apply Qcle_refl.
  - change (last (x :: z :: l) 0%Qc) with (last (z :: l) 0%Qc). destruct Hy as [->|Hy]; [|auto].
    rewrite Forall_forall in F. apply Qcle_trans with z; [apply F; left; auto|apply IH; left; auto].
Qed.
Lemma last_in (l : list Qc) : l <> [] -> In (last l 0%Qc) l.
Proof. intro N. rewrite (app_removelast_last 0%Qc N) at 2. apply in_or_app. right. left. auto. Qed.

(** Value of the medial average in terms of a minimum and a maximum. *)
Definition inner (lo hi : Qc) (l : list Qc) : list Qc :=
  filter (fun v => negb (qceqb v lo) && negb (qceqb v hi)) l.
Lemma in_inner lo hi l x : In x (inner lo hi l) <-> In x l /\ x <> lo /\ x <> hi.
Proof.
  unfold inner. rewrite filter_In, andb_true_iff, !negb_true_iff.
  destruct (qceqb_spec x lo), (qceqb_spec x hi); intuition congruence.
Qed.

Lemma medial_equal l x : l <> [] -> (forall y, In y l -> y = x) -> medial_avg (map Fin l) = Ok (Fin x).
Proof.
  intros N H. unfold medial_avg. rewrite ssort_fin. destruct (qsort l) as [|y r] eqn:E.
  - exfalso. apply N. assert (L := ssort_length qcmp l). fold qsort in L. rewrite E in L. destruct l; auto; discriminate.
  - assert (I : forall z, In z (y :: r) -> z = x).
    { intros z Hz. apply H. rewrite <- E in Hz. apply ssort_in in Hz. auto. }
    cbn [map]. change (Fin y :: map Fin r) with (map Fin (y :: r)). rewrite forallb_fin.
    assert (F : forallb (fun z => qceqb z y) (y :: r) = true).
    { apply forallb_forall. intros z Hz. apply qceqb_eq. rewrite (I z Hz), (I y); auto. left; auto. }
    rewrite F. rewrite (I y); auto. left; auto.
Qed.
Lemma medial_inner l lo hi : 2 < length l -> In lo l -> In hi l -> lo <> hi ->
  (forall y, In y l -> (lo <= y <= hi)%Qc) ->
  medial_avg (map Fin l) = Ok (match inner lo hi l with [] => NaN | i => Fin (mean i) end).
Proof.
  intros Hl Ilo Ihi D B. unfold medial_avg. rewrite ssort_fin.
  assert (P : Permutation (qsort l) l) by apply ssort_perm.
  assert (S := qsort_sorted l). destruct (qsort l) as [|y r] eqn:E.
  - apply Permutation_nil in P. subst. simpl in Hl. lia.
  - cbn [map]. change (Fin y :: map Fin r) with (map Fin (y :: r)).
    assert (Ey : y = lo).
    { apply Qcle_antisym.
      - apply (sorted_hd_min y r S). eapply Permutation_in; [symmetry; exact P|auto].
      - apply B. eapply Permutation_in; [exact P|left; auto]. }
    subst y. rewrite forallb_fin.
    assert (F : forallb (fun z => qceqb z lo) (lo :: r) = false).
    { apply not_true_is_false. intro Q. rewrite forallb_forall in Q. assert (W := Q hi).
      rewrite qceqb_eq in W. apply D. symmetry. apply W. eapply Permutation_in; [symmetry; exact P|auto]. }
    rewrite F. assert (Lr := Permutation_length P). destruct r as [|a [|b r]]; simpl in Lr; try lia.
    set (rr := a :: b :: r) in *. cbn [map rr].
    change (Fin lo :: Fin a :: Fin b :: map Fin r) with (map Fin (lo :: rr)).
    change (Fin a :: Fin b :: map Fin r) with (map Fin rr).
    rewrite last_fin by discriminate.
    assert (El : last rr 0%Qc = hi).
    { change (last rr 0%Qc) with (last (lo :: rr) 0%Qc). apply Qcle_antisym.
      - apply B. eapply Permutation_in; [exact P|]. apply last_in. discriminate.
      - apply sorted_last_max; auto. eapply Permutation_in; [symmetry; exact P|auto]. }
    rewrite El, filter_fin. fold (inner lo hi (lo :: rr)).
    assert (Pi : Permutation (inner lo hi (lo :: rr)) (inner lo hi l)) by (apply filter_perm; auto).
    destruct (inner lo hi (lo :: rr)) as [|p q] eqn:E1; destruct (inner lo hi l) as [|p' q'] eqn:E2; auto.
    + apply Permutation_nil in Pi. discriminate.
    + symmetry in Pi. apply Permutation_nil in Pi. discriminate.
    + cbn [map]. change (Fin p :: map Fin q) with (map Fin (p :: q)). rewrite vdiv_mean by discriminate.
      unfold mean. rewrite (qsum_perm _ _ Pi), (Permutation_length Pi). auto.
Qed.
Lemma medial_pair a b : a <> b -> medial_avg [Fin a; Fin b] = Ok (Fin ((a + b) / (1 + 1))%Qc).
Proof.
  intro D. change [Fin a; Fin b] with (map Fin [a; b]). unfold medial_avg. rewrite ssort_fin.
  assert (P : Permutation (qsort [a; b]) [a; b]) by apply ssort_perm.
  destruct (qsort [a; b]) as [|x [|y [|z r]]] eqn:E; try (apply Permutation_length in P; simpl in P; lia).
  assert (Q : x <> y).
  { intros ->. assert (N : NoDup [y; y]).
    { eapply Permutation_NoDup; [symmetry; exact P|]. repeat constructor; simpl; intuition. }
    inversion N; subst. apply H1. left; auto. }
  cbn [map]. change [Fin x; Fin y] with (map Fin [x; y]). rewrite forallb_fin.
  assert (F : forallb (fun z => qceqb z x) [x; y] = false).
  { cbn [forallb]. rewrite qceqb_refl. destruct (qceqb_spec y x); auto. congruence. }
  rewrite F. rewrite vsum_fin, vdiv_fin.
  - f_equal. f_equal. rewrite (qsum_perm _ _ P). cbn [qsum].
    assert (E2 : qn 2 = (1 + 1)%Qc) by (rewrite !qn_S, qn_0; ring). rewrite E2.
    assert (E3 : (a + (b + 0) = a + b)%Qc) by ring. rewrite E3. auto.
  - discriminate.
Qed.
Lemma medial_perm l l' : Permutation l l' -> medial_avg (map Fin l) = medial_avg (map Fin l').
Proof. intro P. unfold medial_avg. rewrite !ssort_fin, (qsort_perm_eq _ _ P). auto. Qed.

Lemma mean_bounds l lo hi : l <> [] -> (forall x, In x l -> (lo <= x <= hi)%Qc) -> (lo <= mean l <= hi)%Qc.
Proof.
  intros N B. assert (Pn : (0 < qn (length l))%Qc) by (apply qn_pos; destruct l; simpl; [congruence|lia]).
  unfold mean. split.
  - apply qc_le_div; auto. rewrite Qcmult_comm. rewrite <- qsum_map_const.
    rewrite <- (map_id l) at 2. apply qsum_le. intros; apply B; auto.
  - apply qc_div_le; auto. rewrite Qcmult_comm. rewrite <- qsum_map_const.
    rewrite <- (map_id l) at 1. apply qsum_le. intros; apply B; auto.
Qed.

Lemma min_max (l : list Qc) : l <> [] ->
  exists lo hi, In lo l /\ In hi l /\ forall y, In y l -> (lo <= y <= hi)%Qc.
Proof.
  induction l as [|x l IH]; [congruence|]. intros _. destruct l as [|z l].
  - exists x, x. simpl. repeat split; auto; destruct H as [->|[]]; apply Qcle_refl.
  - destruct IH as (lo & hi & A & B & C); [discriminate|].
    exists (if qcltb x lo then x else lo), (if qcltb hi x then x else hi).
    destruct (qcltb_spec x lo), (qcltb_spec hi x);
      (split; [simpl in *; auto|]); (split; [simpl in *; auto|]);
      intros y [<-|Hy]; try (destruct (C y Hy)); split; qlra.
Qed.
Lemma medial_bounds l q a b : medial_avg (map Fin l) = Ok (Fin q) ->
  (forall x, In x l -> (a <= x <= b)%Qc) -> (a <= q <= b)%Qc.
Proof.
  intros E B. destruct l as [|x l']; [discriminate|]. set (l := x :: l') in *.
  destruct (min_max l) as (lo & hi & A1 & A2 & A3); [discriminate|].
  destruct (qceqb_spec lo hi) as [D|D].
  - assert (All : forall y, In y l -> y = lo).
    { intros y Hy. destruct (A3 y Hy). apply Qcle_antisym; auto. subst; auto. }
    rewrite (medial_equal l lo) in E by (auto; discriminate). inversion E; subst. auto.
  - destruct l' as [|y [|z r]].
    + simpl in A1, A2. destruct A1 as [<-|[]], A2 as [<-|[]]. congruence.
    + assert (Dxy : x <> y).
      { intros ->. apply D. simpl in A1, A2. destruct A1 as [<-|[<-|[]]], A2 as [<-|[<-|[]]]; auto. }
      change (map Fin l) with [Fin x; Fin y] in E. rewrite medial_pair in E by auto. inversion E; subst.
      assert (Bx := B x (or_introl eq_refl)). assert (By := B y (or_intror (or_introl eq_refl))).
      destruct Bx, By. split.
      * apply qc_le_div; [reflexivity|]. qlra.
      * apply qc_div_le; [reflexivity|]. qlra.
    + rewrite (medial_inner l lo hi) in E by (auto; simpl; lia).
      destruct (inner lo hi l) as [|p i] eqn:Ei; [discriminate|]. inversion E; subst.
      apply mean_bounds; [discriminate|]. intros u Hu. rewrite <- Ei in Hu. apply in_inner in Hu as [Hu _]. auto.
Qed.

(** ** C17 *)

Lemma cell_at_select (os ds : list Z) (kr kc : list nat) (g : nat -> nat -> val) i j :
  NoDup os -> NoDup ds -> In i kr -> In j kc ->
  (forall x, In x kr -> x < length os) -> (forall x, In x kc -> x < length ds) ->
  cell_at (mkMat (map (fun i => nth i os 0%Z) kr) (map (fun j => nth j ds 0%Z) kc)
     (map (fun i => map (fun j => g i j) kc) kr)) (nth i os 0%Z) (nth j ds 0%Z) = Some (g i j).
Proof.
  intros No Nd Hi Hj Br Bc. unfold cell_at. cbn [m_idx m_cols m_cells].
  assert (Z : forall (l : list Z) k x, NoDup l -> In x k -> (forall y, In y k -> y < length l) ->
     exists p, zfind (nth x l 0%Z) (map (fun i => nth i l 0%Z) k) = Some p /\ p < length k /\ nth p k 0 = x).
  { clear. intros l k x N Hx B. destruct (zfind_in (nth x l 0%Z) (map (fun i => nth i l 0%Z) k)) as (p & E).
    - apply in_map_iff. exists x. auto.
    - exists p. split; auto. apply zfind_some in E as (L & E). rewrite map_length in L. split; auto.
      specialize (E 0%Z). rewrite (nth_map_in _ _ _ _ 0) in E by auto.
      apply (NoDup_nth l 0%Z) in E; auto. apply B, nth_In; auto. }
  destruct (Z os kr i) as (p & -> & Lp & Ep); auto. destruct (Z ds kc j) as (q & -> & Lq & Eq); auto.
  unfold cell. rewrite (nth_map_in _ _ _ _ 0) by auto. rewrite (nth_map_in _ _ _ _ 0) by auto. congruence.
Qed.

Lemma ratio_cell m os ds f i j : holds m os ds f -> i < length os -> j < length ds ->
  cell (ratio_cells m) i j = vdiv (if S j <? length ds then f (nth i os 0%Z) (nth (S j) ds 0%Z) else NaN)
                                  (f (nth i os 0%Z) (nth j ds 0%Z)).
Proof.
  intros H Hi Hj. unfold ratio_cells, nrows, ncols. assert (H' := H). destruct H' as (A & B & _). rewrite A, B.
  rewrite cell_mk by auto. destruct (Nat.ltb_spec (S j) (length ds)).
  - rewrite !(holds_cell m os ds f) by auto. auto.
  - rewrite (holds_cell m os ds f) by auto. auto.
Qed.

Lemma c17_general m os ds f : zsorted os -> zsorted ds -> holds m os ds f ->
  (forall o d d', In o os -> next_in ds d d' -> vdiv (f o d') (f o d) <> NaN ->
     cell_at (a2a m) o d = Some (vdiv (f o d') (f o d))) /\
  (forall o d x, cell_at (a2a m) o d = Some x -> x <> NaN ->
     In o os /\ exists d', next_in ds d d' /\ x = vdiv (f o d') (f o d)).
Proof.
  intros So Sd H. assert (H' := H). destruct H' as (Ei & Ec & _).
  assert (Nr : nrows m = length os) by (unfold nrows; rewrite Ei; auto).
  assert (Nc : ncols m = length ds) by (unfold ncols; rewrite Ec; auto).
  set (kc := keep_cols (nrows m) (ncols m) (ratio_cells m)).
  set (kr := keep_rows (nrows m) kc (ratio_cells m)).
  assert (A : a2a m = mkMat (map (fun i => nth i os 0%Z) kr) (map (fun j => nth j ds 0%Z) kc)
     (map (fun i => map (fun j => cell (ratio_cells m) i j) kc) kr)).
  { unfold a2a. fold kc. fold kr. rewrite Ei, Ec. auto. }
  assert (Bc : forall x, In x kc -> x < length ds).
  { intros x Hx. unfold kc, keep_cols in Hx. apply filter_In in Hx as [Hx _]. apply in_seq in Hx. lia. }
  assert (Br : forall x, In x kr -> x < length os).
  { intros x Hx. unfold kr, keep_rows in Hx. apply filter_In in Hx as [Hx _]. apply in_seq in Hx. lia. }
  split.
  - intros o d d' Ho Hn Q. destruct (label_pos _ _ Ho) as (i & Hi & ->).
    destruct (next_in_pos ds d d' Sd Hn) as (j & Hj & -> & ->).
    assert (Rc : cell (ratio_cells m) i j = vdiv (f (nth i os 0%Z) (nth (S j) ds 0%Z)) (f (nth i os 0%Z) (nth j ds 0%Z))).
    { rewrite (ratio_cell m os ds f) by (auto; lia). rewrite ltb_if by auto. auto. }
    assert (Nn : isnan (cell (ratio_cells m) i j) = false) by (rewrite Rc; apply isnan_false; auto).
    assert (Jk : In j kc).
    { unfold kc, keep_cols. apply filter_In. split; [apply in_seq; lia|]. apply existsb_exists. exists i.
      split; [apply in_seq; lia|]. rewrite Nn. auto. }
    assert (Ik : In i kr).
    { unfold kr, keep_rows. apply filter_In. split; [apply in_seq; lia|]. apply existsb_exists. exists j.
      split; auto. rewrite Nn. auto. }
    rewrite A, cell_at_select by (auto using zsorted_nodup). rewrite Rc. auto.
  - intros o d x E Nx. rewrite A in E. unfold cell_at in E. cbn [m_idx m_cols m_cells] in E.
    destruct (zfind o _) as [p|] eqn:Zp; [|discriminate]. destruct (zfind d _) as [q|] eqn:Zq; [|discriminate].
    apply zfind_some in Zp as (Lp & Ep). apply zfind_some in Zq as (Lq & Eq).
    specialize (Ep 0%Z). specialize (Eq 0%Z). rewrite map_length in Lp, Lq.
    rewrite (nth_map_in _ _ _ _ 0) in Ep by auto. rewrite (nth_map_in _ _ _ _ 0) in Eq by auto.
    assert (Ip : In (nth p kr 0) kr) by (apply nth_In; auto). assert (Iq : In (nth q kc 0) kc) by (apply nth_In; auto).
    set (i := nth p kr 0) in *. set (j := nth q kc 0) in *.
    injection E as E'. unfold cell at 1 in E'. rewrite (nth_map_in _ _ _ _ 0) in E' by auto.
    rewrite (nth_map_in _ _ _ _ 0) in E' by auto. fold i j in E'.
    rewrite (ratio_cell m os ds f) in E' by auto. subst o d. split; [apply nth_In; auto|].
    destruct (Nat.ltb_spec (S j) (length ds)) as [L|L].
    + exists (nth (S j) ds 0%Z). split; [|auto].
      split; [apply nth_In; lia|]. split; [apply nth_In; lia|]. split; [apply zsorted_nth; auto|].
      intros y Hy. destruct (label_pos _ _ Hy) as (k & Hk & ->).
      destruct (Nat.le_gt_cases k j).
      * left. apply zsorted_nth_le; auto.
      * right. apply zsorted_nth_le; auto.
    + rewrite vdiv_nan_l in E'. subst x. congruence.
Qed.

Lemma c17_regular m n C : regular m n C -> positive n C -> 0 < n ->
  regular (a2a m) (n - 1) (fun i j => (C i (S j) / C i j)%Qc) /\
  m_idx (a2a m) = firstn (n - 1) (m_idx m) /\ m_cols (a2a m) = firstn (n - 1) (m_cols m).
Proof.
  intros R P Hn. apply regular_rmat in R as (E & So & Sd & Lo & Ld). rewrite E.
  rewrite (r_a2a _ _ n C) by auto. cbn [rmat m_idx m_cols]. split; [|split]; auto.
  apply rmat_regular; try (apply zsorted_firstn; auto); rewrite firstn_length; lia.
Qed.

Lemma c20 (l : list Qc) : l <> [] ->
    (forall x, (forall y, In y l -> y = x) -> medial_avg (map Fin l) = Ok (Fin x)) /\
    (forall a b, l = [a; b] -> medial_avg (map Fin l) = Ok (Fin ((a + b) / (1 + 1))%Qc)) /\
    (forall lo hi, 2 < List.length l -> In lo l -> In hi l -> lo <> hi ->
       (forall y, In y l -> (lo <= y <= hi)%Qc) ->
       medial_avg (map Fin l)
       = Ok (match filter (fun x => negb (qceqb x lo) && negb (qceqb x hi)) l with
             | [] => NaN
             | i => Fin (mean i)
             end)) /\
    (forall l', Permutation l l' -> medial_avg (map Fin l) = medial_avg (map Fin l')) /\
    (forall q a b, medial_avg (map Fin l) = Ok (Fin q) -> (forall x, In x l -> (a <= x <= b)%Qc) ->
       (a <= q <= b)%Qc).
Proof.
  intro N. split; [|split; [|split; [|split]]].
  - intros. apply medial_equal; auto.
  - intros a b ->. destruct (qceqb_spec a b) as [->|D]; [|apply medial_pair; auto].
    rewrite (medial_equal [b; b] b) by (simpl; intuition). do 2 f_equal. field. discriminate.
  - apply medial_inner.
  - apply medial_perm.
  - apply medial_bounds.
Qed.
