(** Proofs of C83-C85. *)

From Coq Require Import String QArith Qcanon ZArith List Bool Lia Permutation Sorting.Sorted.
From Verif Require Import Val Frame Triangle A2A Base Mack Diag ListLib QcLib Spec SpecRel SpecEmerge CumFacts RegFacts AvgFacts AvgClaims AvgClaims2
  BaseClaims MackFacts MackExplicit RelFacts RelClaims RelClaims2.
Import ListNotations.
Open Scope list_scope.
Open Scope nat_scope.

(** ** Labels *)
Lemma label_inv gm m n C ind (w : nat -> nat -> bool) s tail fs : regular m n C -> positive n C -> 2 < n -> tail_fits (m_cols m) ->
  (forall i j, i + j < n - 1 -> cell ind i j = Fin (if w i j then 1 else 0)%Qc) ->
  (forall j, j < n - 1 -> w (n - 2 - j) j = true) ->
  ldfs_of_label gm m ind s tail = Ok fs ->
  exists a k, s = avg_label a k /\ In (a, k) (avg_specs (n - 1)) /\
    fs = map (fun j => (nth j (m_cols m) 0%Z, if S j <? n then avgval n C w gm a k j else tail)) (seq 0 n).
Proof.
  intros R P Hn Ev Hi Hl H.
  assert (A := avgs_rows gm m n C ind w R P ltac:(lia) Hi Hl).
  destruct (find (fun p => String.eqb (fst p) s) (map (fun sp => (avg_label (fst sp) (snd sp), map (avgval n C w gm (fst sp) (snd sp)) (seq 0 (n - 1))))
              (avg_specs (n - 1)))) as [row|] eqn:F.
  - rewrite (label_ldfs gm m n C ind s tail _ row R P Hn Ev A F) in H. injection H as <-.
    apply find_some in F as [I Es]. apply in_map_iff in I as ([a k] & <- & I). cbn [fst snd] in *. exists a, k.
    apply String.eqb_eq in Es. split; auto. split; auto.
    apply map_seq_ext. intros j Hj. f_equal. destruct (Nat.ltb_spec (S j) n); auto. rewrite nth_map_seq by lia. auto.
  - unfold ldfs_of_label in H. rewrite A in H. cbn [bind] in H. rewrite F in H. discriminate.
Qed.
(** The factors of a base_cl result selected by a label. *)
Lemma base_label_inv gm m n C ind (w : nat -> nat -> bool) v cl s (tail : Qc) r (f : nat -> Qc) : regular m n C -> positive n C -> 2 < n ->
  tail_fits (m_cols m) -> clvi m = Ok cl ->
  (forall i j, i + j < n - 1 -> cell ind i j = Fin (if w i j then 1 else 0)%Qc) ->
  (forall j, j < n - 1 -> w (n - 2 - j) j = true) ->
  snd (base_cl gm (mkTri m "origin" "dev" v) cl ind (SelLabel s) (Fin tail)) = Ok r ->
  map snd (c_ldfs r) = map (fun j => Fin (f j)) (seq 0 n) ->
  r = base_pure (m_idx m) (m_cols m) n C f (Fin tail) /\
  exists a k, s = avg_label a k /\ In (a, k) (avg_specs (n - 1)) /\
    (forall j, j < n - 1 -> avgval n C w gm a k j = Fin (f j)) /\ f (n - 1) = tail.
Proof.
  intros R P Hn Ev D Hi Hl B L.
  destruct (base_cl gm (mkTri m "origin" "dev" v) cl ind (SelLabel s) (Fin tail)) as [sel' o] eqn:E. cbn [snd] in B. subst o.
  assert (E' := E). apply base_cl_inv in E' as (S1 & _). cbn [t_mat select_ldfs] in S1. injection S1 as S0 S1.
  destruct (label_inv gm m n C ind w s (Fin tail) _ R P Hn Ev Hi Hl S1) as (a & k & Es & I & Lf).
  assert (Lj : forall j, j < n -> (if S j <? n then avgval n C w gm a k j else Fin tail) = Fin (f j)).
  { intros j Hj. rewrite Lf, map_map in L. cbn [snd] in L. assert (Q := f_equal (fun z => nth j z NaN) L).
    cbn beta in Q. rewrite !nth_map_seq in Q by auto. exact Q. }
  assert (L' : c_ldfs r = map (fun j => (nth j (m_cols m) 0%Z, Fin (f j))) (seq 0 n)).
  { rewrite Lf. apply map_seq_ext. intros j Hj. f_equal. apply Lj. lia. }
  destruct (base_pure_inv gm m n C v cl ind _ _ _ r f R ltac:(lia) D E L') as (Er & _).
  split; auto. exists a, k. split; auto. split; auto. split.
  - intros j Hj. specialize (Lj j ltac:(lia)). rewrite ltb_if in Lj by lia. auto.
  - specialize (Lj (n - 1) ltac:(lia)). rewrite nltb_if in Lj by lia. injection Lj. auto.
Qed.

(** ** C83 *)

Lemma mean_snoc (l : list Qc) : l <> [] -> mean (l ++ [mean l]) = mean l.
Proof.
  intro N. assert (Pn : (0 < qn (length l))%Qc) by (apply qn_pos; destruct l; simpl; [congruence|lia]).
  assert (Pn1 : (0 < qn (length l + 1))%Qc) by (apply qn_pos; lia).
  unfold mean at 1 3. rewrite app_length, qsum_app. cbn [length qsum fold_right].
  assert (E : qn (length l + 1) = (qn (length l) + 1)%Qc).
  { replace (length l + 1) with (S (length l)) by lia. rewrite qn_S. ring. }
  rewrite E in *. unfold mean. field. split; apply qc_pos_neq; auto.
Qed.
Lemma mean_snoc_eq (l : list Qc) x : l <> [] -> x = mean l -> mean (l ++ [x]) = x.
Proof. intros N ->. apply mean_snoc. auto. Qed.
Lemma inner_app lo hi l l' : inner lo hi (l ++ l') = inner lo hi l ++ inner lo hi l'.
Proof. apply filter_app. Qed.
Lemma medial_snoc (l : list Qc) (x : Qc) : l <> [] -> medial_avg (map Fin l) = Ok (Fin x) -> medial_avg (map Fin (l ++ [x])) = Ok (Fin x).
Proof.
  intros N E. destruct (min_max l N) as (lo & hi & A1 & A2 & A3).
  destruct (qceqb_spec lo hi) as [D|D].
  - assert (All : forall y, In y l -> y = lo).
    { intros y Hy. destruct (A3 y Hy). apply Qcle_antisym; auto. subst; auto. }
    rewrite (medial_equal l lo) in E by auto. injection E as <-.
    apply medial_equal; [destruct l; discriminate|]. intros y Hy. apply in_app_iff in Hy as [Hy|[<-|[]]]; auto.
  - destruct l as [|a [|b [|c l]]].
    + congruence.
    + destruct A1 as [A1|[]], A2 as [A2|[]]. congruence.
    + assert (Dab : a <> b).
      { intros ->. destruct A1 as [A1|[A1|[]]], A2 as [A2|[A2|[]]]; congruence. }
      change (map Fin [a; b]) with [Fin a; Fin b] in E. rewrite medial_pair in E by auto. injection E as E.
      assert (Hx : (x + x = a + b)%Qc) by (rewrite <- E; field; discriminate). 
      assert (Lt : (lo < hi)%Qc).
      { apply Qcnot_le_lt. intro Q. apply D. apply Qcle_antisym; auto. apply A3; auto. }
      assert (Hs : (lo + hi = a + b)%Qc).
      { destruct A1 as [<-|[<-|[]]], A2 as [<-|[<-|[]]]; try congruence; ring. }
      clear E. 
      rewrite (medial_inner _ lo hi).
      * rewrite inner_app. assert (E1 : inner lo hi [a; b] = []).
        { unfold inner. cbn [filter]. destruct A1 as [<-|[<-|[]]], A2 as [<-|[<-|[]]]; try congruence;
            rewrite !qceqb_refl; cbn [negb andb]; rewrite ?andb_false_r; reflexivity. }
        rewrite E1. cbn [app]. unfold inner. cbn [filter].
        destruct (qceqb_spec x lo) as [Q|Q]; [exfalso; subst x; qlra|].
        destruct (qceqb_spec x hi) as [Q'|Q']; [exfalso; subst x; qlra|]. cbn [negb andb].
        do 2 f_equal. unfold mean. cbn [qsum fold_right length]. change (qn 1) with 1%Qc. field. discriminate.
      * rewrite app_length. simpl. lia.
      * apply in_app_iff. auto.
      * apply in_app_iff. auto.
      * auto.
      * intros y Hy. apply in_app_iff in Hy as [Hy|[<-|[]]]; auto. split; qlra.
    + set (L := a :: b :: c :: l) in *. assert (HL : 2 < length L) by (simpl; lia).
      rewrite (medial_inner L lo hi) in E by auto.
      destruct (inner lo hi L) as [|i li] eqn:EI; [discriminate|]. rewrite <- EI in E.
      assert (Ex : mean (inner lo hi L) = x) by congruence. clear E.
      assert (Ni : inner lo hi L <> []) by (rewrite EI; discriminate).
      assert (B : forall y, In y (inner lo hi L) -> (lo < y /\ y < hi)%Qc).
      { intros y Hy. unfold inner in Hy. apply filter_In in Hy as [Hy Q]. apply andb_true_iff in Q as [Q1 Q2].
        destruct (qceqb_spec y lo) as [?|Q1']; [discriminate|]. destruct (qceqb_spec y hi) as [?|Q2']; [discriminate|].
        destruct (A3 y Hy) as [B1 B2]. apply Qcle_lt_or_eq in B1 as [B1|B1]; [|congruence]. apply Qcle_lt_or_eq in B2 as [B2|B2]; [|congruence]. auto. }
      assert (Bx : (lo < x /\ x < hi)%Qc).
      { destruct (min_max _ Ni) as (p & q & P1 & P2 & P3). assert (M := mean_bounds _ p q Ni P3). rewrite Ex in M.
        destruct (B p P1), (B q P2). destruct M. split; qlra. }
      rewrite (medial_inner _ lo hi).
      * rewrite inner_app. assert (E1 : inner lo hi [x] = [x]).
        { unfold inner. cbn [filter]. destruct (qceqb_spec x lo) as [Q|Q]; [exfalso; subst x; destruct Bx; qlra|].
          destruct (qceqb_spec x hi) as [Q'|Q']; [exfalso; subst x; destruct Bx; qlra|]. reflexivity. }
        rewrite E1. assert (M := mean_snoc_eq (inner lo hi L) x Ni (eq_sym Ex)).
        destruct (inner lo hi L ++ [x]) eqn:Z0; [destruct (inner lo hi L); discriminate|]. rewrite M. reflexivity.
      * rewrite app_length. lia.
      * apply in_app_iff. auto.
      * apply in_app_iff. auto.
      * auto.
      * intros y Hy. apply in_app_iff in Hy as [Hy|[<-|[]]]; [apply A3; auto|]. destruct Bx. split; apply Qclt_le_weak; auto.
Qed.

Section Emerge.
  Variables (n : nat) (C C' : nat -> nat -> Qc) (f : nat -> Qc).
  Hypothesis Em : emerges n C C' f.
  Hypothesis P : positive n C.
  Hypothesis P' : positive (S n) C'.

  Lemma em_old i j : i + j < n -> C' i j = C i j.
  Proof. apply Em. Qed.
  Lemma em_new i j : i + j = n -> 0 < j -> C' i j = (C i (j - 1)%nat * f (j - 1)%nat)%Qc.
  Proof.
    intros H Hj. destruct Em as (_ & E). specialize (E i ltac:(lia)). replace (n - i) with j in E by lia.
    replace (n - 1 - i) with (j - 1) in E by lia. auto.
  Qed.
  Lemma em_link_old i j : i + S j < n -> link C' i j = link C i j.
  Proof. intro H. unfold link. rewrite !em_old by lia. auto. Qed.
  Lemma em_link_new j : j < n -> link C' (n - 1 - j) j = f j.
  Proof.
    intro H. unfold link. rewrite (em_new _ (S j)) by lia. rewrite em_old by lia. replace (S j - 1) with j by lia.
    field. apply qc_pos_neq, P. lia.
  Qed.
  Lemma em_f_pos j : j < n -> (0 < f j)%Qc.
  Proof. intro H. rewrite <- em_link_new by auto. unfold link. apply qc_div_pos; apply P'; lia. Qed.

  Variables (gm : list val -> val) (w w' : nat -> nat -> bool).
  Hypothesis Kw : kept_inclusions n w w'.
  Hypothesis Hlast : forall j, j < n - 1 -> w (n - 2 - j) j = true.
  Hypothesis Hlast' : forall j, j < n -> w' (n - 1 - j) j = true.
  Hypothesis Gs : stable_mean gm.

  Lemma em_kept j : j < n -> kept (S n) w' 0 j = kept n w 0 j ++ [n - 1 - j].
  Proof.
    intro H. unfold kept, rows_of. cbn [Nat.eqb]. replace (S n - 1 - j) with (S (n - 1 - j)) by lia.
    rewrite seq_S, filter_app. cbn [filter plus]. rewrite Hlast' by auto. f_equal.
    apply filter_ext_in. intros i Hi. apply in_seq in Hi. apply Kw. lia.
  Qed.
  Lemma em_links j : j < n -> map (fun i => link C' i j) (kept (S n) w' 0 j) = map (fun i => link C i j) (kept n w 0 j) ++ [f j].
  Proof.
    intro H. rewrite em_kept, map_app by auto. cbn [map]. rewrite em_link_new by auto. f_equal.
    apply map_ext_in. intros i Hi. unfold kept in Hi. apply filter_In in Hi as [Hi _]. apply in_rows in Hi. apply em_link_old. lia.
  Qed.
  Lemma em_avg a j : j < n - 1 -> avgval n C w gm a 0 j = Fin (f j) -> avgval (S n) C' w' gm a 0 j = Fin (f j).
  Proof.
    intros Hj E.
    assert (N : map (fun i => link C i j) (kept n w 0 j) <> []).
    { intro Q. apply map_eq_nil in Q. revert Q. apply kept_some; auto; lia. }
    unfold avgval in *. destruct a.
    - rewrite em_links by lia. f_equal. apply mean_snoc_eq; auto. congruence.
    - rewrite em_links by lia. apply Gs; auto.
    - rewrite em_links by lia. destruct (medial_avg (map Fin (map (fun i => link C i j) (kept n w 0 j)))) as [x|e] eqn:M; [|discriminate].
      subst x. rewrite (medial_snoc _ (f j)); auto.
    - unfold rows_of in *. cbn [Nat.eqb] in *. replace (S n - 1 - j) with (S (n - 1 - j)) by lia.
      rewrite seq_S, !map_app, !qsum_app. cbn [map plus qsum fold_right].
      rewrite (em_new _ (S j)) by lia. rewrite em_old by lia. replace (S j - 1) with j by lia.
      rewrite (map_ext_in (fun i => C' i (S j)) (fun i => C i (S j))) by (intros i Hi; apply in_seq in Hi; apply em_old; lia).
      rewrite (map_ext_in (fun i => C' i j) (fun i => C i j)) by (intros i Hi; apply in_seq in Hi; apply em_old; lia).
      assert (Q : (0 < qsum (map (fun i => C i j) (seq 0 (n - 1 - j))))%Qc).
      { apply qsum_pos.
        - intro Q. apply map_eq_nil in Q. replace (n - 1 - j) with (S (n - 2 - j)) in Q by lia. discriminate.
        - intros x Hx. apply in_map_iff in Hx as (i & <- & Hi). apply in_seq in Hi. apply P. lia. }
      assert (Pc : (0 < C (n - 1 - j)%nat j)%Qc) by (apply P; lia).
      set (s1 := qsum (map (fun i => C i (S j)) (seq 0 (n - 1 - j)))) in *.
      set (s0 := qsum (map (fun i => C i j) (seq 0 (n - 1 - j)))) in *.
      f_equal. assert (E' : (s1 / s0 = f j)%Qc) by congruence.
      assert (E1 : s1 = (s0 * f j)%Qc) by (rewrite <- E'; field; apply qc_pos_neq; auto).
      rewrite E1. field. apply qc_pos_neq. qlra.
  Qed.
  Lemma em_avg_last a : 0 < n -> mean_like gm -> avgval (S n) C' w' gm a 0 (n - 1) = Fin (f (n - 1)).
  Proof.
    intros Hn G.
    assert (K : kept (S n) w' 0 (n - 1) = [0]).
    { rewrite em_kept by lia. unfold kept, rows_of. cbn [Nat.eqb]. replace (n - 1 - (n - 1)) with 0 by lia. reflexivity. }
    assert (L : link C' 0 (n - 1) = f (n - 1)).
    { replace 0 with (n - 1 - (n - 1)) at 1 by lia. apply em_link_new. lia. }
    assert (Pf := em_f_pos (n - 1) ltac:(lia)).
    unfold avgval. destruct a; rewrite ?K; cbn [map]; rewrite ?L.
    - f_equal. unfold mean. cbn [qsum fold_right length]. change (qn 1) with 1%Qc. field. discriminate.
    - destruct (G [f (n - 1)] (f (n - 1)) (f (n - 1))) as (q & E & [B1 B2]); [discriminate| |].
      + intros x [<-|[]]. split; auto. split; apply Qcle_refl.
      + cbn [map] in E. rewrite E. f_equal. apply Qcle_antisym; auto.
    - change [Fin (f (n - 1))] with (map Fin [f (n - 1)]). rewrite (medial_equal _ (f (n - 1))); auto; [discriminate|].
      intros y [<-|[]]. auto.
    - unfold rows_of. cbn [Nat.eqb]. replace (S n - 1 - (n - 1)) with 1 by lia. cbn [seq map qsum fold_right].
      f_equal. rewrite <- L. unfold link. rewrite !Qcplus_0_r. reflexivity.
  Qed.

  (** Ultimates *)
  Lemma em_ult (f' : nat -> Qc) i : i < n -> (forall j, j < n -> f' j = f j) -> f' n = 1%Qc ->
    (C' i (n - i)%nat * prodf (n - i) (S i) f' = C i (n - 1 - i)%nat * prodf (n - 1 - i) (S i) f)%Qc.
  Proof.
    intros Hi F1 F2. rewrite prodf_Sr. replace (n - i + i) with n by lia. rewrite F2.
    rewrite (prodf_ext (n - i) i f' f) by (intros j Hj; apply F1; lia).
    rewrite (em_new i (n - i)) by lia. replace (n - i - 1) with (n - 1 - i) by lia.
    rewrite (prodf_Sl (n - 1 - i)). replace (S (n - 1 - i)) with (n - i) by lia. ring.
  Qed.
End Emerge.

Lemma all_years_label s : all_years s -> exists a, s = avg_label a 0.
Proof.
  intros [<-|[<-|[<-|[<-|[]]]]]; [exists Simple|exists Geometric|exists Medial|exists Weighted]; reflexivity.
Qed.
Lemma spec_all a N : In (a, 0) (avg_specs N).
Proof. unfold avg_specs. apply in_prod; [destruct a; simpl; auto|]. apply in_app_iff. right. left. auto. Qed.

Lemma base_emerges gm m m' n C C' ind ind' (w w' : nat -> nat -> bool) v cl cl' s (tail : Qc) r (f : nat -> Qc) :
  regular m n C -> positive n C -> 2 < n -> tail_fits (m_cols m) -> clvi m = Ok cl ->
  regular m' (S n) C' -> positive (S n) C' -> tail_fits (m_cols m') -> clvi m' = Ok cl' ->
  mean_like gm -> stable_mean gm -> all_years s ->
  (forall i j, i + j < n - 1 -> cell ind i j = Fin (if w i j then 1 else 0)%Qc) ->
  (forall j, j < n - 1 -> w (n - 2 - j) j = true) ->
  (forall i j, i + j < n -> cell ind' i j = Fin (if w' i j then 1 else 0)%Qc) ->
  (forall j, j < n -> w' (n - 1 - j) j = true) ->
  kept_inclusions n w w' ->
  snd (base_cl gm (mkTri m "origin" "dev" v) cl ind (SelLabel s) (Fin tail)) = Ok r ->
  map snd (c_ldfs r) = map (fun j => Fin (f j)) (seq 0 n) ->
  emerges n C C' f ->
  exists r', snd (base_cl gm (mkTri m' "origin" "dev" v) cl' ind' (SelLabel s) (Fin 1%Qc)) = Ok r' /\
    map snd (c_ldfs r') = map snd (c_ldfs r) ++ [Fin 1%Qc] /\
    map s_ultimate (firstn n (c_rows r')) = map s_ultimate (c_rows r) /\
    (forall i, i < n -> nth i (map s_reserve (c_rows r')) NaN
       = vsub (nth i (map s_reserve (c_rows r)) NaN) (Fin (C' i (n - i)%nat - C i (n - 1 - i)%nat)%Qc)).
Proof.
  intros R P Hn Ev D R' P' Ev' D' G Gs As Hi Hl Hi' Hl' K B L Em.
  destruct (base_label_inv gm m n C ind w v cl s tail r f R P Hn Ev D Hi Hl B L) as (-> & a & k & Es & I & Av & Ft).
  destruct (all_years_label s As) as (a' & Es'). assert (Q : a = a' /\ k = 0).
  { apply avg_label_inj. congruence. } destruct Q as (-> & ->). clear As Es'. subst s.
  set (f' := fun j => if j <? n then f j else 1%Qc).
  destruct (base_cl_label gm m' (S n) C' ind' w' v cl' a' 0 1%Qc f' R' P' ltac:(lia) Ev' D') as (r' & B' & L').
  - intros i j H. apply Hi'. lia.
  - intros j H. replace (S n - 2 - j) with (n - 1 - j) by lia. apply Hl'. lia.
  - apply spec_all.
  - intros j Hj. unfold f'. rewrite ltb_if by lia. destruct (Nat.eq_dec j (n - 1)) as [->|Nj].
    + eapply em_avg_last; eauto. lia.
    + eapply em_avg; eauto; try lia. apply Av. lia.
  - unfold f'. rewrite nltb_if by lia. auto.
  - exists r'. rewrite B'. split; auto.
    destruct (base_pure_inv gm m' (S n) C' v cl' ind' _ _ _ r' f' R' ltac:(lia) D' B' L') as (-> & _).
    assert (U : forall i, i < n -> (C' i (n - i)%nat * prodf (n - i) (S i) f' = C i (n - 1 - i)%nat * prodf (n - 1 - i) (S i) f)%Qc).
    { intros i H. eapply em_ult; eauto.
      - intros j Hj. unfold f'. rewrite ltb_if by lia. auto.
      - unfold f'. rewrite nltb_if by lia. auto. }
    unfold base_pure. cbn [c_ldfs c_rows]. rewrite !map_map. cbn [snd s_ultimate s_reserve]. split; [|split].
    + rewrite seq_S, map_app. cbn [map plus]. f_equal.
      * apply map_seq_ext. intros j Hj. unfold f'. rewrite ltb_if by lia. auto.
      * unfold f'. rewrite nltb_if by lia. auto.
    + rewrite firstn_map, map_map. cbn [s_ultimate]. rewrite seq_S, firstn_app, seq_length, Nat.sub_diag.
      cbn [firstn]. rewrite app_nil_r, firstn_all2 by (rewrite seq_length; auto).
      apply map_seq_ext. intros i H. cbv zeta. f_equal. replace (S n - 1 - i) with (n - i) by lia. apply U. lia.
    + intros i H. rewrite !nth_map_seq by lia. cbn [plus vsub vneg vadd]. cbv zeta. replace (S n - 1 - i) with (n - i) by lia. 
      rewrite U by auto. cbn. f_equal. ring.
Qed.
