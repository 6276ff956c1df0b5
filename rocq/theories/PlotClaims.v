(** Proofs of C64. *)

From Coq Require Import String QArith Qcanon ZArith List Bool Lia Permutation Sorting.Sorted.
From Verif Require Import Val Frame Triangle A2A Base Plot ListLib QcLib Spec Spec2 TblFacts ConvFacts FillFacts
  TriClaims4 RegFacts AvgFacts MackFacts BuildFacts BaseClaims BootLib BootSim BootClaims2 SpecPlot.
Import ListNotations.
Open Scope string_scope.
Open Scope list_scope.
Open Scope nat_scope.

Lemma filter_seq_suffix (p : nat -> bool) n a : a <= n -> (forall i, i < n -> p i = (a <=? i)) -> filter p (seq 0 n) = seq a (n - a).
Proof.
  intros Ha H. replace n with (a + (n - a)) at 1 by lia. rewrite seq_app, filter_app.
  rewrite filter_false, filter_true; auto.
  - intros x Hx. apply in_seq in Hx. rewrite H by lia. apply Nat.leb_le. lia.
  - intros x Hx. apply in_seq in Hx. rewrite H by lia. apply Nat.leb_gt. lia.
Qed.
Lemma filter_map_comm {A B} (f : A -> B) (p : B -> bool) l : filter p (map f l) = map f (filter (fun x => p (f x)) l).
Proof. induction l as [|a l IH]; auto. cbn [map filter]. rewrite IH. destruct (p (f a)); auto. Qed.
Lemma filter_filter {A} (p q : A -> bool) l : filter p (filter q l) = filter (fun x => q x && p x) l.
Proof. induction l as [|a l IH]; auto. cbn [filter]. destruct (q a); cbn [filter andb]; rewrite ?IH; auto. Qed.
Lemma flat_map_if {A} (p : A -> bool) l : flat_map (fun x => if p x then [x] else []) l = filter p l.
Proof. induction l as [|a l IH]; auto. cbn [flat_map filter]. rewrite IH. destruct (p a); auto. Qed.
Lemma filter_seq_one (p : nat -> bool) a n i : a <= i < a + n -> (forall k, a <= k < a + n -> k <> i -> p k = false) ->
  filter p (seq a n) = if p i then [i] else [].
Proof.
  revert a. induction n as [|n IH]; intros a Hi H; [lia|]. cbn [seq filter]. destruct (Nat.eq_dec a i) as [->|D].
  - rewrite (filter_false _ (seq (S i) n)). { destruct (p i); auto. }
    intros x Hx. apply in_seq in Hx. apply H; lia.
  - rewrite (H a) by lia. apply IH; [lia|]. intros; apply H; lia.
Qed.

Definition grid (n : nat) : list (nat * nat) := flat_map (fun j => map (fun i => (i, j)) (seq 0 n)) (seq 0 n).
Lemma grid_in n i j : In (i, j) (grid n) <-> i < n /\ j < n.
Proof.
  unfold grid. rewrite in_flat_map. split.
  - intros (j' & Hj & H). apply in_map_iff in H as (i' & E & Hi). apply in_seq in Hi, Hj. injection E as <- <-. lia.
  - intros (A & B). exists j. split; [apply in_seq; lia|]. apply in_map_iff. exists i. split; auto. apply in_seq; lia.
Qed.
Lemma grid_row n (Q : nat * nat -> bool) i : i < n ->
  filter (fun p => Q p && (fst p =? i)) (grid n) = map (fun j => (i, j)) (filter (fun j => Q (i, j)) (seq 0 n)).
Proof.
  intro Hi. unfold grid. rewrite filter_flat_map.
  rewrite (flat_map_seq_ext _ (fun j => map (fun j => (i, j)) (if Q (i, j) then [j] else []))).
  - rewrite <- flat_map_if. generalize (seq 0 n). intro l. induction l as [|j l IH]; auto. cbn [flat_map]. rewrite map_app, IH. auto.
  - intros j Hj. rewrite filter_map_comm. cbn [fst].
    rewrite (filter_seq_one (fun x => Q (x, j) && (x =? i)) 0 n i ltac:(lia)).
    + rewrite Nat.eqb_refl, andb_true_r. destruct (Q (i, j)); auto.
    + intros k _ D. apply Nat.eqb_neq in D. rewrite D. apply andb_false_r.
Qed.
Lemma grid_col n (Q : nat * nat -> bool) j : j < n ->
  filter (fun p => Q p && (snd p =? j)) (grid n) = map (fun i => (i, j)) (filter (fun i => Q (i, j)) (seq 0 n)).
Proof.
  intro Hj. unfold grid. rewrite filter_flat_map. rewrite (flat_map_one _ n j Hj).
  - rewrite filter_map_comm. f_equal. apply filter_ext. intro a. cbn [snd]. rewrite Nat.eqb_refl. apply andb_true_r.
  - intros k Hk D. apply filter_false. intros p Hp. apply in_map_iff in Hp as (i & <- & _). cbn [snd].
    apply Nat.eqb_neq in D. rewrite D. apply andb_false_r.
Qed.

Lemma position_nth l i : NoDup l -> i < List.length l -> position (nth i l 0%Z) l = i.
Proof.
  revert i. induction l as [|a l IH]; intros i N L; [simpl in L; lia|]. inversion N as [|? ? Na Nl]; subst.
  destruct i as [|i]; cbn [nth position].
  - rewrite Z.eqb_refl. auto.
  - simpl in L. destruct (Z.eqb_spec a (nth i l 0%Z)) as [E|E].
    + exfalso. apply Na. rewrite E. apply nth_In. lia.
    + f_equal. apply IH; auto. lia.
Qed.
Lemma zuniq_eq l os : zsorted os -> (forall x, In x l <-> In x os) -> uniq Z.compare l = os.
Proof.
  intros So H.
  assert (Ceq : forall x y, Z.compare x y = Eq <-> x = y) by apply Z.compare_eq_iff.
  assert (Cop : forall x y, Z.compare y x = CompOpp (Z.compare x y)) by (intros; apply Z.compare_antisym).
  assert (Ctr : forall x y z, Z.compare x y = Lt -> Z.compare y z = Lt -> Z.compare x z = Lt)
    by (intros x y z; rewrite !Z.compare_lt_iff; lia).
  apply (ssorted_ext Z.compare Ceq Ctr); [apply uniq_sorted; auto| |].
  - exact So.
  - intro x. rewrite (uniq_in Z.compare Ceq). apply H.
Qed.

Lemma increment_pos ds : zsorted ds -> 2 <= List.length ds -> exists inc, increment ds = Ok inc /\ (0 < inc)%Z.
Proof.
  intros So L. unfold increment. destruct (steps ds) as [|x l] eqn:E.
  - destruct ds as [|a [|b r]]; simpl in L; try lia. simpl in E. discriminate.
  - eexists. split; [reflexivity|]. apply (steps_pos ds So). rewrite E. apply zmin_in. discriminate.
Qed.

Section Plot.
  Variables (m : lmat) (n : nat) (C : nat -> nat -> Qc) (f : nat -> Qc).
  Hypothesis R : regular m n C.
  Hypothesis Hn : 1 < n.
  Let o i := nth i (m_idx m) 0%Z.
  Let d j := nth j (m_cols m) 0%Z.
  Let k i := n - 1 - i.
  Definition pj i j : Qc := (C i (n - 1 - i) * prodf (n - 1 - i) (j - (n - 1 - i)) f)%Qc.
  Let latest i := C i (k i).
  Definition ul i : Qc := (C i (n - 1 - i) * prodf (n - 1 - i) (n - (n - 1 - i)) f)%Qc.

  Definition prd (p : nat * nat) : bool := n - 1 - fst p <=? snd p.
  Definition prc (b : bool) (p : nat * nat) : prec :=
    mkP (Some (o (fst p))) (d (snd p)) (Fin (sq n C f (fst p) (snd p))) (Fin (latest (fst p))) b.
  Definition l_act := map (prc true) (filter (fun p => fst p + snd p <? n) (grid n)).
  Definition l_pred := map (prc false) (filter prd (grid n)).
  Definition l_ult D := map (fun i => mkP (Some (o i)) D (Fin (ul i)) (Fin (latest i)) false) (seq 0 n).
  Definition fin_rec (p : prec) : plotrec :=
    mkQ (match p_origin p with Some z => position z (m_idx m) | None => n end) (p_origin p) (p_dev p) (p_loss p)
        (if p_actual p then Fin 0%Qc else vsub (p_loss p) (p_latest p)) (p_actual p).

  Lemma o_inj i i' : i < n -> i' < n -> o i = o i' -> i = i'.
  Proof.
    intros A B E. destruct R as (So & _ & Lo & _). apply (NoDup_nth (m_idx m) 0%Z) in E; try lia. apply zsorted_nodup; auto.
  Qed.
  Lemma d_inj i i' : i < n -> i' < n -> d i = d i' -> i = i'.
  Proof.
    intros A B E. destruct R as (_ & Sd & _ & Ld & _). apply (NoDup_nth (m_cols m) 0%Z) in E; try lia. apply zsorted_nodup; auto.
  Qed.

  Lemma data_at gm v cl ind sel tail sel' r inc : clvi m = Ok cl ->
    base_cl gm (mkTri m "origin" "dev" v) cl ind sel tail = (sel', Ok r) ->
    c_ldfs r = map (fun j => (d j, Fin (f j))) (seq 0 n) ->
    increment (m_cols m) = Ok inc ->
    let D := (zmax (m_cols m) + inc)%Z in
      data_transform m cl r = Ok (map fin_rec (l_act ++ l_pred ++ l_ult D ++ plot_totals l_pred ++ plot_totals (l_ult D))).
  Proof.
    intros Cl B Lf Ei. assert (R' := R). apply regular_rmat in R' as (E & So & Sd & Lo & Ld).
    assert (Rows := c23_rows gm m n C v cl ind sel tail sel' r f R ltac:(lia) Cl B Lf). cbv zeta in Rows.
    destruct (c24 gm m n C v cl ind sel tail sel' r f R ltac:(lia) Cl B Lf) as (S1 & S2 & S3 & S4 & S5).
    assert (Ecl : cl = map (fun j => n - 1 - j) (seq 0 n)).
    { rewrite E in Cl. rewrite r_clvi in Cl by (auto; lia). congruence. }
    assert (El : map fst (c_ldfs r) = m_cols m).
    { rewrite Lf, map_map. cbn [fst]. unfold d. rewrite <- Ld at 1. apply map_nth_seq. }
    cbv zeta.
    unfold data_transform. rewrite El, Ei. cbn [bind]. unfold nrows, ncols. rewrite Lo, Ld.
    assert (Act : forall i j, i < n -> j < n -> negb (nth j (nth i (triind n cl) []) true) = (i + j <? n)).
    { intros i j Hi Hj. unfold triind. rewrite Ecl, map_length, seq_length.
      unfold mk. rewrite (nth_indep _ [] (map (fun j => nth j (map (fun j => n - 1 - j) (seq 0 n)) 0 <? 0) (seq 0 n))) by (rewrite map_length, seq_length; auto).
      rewrite (map_nth (fun i => map (fun j => nth j (map (fun j => n - 1 - j) (seq 0 n)) 0 <? i) (seq 0 n))), seq_nth by auto. cbn [plus].
      rewrite (nth_indep _ true (nth 0 (map (fun j => n - 1 - j) (seq 0 n)) 0 <? i)) by (rewrite map_length, seq_length; auto).
      rewrite (map_nth (fun j => nth j (map (fun j => n - 1 - j) (seq 0 n)) 0 <? i)), seq_nth by auto. cbn [plus].
      rewrite (nth_map_seq (fun j => n - 1 - j)) by auto.
      destruct (Nat.ltb_spec (n - 1 - j) i); destruct (Nat.ltb_spec (i + j) n); auto; lia. }
    assert (Lat : forall i, i < n -> slookup (map (fun row => (s_origin row, s_latest row)) (c_rows r)) (nth i (m_idx m) 0%Z) = Fin (latest i)).
    { intros i Hi. rewrite Rows, map_map. cbn [s_origin s_latest].
      apply (slookup_map (fun i => nth i (m_idx m) 0%Z) (fun i => Fin (C i (n - 1 - i)))); [|apply in_seq; lia].
      rewrite <- Lo at 1. rewrite map_nth_seq. apply zsorted_nodup; auto. }
    assert (Cell : forall i j, i < n -> j < n -> nth j (nth i (fst (c_trisqrd r)) []) NaN = Fin (sq n C f i j)).
    { intros i j Hi Hj. unfold sq. destruct (Nat.ltb_spec (i + j) n); [apply S3; auto|apply S4; auto]. }
    assert (Rec : forall b p, In p (grid n) ->
      mkP (Some (nth (fst p) (m_idx m) 0%Z)) (nth (snd p) (m_cols m) 0%Z) (nth (snd p) (nth (fst p) (fst (c_trisqrd r)) []) NaN)
          (slookup (map (fun row => (s_origin row, s_latest row)) (c_rows r)) (nth (fst p) (m_idx m) 0%Z)) b = prc b p).
    { intros b [i j] Hp. apply grid_in in Hp as (Hi & Hj). cbn [fst snd]. unfold prc. cbn [fst snd]. rewrite Cell, Lat by auto. auto. }
    assert (E1 : map (fun p => mkP (Some (nth (fst p) (m_idx m) 0%Z)) (nth (snd p) (m_cols m) 0%Z) (nth (snd p) (nth (fst p) (fst (c_trisqrd r)) []) NaN)
          (slookup (map (fun row => (s_origin row, s_latest row)) (c_rows r)) (nth (fst p) (m_idx m) 0%Z)) true)
        (filter (fun p => negb (nth (snd p) (nth (fst p) (triind n cl) []) true)) (flat_map (fun j => map (fun i => (i, j)) (seq 0 n)) (seq 0 n)))
      = l_act).
    { fold (grid n). unfold l_act. rewrite (filter_ext_in _ (fun p => fst p + snd p <? n)).
      - apply map_ext_in. intros p Hp. apply filter_In in Hp as (Hp & _). apply Rec; auto.
      - intros [i j] Hp. apply grid_in in Hp as (Hi & Hj). apply Act; auto. }
    assert (Fa : forall i, i < n -> filter (fun j => negb (nth j (nth i (triind n cl) []) true)) (seq 0 n) = seq 0 (n - i)).
    { intros i Hi. apply filter_seq_prefix; [lia|]. intros j Hj. rewrite Act by auto.
      destruct (Nat.ltb_spec (i + j) n); destruct (Nat.ltb_spec j (n - i)); auto; lia. }
    assert (Zm : forall i, i < n -> zmax (map (fun j => nth j (m_cols m) 0%Z) (seq 0 (n - i))) = nth (n - 1 - i) (m_cols m) 0%Z).
    { intros i Hi. rewrite firstn_map_nth by lia.
      assert (Q := zsorted_firstn (m_cols m) (n - i) Sd).
      assert (In (nth (n - 1 - i) (m_cols m) 0%Z) (firstn (n - i) (m_cols m))).
      { rewrite <- firstn_map_nth by lia. apply in_map_iff. exists (n - 1 - i). split; auto. apply in_seq. lia. }
      apply Z.le_antisymm; [|apply zmax_ge; auto].
      assert (In (zmax (firstn (n - i) (m_cols m))) (firstn (n - i) (m_cols m))) as Hz.
      { clear -H. destruct (firstn (n - i) (m_cols m)) as [|a l]; [contradiction|]. clear. revert a.
        induction l as [|b l IH]; intro a; [left; auto|]. change (zmax (a :: b :: l)) with (Z.max a (zmax (b :: l))).
        destruct (Z.max_spec a (zmax (b :: l))) as [(_ & ->)|(_ & ->)]; [right; apply IH|left; auto]. }
      rewrite <- firstn_map_nth in Hz at 2 by lia. apply in_map_iff in Hz as (j & <- & Hj). apply in_seq in Hj.
      destruct (Nat.eq_dec j (n - 1 - i)) as [->|D]; [lia|].
      apply Z.lt_le_incl. apply (zsorted_nth (m_cols m)); auto; lia. }
    assert (E2 : map (fun p => mkP (Some (nth (fst p) (m_idx m) 0%Z)) (nth (snd p) (m_cols m) 0%Z) (nth (snd p) (nth (fst p) (fst (c_trisqrd r)) []) NaN)
          (slookup (map (fun row => (s_origin row, s_latest row)) (c_rows r)) (nth (fst p) (m_idx m) 0%Z)) false)
        (filter (fun p => negb (negb (nth (snd p) (nth (fst p) (triind n cl) []) true)) ||
            match match filter (fun j => negb (nth j (nth (fst p) (triind n cl) []) true)) (seq 0 n) with
                  | [] => None | l => Some (zmax (map (fun j => nth j (m_cols m) 0%Z) l)) end with
            | Some x => (nth (snd p) (m_cols m) 0 =? x)%Z | None => false end)
           (flat_map (fun j => map (fun i => (i, j)) (seq 0 n)) (seq 0 n)))
      = l_pred).
    { fold (grid n). unfold l_pred. rewrite (filter_ext_in _ prd).
      - apply map_ext_in. intros p Hp. apply filter_In in Hp as (Hp & _). apply Rec; auto.
      - intros [i j] Hp. apply grid_in in Hp as (Hi & Hj). cbn [fst snd]. unfold prd. cbn [fst snd]. rewrite Act, Fa by auto.
        destruct (seq 0 (n - i)) as [|x l] eqn:Q; [destruct (n - i) eqn:Q'; [lia|discriminate]|]. rewrite <- Q, Zm by auto.
        destruct (Nat.ltb_spec (i + j) n) as [A|A]; cbn [negb orb].
        + destruct (Z.eqb_spec (nth j (m_cols m) 0%Z) (nth (n - 1 - i) (m_cols m) 0%Z)) as [A'|A'].
          * apply d_inj in A'; try lia. subst. symmetry. apply Nat.leb_refl.
          * symmetry. apply Nat.leb_gt. destruct (Nat.eq_dec j (n - 1 - i)) as [->|]; [contradiction|lia].
        + symmetry. apply Nat.leb_le. lia. }
    rewrite E1, E2.
    assert (E3 : map (fun i => mkP (Some (nth i (m_idx m) 0%Z)) (zmax (m_cols m) + inc) (nth i (snd (c_trisqrd r)) NaN)
          (slookup (map (fun row => (s_origin row, s_latest row)) (c_rows r)) (nth i (m_idx m) 0%Z)) false) (seq 0 n)
      = l_ult (zmax (m_cols m) + inc)).
    { apply map_seq_ext. intros i Hi. rewrite Lat by lia. f_equal. rewrite S5, Rows, map_map. cbn [s_ultimate].
      apply (nth_map_seq (fun i => Fin (C i (n - 1 - i) * prodf (n - 1 - i) (n - (n - 1 - i)) f)%Qc)). lia. }
    rewrite E3. cbv zeta. set (D := (zmax (m_cols m) + inc)%Z).
    set (all := l_act ++ l_pred ++ l_ult D ++ plot_totals l_pred ++ plot_totals (l_ult D)).
    assert (Eo : uniq Z.compare (flat_map (fun p => match p_origin p with Some x => [x] | None => [] end) all) = m_idx m).
    { apply zuniq_eq; auto. intro x. rewrite in_flat_map. split.
      - intros (p & Hp & Hx). unfold all in Hp. rewrite !in_app_iff in Hp.
        assert (Tt : forall l, In p (plot_totals l) -> p_origin p = None).
        { intros l Hl. unfold plot_totals in Hl. apply in_map_iff in Hl as (? & <- & _). auto. }
        assert (Hi : exists i, i < n /\ p_origin p = Some (o i)).
        { destruct Hp as [Hp|[Hp|[Hp|[Hp|Hp]]]].
          - apply in_map_iff in Hp as ([i j] & <- & Hp). apply filter_In in Hp as (Hp & _). apply grid_in in Hp. exists i. split; [lia|auto].
          - apply in_map_iff in Hp as ([i j] & <- & Hp). apply filter_In in Hp as (Hp & _). apply grid_in in Hp. exists i. split; [lia|auto].
          - apply in_map_iff in Hp as (i & <- & Hp). apply in_seq in Hp. exists i. split; [lia|auto].
          - rewrite (Tt _ Hp) in Hx. destruct Hx.
          - rewrite (Tt _ Hp) in Hx. destruct Hx. }
        destruct Hi as (i & Hi & Eq). rewrite Eq in Hx. destruct Hx as [<-|[]]. apply nth_In. lia.
      - intro Hx. apply (In_nth _ _ 0%Z) in Hx as (i & Hi & <-).
        exists (mkP (Some (o i)) D (Fin (ul i)) (Fin (latest i)) false). split; [|left; auto].
        unfold all. rewrite !in_app_iff. right. right. left. unfold l_ult. apply in_map_iff. exists i. split; auto. apply in_seq. lia. }
    rewrite Eo, Lo. destruct (Nat.eqb_spec n 0) as [Q|Q]; [lia|]. auto.
  Qed.
  Lemma data_eq gm v cl ind sel tail sel' r : clvi m = Ok cl ->
    base_cl gm (mkTri m "origin" "dev" v) cl ind sel tail = (sel', Ok r) ->
    c_ldfs r = map (fun j => (d j, Fin (f j))) (seq 0 n) ->
    exists D, (forall x, In x (m_cols m) -> (x < D)%Z) /\
      data_transform m cl r = Ok (map fin_rec (l_act ++ l_pred ++ l_ult D ++ plot_totals l_pred ++ plot_totals (l_ult D))).
  Proof.
    intros Cl B Lf. assert (R' := R). apply regular_rmat in R' as (E & So & Sd & Lo & Ld).
    destruct (increment_pos (m_cols m) Sd ltac:(lia)) as (inc & Ei & Pi).
    exists (zmax (m_cols m) + inc)%Z. split.
    { intros x Hx. apply zmax_ge in Hx. lia. }
    apply (data_at gm v cl ind sel tail sel' r inc Cl B Lf Ei).
  Qed.

  Definition sel (x : option Z) (b : bool) (p : prec) : bool := same_origin (p_origin p) x && Bool.eqb (p_actual p) b.
  Lemma drawn_map x b l : drawn (map fin_rec l) x b = map fin_rec (filter (sel x b) l).
  Proof. unfold drawn. rewrite filter_map_comm. auto. Qed.

  Lemma sel_row i p : i < n -> In p (grid n) -> (o (fst p) =? o i)%Z = (fst p =? i).
  Proof.
    intros Hi Hp. destruct p as [a b]. apply grid_in in Hp. cbn [fst].
    destruct (Z.eqb_spec (o a) (o i)) as [E|E]; destruct (Nat.eqb_spec a i) as [E'|E']; try reflexivity; exfalso.
    - apply o_inj in E; lia.
    - apply E. rewrite E'. reflexivity.
  Qed.
  Lemma seg_row b (Q : nat * nat -> bool) i b' : i < n ->
    filter (sel (Some (o i)) b') (map (prc b) (filter Q (grid n)))
    = if Bool.eqb b b' then map (fun j => prc b (i, j)) (filter (fun j => Q (i, j)) (seq 0 n)) else [].
  Proof.
    intro Hi. rewrite filter_map_comm, filter_filter.
    rewrite (filter_ext_in _ (fun p => (Q p && Bool.eqb b b') && (fst p =? i))).
    2:{ intros p Hp. unfold sel. cbn [prc p_origin p_actual same_origin]. rewrite sel_row by auto.
        destruct (Q p), (fst p =? i), (Bool.eqb b b'); auto. }
    rewrite (grid_row n (fun p => Q p && Bool.eqb b b')) by auto. rewrite map_map.
    destruct (Bool.eqb b b').
    - f_equal. apply filter_ext. intro j. apply andb_true_r.
    - rewrite filter_false; auto. intros; apply andb_false_r.
  Qed.
  Lemma seg_ult D i b : i < n ->
    filter (sel (Some (o i)) b) (l_ult D) = if b then [] else [mkP (Some (o i)) D (Fin (ul i)) (Fin (latest i)) false].
  Proof.
    intro Hi. unfold l_ult. rewrite filter_map_comm. unfold sel. cbn [p_origin p_actual same_origin].
    rewrite (filter_seq_one _ 0 n i ltac:(lia)).
    - rewrite Z.eqb_refl. destruct b; auto.
    - intros a Ha D'. destruct (Z.eqb_spec (o a) (o i)) as [E|E]; auto. apply o_inj in E; lia.
  Qed.
  Lemma seg_tot x b l : filter (sel (Some x) b) (plot_totals l) = [].
  Proof. apply filter_false. intros p Hp. unfold plot_totals in Hp. apply in_map_iff in Hp as (? & <- & _). auto. Qed.
  Lemma tot_none l : filter (sel None false) (plot_totals l) = plot_totals l.
  Proof. apply filter_true. intros p Hp. unfold plot_totals in Hp. apply in_map_iff in Hp as (? & <- & _). auto. Qed.
  Lemma tot_none_act l : filter (sel None true) (plot_totals l) = [].
  Proof. apply filter_false. intros p Hp. unfold plot_totals in Hp. apply in_map_iff in Hp as (? & <- & _). auto. Qed.
  Lemma some_none (l : list prec) b : (forall p, In p l -> p_origin p <> None) -> filter (sel None b) l = [].
  Proof. intro H. apply filter_false. intros p Hp. apply H in Hp. unfold sel. destruct (p_origin p); auto. contradiction. Qed.
  Lemma sq_pj i j : i < n -> n - 1 - i <= j -> sq n C f i j = pj i j.
  Proof.
    intros Hi Hj. unfold sq, pj. destruct (Nat.ltb_spec (i + j) n); auto.
    replace j with (n - 1 - i) by lia. rewrite Nat.sub_diag. cbn [prodf]. symmetry. apply Qcmult_1_r.
  Qed.
  Lemma position_o i : i < n -> position (o i) (m_idx m) = i.
  Proof. destruct R as (So & _ & Lo & _). intro. apply position_nth; [apply zsorted_nodup; auto|lia]. Qed.

  Lemma tot_pred : map fin_rec (plot_totals l_pred)
    = map (fun j => mkQ n None (d j) (Fin (sumf (n - 1 - j) (S j) (fun i => pj i j)))
                       (Fin (sumf (n - 1 - j) (S j) (fun i => pj i j - latest i)%Qc)) false) (seq 0 n).
  Proof.
    destruct R as (So & Sd & Lo & Ld & _).
    unfold plot_totals. rewrite map_map. rewrite (zuniq_eq _ (m_cols m) Sd).
    2:{ intro x. unfold l_pred. rewrite map_map. cbn [prc p_dev]. rewrite in_map_iff. split.
        - intros ((a & b) & <- & Hp). apply filter_In in Hp as (Hp & _). apply grid_in in Hp. cbn [snd]. apply nth_In. lia.
        - intro Hx. apply (In_nth _ _ 0%Z) in Hx as (j & Hj & <-). exists (n - 1, j). split; auto. apply filter_In. split.
          + apply grid_in. lia.
          + unfold prd. cbn [fst snd]. apply Nat.leb_le. lia. }
    transitivity (map (fun x => fin_rec
       (let g := filter (fun p => (p_dev p =? x)%Z) l_pred in
        {| p_origin := None; p_dev := x; p_loss := skipsum (map p_loss g); p_latest := skipsum (map p_latest g); p_actual := false |}))
       (map (fun j => d j) (seq 0 n))).
    { f_equal. symmetry. rewrite <- Ld. apply map_nth_seq. }
    rewrite map_map. apply map_seq_ext. intros j Hj. cbv zeta.
    assert (G : filter (fun p => (p_dev p =? d j)%Z) l_pred = map (fun i => prc false (i, j)) (seq (n - 1 - j) (S j))).
    { unfold l_pred. rewrite filter_map_comm, filter_filter.
      rewrite (filter_ext_in _ (fun p => prd p && (snd p =? j))).
      - rewrite grid_col by lia. rewrite map_map. f_equal. rewrite (filter_seq_suffix _ n (n - 1 - j) ltac:(lia)).
        + f_equal. lia.
        + intros i Hi. unfold prd. cbn [fst snd]. destruct (Nat.leb_spec (n - 1 - i) j); destruct (Nat.leb_spec (n - 1 - j) i); auto; lia.
      - intros [a b] Hp. apply grid_in in Hp. f_equal. cbn [prc p_dev snd].
        destruct (Z.eqb_spec (d b) (d j)) as [E|E]; destruct (Nat.eqb_spec b j) as [E'|E']; try reflexivity; exfalso.
        + apply d_inj in E; lia.
        + apply E. rewrite E'. reflexivity. }
    rewrite G. unfold fin_rec. cbn [p_origin p_dev p_loss p_latest p_actual]. rewrite !map_map. cbn [prc p_loss p_latest fst snd].
    assert (K1 : map (fun i => Fin (sq n C f i j)) (seq (n - 1 - j) (S j)) = map (fun i => Fin (pj i j)) (seq (n - 1 - j) (S j))).
    { apply map_ext_in. intros i Hi. apply in_seq in Hi. f_equal. apply sq_pj; lia. }
    rewrite K1.
    assert (K : forall g, skipsum (map (fun i => Fin (g i)) (seq (n - 1 - j) (S j))) = Fin (sumf (n - 1 - j) (S j) g)) by (intro g; unfold sumf; rewrite <- skipsum_fin, map_map; auto).
    rewrite !K, sumf_sub. reflexivity.
  Qed.

  Lemma tot_ult D : map fin_rec (plot_totals (l_ult D))
    = [mkQ n None D (Fin (sumf 0 n ul)) (Fin (sumf 0 n (fun i => ul i - latest i)%Qc)) false].
  Proof.
    unfold plot_totals. rewrite (zuniq_eq _ [D]).
    2:{ repeat constructor. }
    2:{ intro x. unfold l_ult. rewrite map_map. cbn [p_dev]. rewrite in_map_iff. split.
        - intros (i & <- & _). left; auto.
        - intros [<-|[]]. exists 0. split; auto. apply in_seq. lia. }
    cbn [map]. rewrite filter_true.
    2:{ intros p Hp. unfold l_ult in Hp. apply in_map_iff in Hp as (i & <- & _). apply Z.eqb_refl. }
    unfold l_ult. rewrite !map_map. cbn [p_loss p_latest].
    assert (K : forall g, skipsum (map (fun i => Fin (g i)) (seq 0 n)) = Fin (sumf 0 n g)) by (intro g; unfold sumf; rewrite <- skipsum_fin, map_map; auto).
    rewrite !K, sumf_sub. reflexivity.
  Qed.

  Lemma drawn_all D :
    let l := map fin_rec (l_act ++ l_pred ++ l_ult D ++ plot_totals l_pred ++ plot_totals (l_ult D)) in
    (forall i, i < n ->
       drawn l (Some (o i)) true = map (fun j => mkQ i (Some (o i)) (d j) (Fin (C i j)) (Fin 0%Qc) true) (seq 0 (n - i))) /\
    (forall i, i < n ->
       drawn l (Some (o i)) false
       = map (fun j => mkQ i (Some (o i)) (d j) (Fin (pj i j)) (Fin (pj i j - latest i)%Qc) false) (seq (n - 1 - i) (S i))
         ++ [mkQ i (Some (o i)) D (Fin (ul i)) (Fin (ul i - latest i)%Qc) false]) /\
    drawn l None true = [] /\
    drawn l None false
    = map (fun j => mkQ n None (d j) (Fin (sumf (n - 1 - j) (S j) (fun i => pj i j)))
                       (Fin (sumf (n - 1 - j) (S j) (fun i => pj i j - latest i)%Qc)) false) (seq 0 n)
      ++ [mkQ n None D (Fin (sumf 0 n ul)) (Fin (sumf 0 n (fun i => ul i - latest i)%Qc)) false] /\
    (forall q, In q l -> q_origin q = None \/ exists i, i < n /\ q_origin q = Some (o i)).
  Proof.
    cbv zeta. repeat match goal with |- _ /\ _ => split end.
    - intros i Hi. rewrite drawn_map, !filter_app, !seg_tot, seg_ult by auto. unfold l_act, l_pred. rewrite !seg_row by auto.
      cbn [Bool.eqb app]. rewrite app_nil_r, map_map.
      rewrite (filter_seq_prefix _ n (n - i)) by (try lia; intros j Hj; cbn [fst snd];
        destruct (Nat.ltb_spec (i + j) n); destruct (Nat.ltb_spec j (n - i)); auto; lia).
      apply map_ext_in. intros j Hj. apply in_seq in Hj. unfold fin_rec, prc. cbn [p_origin p_dev p_loss p_latest p_actual fst snd].
      rewrite position_o by auto. unfold sq. destruct (Nat.ltb_spec (i + j) n); [auto|lia].
    - intros i Hi. rewrite drawn_map, !filter_app, !seg_tot, seg_ult by auto. unfold l_act, l_pred. rewrite !seg_row by auto.
      cbn [Bool.eqb app]. rewrite map_app, map_map.
      rewrite (filter_seq_suffix _ n (n - 1 - i)) by (try lia; intros j Hj; unfold prd; cbn [fst snd]; auto).
      replace (n - (n - 1 - i)) with (S i) by lia. f_equal.
      + apply map_ext_in. intros j Hj. apply in_seq in Hj. unfold fin_rec, prc. cbn [p_origin p_dev p_loss p_latest p_actual fst snd].
        rewrite position_o by auto. rewrite sq_pj by lia. reflexivity.
      + cbn [map app]. unfold fin_rec. cbn [p_origin p_dev p_loss p_latest p_actual]. rewrite position_o by auto. reflexivity.
    - rewrite drawn_map, !filter_app, !tot_none_act, !some_none; auto; intros p Hp; apply in_map_iff in Hp as (? & <- & _); discriminate.
    - rewrite drawn_map, !filter_app, !tot_none, !some_none by (intros p Hp; apply in_map_iff in Hp as (? & <- & _); discriminate).
      cbn [app]. rewrite map_app, tot_pred, tot_ult. reflexivity.
    - intros q Hq. apply in_map_iff in Hq as (p & <- & Hp). unfold fin_rec. cbn [q_origin]. rewrite !in_app_iff in Hp.
      destruct Hp as [Hp|[Hp|[Hp|[Hp|Hp]]]].
      + apply in_map_iff in Hp as ((i & j) & <- & Hp). apply filter_In in Hp as (Hp & _). apply grid_in in Hp. right. exists i. split; [lia|auto].
      + apply in_map_iff in Hp as ((i & j) & <- & Hp). apply filter_In in Hp as (Hp & _). apply grid_in in Hp. right. exists i. split; [lia|auto].
      + apply in_map_iff in Hp as (i & <- & Hp). apply in_seq in Hp. right. exists i. split; [lia|auto].
      + left. unfold plot_totals in Hp. apply in_map_iff in Hp as (? & <- & _). auto.
      + left. unfold plot_totals in Hp. apply in_map_iff in Hp as (? & <- & _). auto.
  Qed.
End Plot.

(** C64. *)
Theorem c64 gm m n C v cl ind sel tail sel' r f :
  regular m n C -> 1 < n -> clvi m = Ok cl ->
  base_cl gm (mkTri m "origin" "dev" v) cl ind sel tail = (sel', Ok r) ->
  c_ldfs r = map (fun j => (nth j (m_cols m) 0%Z, Fin (f j))) (seq 0 n) ->
  let o i := Some (nth i (m_idx m) 0%Z) in
  let d j := nth j (m_cols m) 0%Z in
  let latest i := C i (n - 1 - i) in
  let proj i j := (latest i * prodf (n - 1 - i) (j - (n - 1 - i)) f)%Qc in
  let ult i := (latest i * prodf (n - 1 - i) (S i) f)%Qc in
  exists l D, data_transform m cl r = Ok l /\ (forall x, In x (m_cols m) -> (x < D)%Z) /\
    (forall i, i < n -> drawn l (o i) true = map (fun j => mkQ i (o i) (d j) (Fin (C i j)) (Fin 0%Qc) true) (seq 0 (n - i))) /\
    (forall i, i < n ->
       drawn l (o i) false
       = map (fun j => mkQ i (o i) (d j) (Fin (proj i j)) (Fin (proj i j - latest i)%Qc) false) (seq (n - 1 - i) (S i))
         ++ [mkQ i (o i) D (Fin (ult i)) (Fin (ult i - latest i)%Qc) false]) /\
    drawn l None true = [] /\
    drawn l None false
    = map (fun j => mkQ n None (d j) (Fin (sumf (n - 1 - j) (S j) (fun i => proj i j)))
                       (Fin (sumf (n - 1 - j) (S j) (fun i => proj i j - latest i)%Qc)) false) (seq 0 n)
      ++ [mkQ n None D (snd (fst (c_total r))) (snd (c_total r)) false] /\
    (forall q, In q l -> q_origin q = None \/ exists i, i < n /\ q_origin q = o i) /\
    (forall i, i < n -> exists row, nth_error (c_rows r) i = Some row /\
       s_latest row = Fin (latest i) /\ s_ultimate row = Fin (ult i) /\ s_reserve row = Fin (ult i - latest i)%Qc).
Proof.
  intros R Hn Cl B Lf. cbv zeta.
  destruct (data_eq m n C f R Hn gm v cl ind sel tail sel' r Cl B Lf) as (D & HD & E).
  destruct (drawn_all m n C f R Hn D) as (A1 & A2 & A3 & A4 & A5).
  assert (Rows := c23_rows gm m n C v cl ind sel tail sel' r f R ltac:(lia) Cl B Lf). cbv zeta in Rows.
  eexists. exists D. split; [exact E|]. split; [exact HD|]. split; [exact A1|].
  split. { intros i Hi. rewrite (A2 i Hi). unfold ul. replace (n - (n - 1 - i)) with (S i) by lia. reflexivity. }
  split; [exact A3|]. split.
  - rewrite A4. f_equal. f_equal.
    destruct (c23_general gm _ cl ind sel tail sel' r B) as (_ & _ & ->). cbn [fst snd].
    rewrite <- !skipsum_nan_sum, Rows, !map_map. cbn [s_ultimate s_reserve]. unfold sumf. rewrite <- !skipsum_fin, !map_map. reflexivity.
  - split; [exact A5|]. intros i Hi. eexists. split.
    { rewrite Rows. rewrite nth_error_map, (nth_error_nth' _ 0) by (rewrite seq_length; auto). rewrite seq_nth by auto. reflexivity. }
    cbn [s_latest s_ultimate s_reserve option_map plus]. replace (n - (n - 1 - i)) with (S i) by lia. auto.
Qed.
