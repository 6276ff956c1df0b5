(** Proofs of C04 (part), C07-C10, C14. *)

From Coq Require Import String Ascii QArith Qcanon ZArith List Bool Lia Permutation Sorting.Sorted.
From Verif Require Import Val Frame Triangle QcLib ListLib Spec BuildFacts CumFacts FillFacts
  TotriFacts TblFacts TriClaims ConvFacts.
Import ListNotations.
Open Scope list_scope.
Open Scope nat_scope.

(** ** [fill] without gaps *)

Definition lastrow (os ds : list Z) (f : Z -> Z -> val) (j : nat) : nat :=
  match last_valid (map (fun i => f (nth i os 0%Z) (nth j ds 0%Z)) (seq 0 (length os))) with
  | Some k => k | None => 0
  end.

Lemma lastrow_spec os ds f j : (forall d, In d ds -> exists o, In o os /\ f o d <> NaN) ->
  j < length ds -> col_last (length os) (fun i j => f (nth i os 0%Z) (nth j ds 0%Z)) (lastrow os ds f) j.
Proof.
  intros Cd Hj. unfold col_last, lastrow. destruct (last_valid _) as [k|] eqn:E.
  - apply last_valid_map_seq in E. auto.
  - exfalso. destruct (Cd (nth j ds 0%Z)) as (o & Ho & N); [apply nth_In; auto|].
    destruct (label_pos _ _ Ho) as (i & Hi & ->). apply N.
    assert (Q := proj1 (last_valid_none _) E i).
    rewrite nth_map_seq in Q by auto. exact Q.
Qed.

Lemma fill_id os ds f o d v m : os <> [] -> ds <> [] -> holds m os ds f ->
  (forall d, In d ds -> exists o, In o os /\ f o d <> NaN) ->
  (forall i, i < length os -> f (nth i os 0%Z) (nth 0 ds 0%Z) <> NaN) ->
  (forall i i' j, i <= i' -> i' < length os -> j < length ds ->
     f (nth i' os 0%Z) (nth j ds 0%Z) <> NaN -> f (nth i os 0%Z) (nth j ds 0%Z) <> NaN) ->
  exists c, fill (mkTri m o d v) = Ok (mkObj (mkTri m o d v) c) /\
    (1 < length ds -> c = Some (map (lastrow os ds f) (seq 0 (length ds)))).
Proof.
  intros No Nd H Cd F0 FC. rewrite (holds_mk _ _ _ _ H).
  destruct (fill_mk os ds o d v (fun i j => f (nth i os 0%Z) (nth j ds 0%Z)) (lastrow os ds f))
    as (c & E & Hc).
  - destruct os; [congruence|simpl; lia].
  - destruct ds; [congruence|simpl; lia].
  - intros. apply lastrow_spec; auto.
  - exists c. split; auto. rewrite E. do 4 f_equal. apply mk_ext. intros i j Hi Hj.
    destruct (isnan (f (nth i os 0%Z) (nth j ds 0%Z))) eqn:Q.
    + apply isnan_true in Q. assert (j <> 0). { intro; subst. apply (F0 i Hi); auto. }
      apply fillc_below; [lia|]. destruct (lastrow_spec os ds f j Cd Hj) as (A & B & C).
      apply Nat.ltb_lt. destruct (Nat.le_gt_cases i (lastrow os ds f j)); auto.
      exfalso. apply (FC i (lastrow os ds f j) j); auto.
    + apply fillc_keep. apply isnan_false; auto.
Qed.

Lemma runoff_first os ds f i : zsorted ds -> runoff os ds f -> i < length os ->
  f (nth i os 0%Z) (nth 0 ds 0%Z) <> NaN.
Proof.
  intros Sd (G & _ & Co & _) Hi. destruct (Co (nth i os 0%Z)) as (d & Hd & N); [apply nth_In; auto|].
  destruct (label_pos _ _ Hd) as (j & Hj & ->). apply (gap_pos os ds Sd f i j 0); auto. lia.
Qed.
Lemma runoff_col os ds f i i' j : zsorted os -> runoff os ds f -> i <= i' -> i' < length os -> j < length ds ->
  f (nth i' os 0%Z) (nth j ds 0%Z) <> NaN -> f (nth i os 0%Z) (nth j ds 0%Z) <> NaN.
Proof.
  intros So (_ & G & _) Hi Hi' Hj N. destruct (Nat.eq_dec i i'); [subst; auto|].
  apply (G _ (nth i' os 0%Z)); auto; try (apply nth_In; lia). apply zsorted_nth_lt; auto; lia.
Qed.

(** ** Incremental triangle, then cumulated *)

Lemma running_total_cells l os ds o d : zsorted os -> zsorted ds -> In o os ->
  (forall r, In r l -> In (r_d r) ds) -> all_finite l ->
  running_total (tbl os ds (cell_total l)) o d = running_total l o d.
Proof.
  intros So Sd Ho Hds F. rewrite running_total_tbl by auto.
  assert (G : forall w, NoDup w ->
     nan_sum (map (cell_total l o) w)
     = nan_sum (map r_v (filter (fun r => (r_o r =? o)%Z && existsb (Z.eqb (r_d r)) w) l))).
  { induction 1 as [|x w Hx N IH].
    - simpl. rewrite filter_none; auto. intros r _. apply andb_false_r.
    - cbn [map]. change (cell_total l o x :: map (cell_total l o) w)
        with ([cell_total l o x] ++ map (cell_total l o) w).
      rewrite nan_sum_app, IH.
      assert (P : Permutation (filter (fun r => (r_o r =? o)%Z && existsb (Z.eqb (r_d r)) (x :: w)) l)
         (filter (fun r => (r_o r =? o)%Z && (r_d r =? x)%Z) l ++
          filter (fun r => (r_o r =? o)%Z && existsb (Z.eqb (r_d r)) w) l)).
      { clear -Hx. induction l as [|r l IH]; simpl; auto.
        destruct (r_o r =? o)%Z; simpl; auto.
        destruct (r_d r =? x)%Z eqn:E; simpl.
        - apply Z.eqb_eq in E. subst x.
          assert (Q : existsb (Z.eqb (r_d r)) w = false).
          { apply not_true_is_false. intro Q. apply existsb_exists in Q as (y & Hy & E).
            apply Z.eqb_eq in E. subst. auto. }
          rewrite Q. constructor. auto.
        - destruct (existsb (Z.eqb (r_d r)) w); auto. apply Permutation_cons_app. auto. }
      rewrite (nan_sum_perm _ _ (Permutation_map r_v P)), map_app, nan_sum_app. f_equal.
      unfold cell_total, values_at.
      set (q := map r_v _). destruct (nan_sum_fin q) as [z Hz].
      { intros v Hv. apply in_map_iff in Hv as (r & <- & Hr). apply filter_In in Hr as [Hr _]. auto. }
      destruct q as [|y q']; auto. change (nan_sum [nan_sum (y :: q')] = nan_sum (y :: q')).
      rewrite Hz. simpl. rewrite Qcplus_0_r. auto. }
  rewrite G; [|apply NoDup_filter, zsorted_nodup; auto].
  unfold running_total. f_equal. f_equal. apply filter_ext_in'. intros r Hr. f_equal.
  apply eq_true_iff_eq. rewrite existsb_exists. split.
  - intros (x & Hx & E). apply Z.eqb_eq in E. subst. apply filter_In in Hx. tauto.
  - intro H. exists (r_d r). rewrite Z.eqb_refl. split; auto. apply filter_In. auto.
Qed.

Lemma first_dev_os l : first_dev l = fun d => In d (map r_d l) /\ forall d', In d' (map r_d l) -> (d <= d')%Z.
Proof. reflexivity. Qed.

Lemma adjusted_positive l : positive_first_values l -> adjusted l = l.
Proof.
  intro P. apply adjusted_id. intros r Hr F. apply vltb_0. apply P; auto.
  apply is_first_dev_spec; auto. apply in_map; auto.
Qed.

Lemma cell_total_nan l o d : all_finite l -> (cell_total l o d = NaN <-> ~ recorded l o d).
Proof.
  intro F. split.
  - intros H R. destruct (cell_total_fin l o d) as [q Q]; auto using all_finite_noinf. congruence.
  - intro R. unfold cell_total. assert (E : values_at l o d = []) by (apply values_at_nil; auto).
    rewrite E. auto.
Qed.

Lemma vltb_0_sum vs : (forall v, In v vs -> exists q, v = Fin q /\ (0 < q)%Qc) -> vs <> [] ->
  exists q, nan_sum vs = Fin q /\ (0 < q)%Qc.
Proof.
  induction vs as [|v vs IH]; intros H N; [congruence|].
  destruct (H v (or_introl eq_refl)) as (q & -> & Hq). destruct vs as [|w vs].
  - exists q. simpl. rewrite Qcplus_0_r. auto.
  - destruct IH as (p & Hp & Pp); [intros; apply H; right; auto|discriminate|].
    exists (q + p)%Qc. split; [|qlra]. change (nan_sum (Fin q :: w :: vs)) with (vadd (Fin q) (nan_sum (w :: vs))).
    rewrite Hp. auto.
Qed.

Lemma table_shape l : l <> [] -> all_finite l -> positive_first_values l ->
  finite_cells (os_of l) (ds_of l) (cell_total l) /\ covered (os_of l) (ds_of l) (cell_total l) /\
  positive_first (os_of l) (ds_of l) (cell_total l).
Proof.
  intros Hl F P. split; [|split].
  - intros o d _ _. destruct (recorded_dec l o d) as [R|R].
    + right. apply cell_total_fin; auto using all_finite_noinf.
    + left. apply cell_total_nan; auto.
  - split.
    + intros o Ho. unfold os_of in Ho. rewrite zuniq_in in Ho. apply in_map_iff in Ho as (r & <- & Hr).
      exists (r_d r). split; [apply zuniq_in, in_map; auto|]. rewrite cell_total_nan by auto.
      intro N. apply N. unfold recorded. apply in_map_iff. exists r. split; auto. destruct r as [[? ?] ?]; auto.
    + intros d Hd. destruct (ds_recorded _ _ Hd) as (o & R). exists o.
      split; [eapply recorded_os; eauto|]. rewrite cell_total_nan by auto. auto.
  - intros o d _ Hd H. destruct (recorded_dec l o d) as [R|R]; [right|left; apply cell_total_nan; auto].
    assert (FD : first_dev l d).
    { unfold ds_of in Hd. rewrite zuniq_in in Hd. split; auto. intros d' Hd'. apply H. apply zuniq_in; auto. }
    unfold cell_total. destruct (values_at l o d) eqn:E.
    + apply values_at_nil in E. contradiction.
    + rewrite <- E. destruct (vltb_0_sum (values_at l o d)) as (q & -> & Hq).
      * intros x Hx. unfold values_at in Hx. apply in_map_iff in Hx as (r & <- & Hr).
        apply filter_In in Hr as [Hr Er]. apply andb_true_iff in Er as [_ Er]. apply Z.eqb_eq in Er. subst d.
        destruct (F r Hr) as [q Q]. exists q. split; auto. specialize (P r Hr FD). rewrite Q in P.
        apply qcltb_lt in P. auto.
      * congruence.
      * simpl. apply qcltb_lt. auto.
Qed.

(** The incremental triangle of a table, cumulated. *)
Lemma incr_to_cum f l : table_in f "origin" "dev" "value" l -> l <> [] -> all_finite l ->
  positive_first_values l ->
  exists ob m, totri f "incr" "incr" "tabular" "origin" "dev" "value" = Ok ob /\
    to_cum (ob_tri ob) = Ok (mkTri m "origin" "dev" "value") /\
    holds m (os_of l) (ds_of l)
      (fun o d => if isnan (cell_total l o d) then NaN else running_total l o d).
Proof.
  intros T Hl F P. eexists.
  assert (H := build_holds l). fold (os_of l) (ds_of l) in H.
  destruct (table_shape l Hl F P) as (A & B & C).
  destruct (to_cum_holds (os_of l) (ds_of l) (os_sorted l) (ds_sorted l) (build l) (cell_total l))
    as (m & E & Hm); auto.
  { intro Q. assert (X := os_nonempty l Hl). rewrite Q in X. simpl in X. lia. }
  exists m. split; [|split].
  - rewrite (totri_incr_table "origin" "dev" "value") with (l := l); try discriminate; auto.
  - cbn [ob_tri]. rewrite adjusted_positive by auto. exact E.
  - eapply holds_ext_pos; [exact Hm|]. intros i j Hi Hj. unfold cumc.
    destruct (isnan _); auto. apply running_total_cells; auto using os_sorted, ds_sorted.
    + apply nth_In; auto.
    + intros r Hr. apply zuniq_in. apply in_map; auto.
Qed.

Lemma running_total_concat bs o d :
  running_total (List.concat bs) o d = val_sum (map (fun b => running_total b o d) bs).
Proof.
  unfold running_total. induction bs as [|b bs IH]; simpl; auto.
  rewrite filter_app, map_app, nan_sum_app, IH. auto.
Qed.

Lemma c04 f bs : table_in f "origin" "dev" "value" (List.concat bs) -> List.concat bs <> [] ->
  all_finite (List.concat bs) -> positive_first_values (List.concat bs) ->
  exists ob t, totri f "incr" "incr" "tabular" "origin" "dev" "value" = Ok ob /\
    to_cum (ob_tri ob) = Ok t /\
    forall o d, recorded (List.concat bs) o d ->
      cell_at (t_mat t) o d = Some (val_sum (map (fun b => running_total b o d) bs)).
Proof.
  intros T Hl F P. destruct (incr_to_cum f _ T Hl F P) as (ob & m & E1 & E2 & H).
  exists ob, (mkTri m "origin" "dev" "value"). split; auto. split; auto. intros o d R. cbn [t_mat].
  rewrite <- running_total_concat.
  rewrite (holds_cell_at _ _ _ _ o d H); eauto using recorded_os, recorded_ds.
  f_equal. destruct (isnan (cell_total (List.concat bs) o d)) eqn:Q; auto.
  apply isnan_true in Q. apply cell_total_nan in Q; auto. contradiction.
Qed.

Lemma c08 f l : table_in f "origin" "dev" "value" l -> l <> [] -> all_finite l -> dev_sorted l ->
  positive_first_values l -> no_gaps l ->
  exists ob ob' t, totri f "incr" "incr" "tabular" "origin" "dev" "value" = Ok ob /\
    totri f "cum" "incr" "tabular" "origin" "dev" "value" = Ok ob' /\
    to_cum (ob_tri ob) = Ok t /\ t = ob_tri ob'.
Proof.
  intros T Hl F S P NG. destruct (incr_to_cum f _ T Hl F P) as (ob & m & E1 & E2 & H).
  destruct (totri_cum_mk "origin" "dev" "value" f l) as (c & E3 & _); try discriminate; auto using all_finite_noinf.
  exists ob. eexists. exists (mkTri m "origin" "dev" "value"). split; auto. split; [exact E3|]. split; auto.
  cbn [ob_tri]. f_equal. rewrite (holds_mk _ _ _ _ H). f_equal. apply mk_ext. intros i j Hi Hj.
  assert (NI := all_finite_noinf _ F).
  destruct (isnan (cell_total l (nth i (os_of l) 0%Z) (nth j (ds_of l) 0%Z))) eqn:Q.
  - apply isnan_true in Q. apply cell_total_nan in Q; auto.
    assert (N : ~ (first_dev l (nth j (ds_of l) 0%Z) \/ is_actual l (nth i (os_of l) 0%Z) (nth j (ds_of l) 0%Z))).
    { intro Z. apply Q, NG; auto; rewrite <- zuniq_in; apply nth_In; auto. }
    unfold fcell. symmetry. rewrite fillc_below.
    + apply ucell_unrecorded; auto.
    + destruct j; [|lia]. exfalso. apply N. left. split.
      * rewrite <- zuniq_in. apply nth_In; auto.
      * intros d' Hd'. rewrite <- zuniq_in in Hd'. change (In d' (ds_of l)) in Hd'.
        destruct (label_pos _ _ Hd') as (k & Hk & ->). apply zsorted_nth_le; auto using ds_sorted; lia.
    + apply Nat.ltb_lt. destruct (Nat.le_gt_cases i (lastpos l j)); auto. exfalso. apply N. right.
      apply actual_pos; auto.
  - apply isnan_false in Q. assert (R : recorded l (nth i (os_of l) 0%Z) (nth j (ds_of l) 0%Z)).
    { destruct (recorded_dec l (nth i (os_of l) 0%Z) (nth j (ds_of l) 0%Z)); auto.
      exfalso. apply Q. apply cell_total_nan; auto. }
    unfold fcell. rewrite fillc_keep; [|apply ucell_nan; auto].
    unfold ucell. rewrite cum_cell_sorted by auto. unfold cum_cell.
    destruct (first_devb l (nth j (ds_of l) 0%Z)) eqn:FD; auto.
    assert (D : In (nth j (ds_of l) 0%Z) (map r_d l)) by (rewrite <- zuniq_in; apply nth_In; auto).
    apply first_devb_spec in FD; auto.
    destruct (vltb_0_sum (map r_v (filter (fun r => (r_o r =? nth i (os_of l) 0)%Z && (r_d r <=? nth j (ds_of l) 0)%Z) l)))
      as (q & E & Hq).
    + intros x Hx. apply in_map_iff in Hx as (r & <- & Hr). apply filter_In in Hr as [Hr Er].
      apply andb_true_iff in Er as [_ Er]. apply Z.leb_le in Er.
      assert (Z : r_d r = nth j (ds_of l) 0%Z).
      { destruct FD as [_ FD]. specialize (FD (r_d r) (in_map r_d _ _ Hr)). lia. }
      destruct (F r Hr) as [q Q']. exists q. split; auto.
      assert (W := P r Hr). rewrite Z in W. specialize (W FD). rewrite Q' in W. apply qcltb_lt in W. auto.
    + apply recorded_split in R as (a & r & b & -> & Er). rewrite filter_app. simpl.
      assert (X1 : r_o r = nth i (os_of (a ++ r :: b)) 0%Z) by (unfold r_o; rewrite Er; auto).
      assert (X2 : r_d r = nth j (ds_of (a ++ r :: b)) 0%Z) by (unfold r_d; rewrite Er; auto).
      rewrite X1, X2, Z.eqb_refl, Z.leb_refl. simpl. rewrite map_app. simpl.
      intro Z. apply app_eq_nil in Z as [_ Z]. discriminate.
    + unfold running_total. rewrite E. cbv [andb].
      assert (W : vleb (Fin q) (Fin 0%Qc) = false) by (apply vltb_0; simpl; apply qcltb_lt; auto).
      rewrite W. auto.
Qed.

(** ** Triangle-shaped input *)

Lemma totri_tri_incr m nm tt df os ds f : os <> [] -> zsorted os -> zsorted ds ->
  holds m os ds f -> covered os ds f -> positive_first os ds f ->
  (nm = None \/ nm = Some "origin"%string) ->
  starts "i"%char tt = true -> strip_starts "i"%char df = true ->
  totri_tri m nm tt df "triangle" "origin" "dev" "value" = Ok (mkObj (mkTri m "origin" "dev" "value") None).
Proof.
  intros No So Sd H C P Hn Ht Hd. unfold totri_tri, totri_h, totri_frame.
  cbn [String.eqb Ascii.eqb Bool.eqb]. rewrite Hd.
  replace (match nm with None => true | Some s => String.eqb s "origin" end) with true
    by (destruct Hn as [-> | ->]; reflexivity).
  unfold tri_shape_recs. rewrite (sorted_melt m os ds f) by auto. unfold halloc. rewrite Ht.
  unfold incr_ctor. cbn [dflt].
  rewrite (base_ctor_table "origin" "dev" "value") with
    (f := recs_frame "origin" "dev" "value" (tbl os ds f)) (l := tbl os ds f); try discriminate; auto.
  - cbn [snd]. do 3 f_equal. rewrite adjusted_tbl by auto.
    apply (holds_unique _ _ os ds f); auto. apply build_tbl; auto.
  - apply recs_frame_table; discriminate.
  - apply tbl_nonempty; auto.
Qed.

Lemma totri_tri_cum m nm tt df os ds f : os <> [] -> zsorted os -> zsorted ds ->
  holds m os ds f -> runoff os ds f -> finite_cells os ds f -> positive_first os ds f ->
  (nm = None \/ nm = Some "origin"%string) ->
  starts "i"%char tt = false -> starts "c"%char tt = true ->
  strip_starts "i"%char df = false -> strip_starts "c"%char df = true ->
  exists ob, totri_tri m nm tt df "triangle" "origin" "dev" "value" = Ok ob /\
    ob_tri ob = mkTri m "origin" "dev" "value".
Proof.
  intros No So Sd H R F P Hn Ht Ht' Hd Hd'. assert (R' := R). destruct R' as (G & Gc & C).
  unfold totri_tri, totri_h, totri_frame.
  cbn [String.eqb Ascii.eqb Bool.eqb]. rewrite Hd, Hd'.
  replace (match nm with None => true | Some s => String.eqb s "origin" end) with true
    by (destruct Hn as [-> | ->]; reflexivity).
  unfold tri_shape_recs.
  rewrite (sorted_melt _ os ds (dif ds f)) by (auto; apply diff_holds; auto using zsorted_nodup).
  unfold halloc. rewrite Ht, Ht'.
  set (fr := recs_frame "origin" "dev" "value" (tbl os ds (dif ds f))).
  set (h := ([] ++ [fr]) ++ [hget ([] ++ [fr]) (length (@nil frame))]).
  assert (E : snd (cum_ctor h (length ([] ++ [fr])) (Some "origin"%string) (Some "dev"%string) (Some "value"%string))
     = Ok (mkTri (build (adjusted (cum_recs (tbl os ds (dif ds f))))) "origin" "dev" "value")).
  { apply (cum_ctor_table "origin" "dev" "value") with (f := fr); try discriminate; auto.
    - apply recs_frame_table; discriminate.
    - apply tbl_nonempty; auto using dif_covered. }
  destruct (cum_ctor h _ _ _ _) as [h3 [t|e]]; cbn [snd] in E; [|discriminate].
  inversion E; subst t. cbn [snd].
  assert (Hb := cum_build os ds So Sd (dif ds f) (dif_finite os ds Sd f G F) (dif_covered os ds Sd f G F C)
                  (dif_positive os ds Sd f P)).
  assert (Em : build (adjusted (cum_recs (tbl os ds (dif ds f)))) = m).
  { apply (holds_unique _ _ os ds f); auto. eapply holds_ext_pos; [exact Hb|].
    intros. apply cumc_dif; auto. }
  rewrite Em. destruct (fill_id os ds f "origin" "dev" "value" m) as (c & Ef & _); auto.
  - intro Q. subst ds. destruct os as [|o os']; [congruence|]. destruct C as [Co _].
    destruct (Co o (or_introl eq_refl)) as (d & [] & _).
  - destruct C; auto.
  - intros. apply runoff_first; auto.
  - intros. apply (runoff_col os ds f i i' j); auto.
  - rewrite Ef. eexists. split; [reflexivity|]. auto.
Qed.

(** ** C14 *)

Lemma c14_list m os ds f v' : zsorted os -> zsorted ds -> holds m os ds f ->
  let l := to_tbl_recs m true in
  to_tbl (mkTri m "origin" v' "value") true = Ok (recs_frame "origin" v' "value" l) /\
  StronglySorted (fun a b => (r_o a < r_o b \/ r_o a = r_o b /\ r_d a < r_d b)%Z) l /\
  (forall o d x, In ((o, d), x) l <-> In o os /\ In d ds /\ x = f o d /\ x <> NaN).
Proof.
  intros So Sd H l. split; [reflexivity|]. unfold l. rewrite (to_tbl_recs_tbl m os ds f) by auto. split.
  - assert (K := tbl_sorted os ds f So Sd). unfold ksorted in K.
    revert K. generalize (tbl os ds f). induction l0 as [|r w IH]; simpl; intro K; constructor.
    + apply IH. inversion K; auto.
    + inversion K as [|? ? ? Fa]; subst. rewrite Forall_forall in *. intros q Hq.
      specialize (Fa (fst q) (in_map fst _ _ Hq)). apply kcmp_lt in Fa. exact Fa.
  - intros o d x. rewrite in_tbl. reflexivity.
Qed.

Lemma c14_all m os ds f dev value : zsorted os -> zsorted ds -> holds m os ds f ->
  to_tbl (mkTri m "origin" dev value) false
  = Ok (recs_frame "origin" dev value (flat_map (fun o => map (fun d => ((o, d), f o d)) ds) os)).
Proof. intros So Sd H. unfold to_tbl. cbn [t_o t_d t_v t_mat String.eqb]. rewrite (to_tbl_all m os ds f H So Sd). reflexivity. Qed.

Lemma c14_rebuild m os ds f : os <> [] -> zsorted os -> zsorted ds -> holds m os ds f ->
  covered os ds f -> positive_first os ds f ->
  exists fr, to_tbl (mkTri m "origin" "dev" "value") true = Ok fr /\
   totri fr "incr" "incr" "tabular" "origin" "dev" "value" = Ok (mkObj (mkTri m "origin" "dev" "value") None).
Proof.
  intros No So Sd H C P. eexists. split; [reflexivity|].
  cbn [t_o t_d t_v t_mat]. rewrite (to_tbl_recs_tbl m os ds f) by auto.
  rewrite (totri_incr_table "origin" "dev" "value") with (l := tbl os ds f); try discriminate; auto.
  - do 3 f_equal. rewrite adjusted_tbl by auto. apply (holds_unique _ _ os ds f); auto. apply build_tbl; auto.
  - apply recs_frame_table; discriminate.
  - apply tbl_nonempty; auto.
Qed.
