(** Proof of C09: cumulative tabular input. *)

From Coq Require Import String Ascii QArith Qcanon ZArith List Bool Lia Permutation Sorting.Sorted.
From Verif Require Import Val Frame Triangle QcLib ListLib Spec BuildFacts CumFacts FillFacts
  TotriFacts TblFacts TriClaims ConvFacts TriClaims2.
Import ListNotations.
Open Scope list_scope.
Open Scope nat_scope.

Definition fixnan (p : val * val) : val := if isnan (fst p) then snd p else fst p.
Definition incs (zs : list (Z * val)) : list val := map fixnan (combine (group_diff zs) (map snd zs)).

Lemma group_diff_from_length seen l : length (group_diff_from seen l) = length l.
Proof. revert seen. induction l as [|[o v] l IH]; intro seen; simpl; auto. Qed.

Lemma last_of_app o a b x : last_of o (a ++ b) x = last_of o b (last_of o a x).
Proof. revert x. induction a as [|[o' v] a IH]; intro x; simpl; auto. Qed.

Definition osum (o : Z) (s : list (Z * val)) : val := skipsum (map snd (filter (fun p => Z.eqb (fst p) o) s)).
Definition inv (seen seen' : list (Z * val)) : Prop :=
  forall o, (last_of o seen NaN = NaN /\ osum o seen' = Fin 0%Qc) \/
            (exists q, last_of o seen NaN = Fin q /\ osum o seen' = Fin q).

Lemma osum_app o a b : osum o (a ++ b) = vadd (osum o a) (osum o b).
Proof. unfold osum. rewrite filter_app, map_app, skipsum_app. auto. Qed.

Lemma cumsum_incs seen seen' zs : (forall p, In p zs -> exists q, snd p = Fin q) -> inv seen seen' ->
  group_cumsum_from seen' (combine (map fst zs) (map fixnan (combine (group_diff_from seen zs) (map snd zs))))
  = map snd zs.
Proof.
  revert seen seen'. induction zs as [|[o v] zs IH]; intros seen seen' F I; simpl; auto.
  destruct (F (o, v) (or_introl eq_refl)) as [x Hx]. simpl in Hx. subst v.
  set (inc := fixnan (vsub (Fin x) (last_of o seen NaN), Fin x)).
  assert (Hinc : exists y, inc = Fin y /\ vadd (osum o seen') (Fin y) = Fin x).
  { unfold inc. destruct (I o) as [[A B]|[q [A B]]]; rewrite A, B; simpl.
    - exists x. split; auto. rewrite Qcplus_0_l. auto.
    - exists (x - q)%Qc. split; auto. f_equal. ring. }
  destruct Hinc as (y & -> & Hy). cbn [isnan].
  assert (E : skipsum (map snd (filter (fun p => Z.eqb (fst p) o) (seen' ++ [(o, Fin y)]))) = Fin x).
  { fold (osum o (seen' ++ [(o, Fin y)])). rewrite osum_app, <- Hy. f_equal.
    unfold osum. simpl. rewrite Z.eqb_refl. simpl. rewrite Qcplus_0_r. auto. }
  rewrite E. f_equal. apply IH; [intros; apply F; right; auto|].
  intro o'. rewrite last_of_app, osum_app. simpl. unfold osum at 2 4. simpl.
  destruct (Z.eqb_spec o o').
  - subst o'. right. exists x. split; auto. simpl. rewrite Qcplus_0_r. auto.
  - simpl. rewrite vadd_0_r. apply I.
Qed.

Definition inc_recs (l : list rec) : list rec := combine (map fst l) (incs (map ov l)).

Lemma incs_length zs : length (incs zs) = length zs.
Proof.
  unfold incs. rewrite map_length, combine_length, map_length. unfold group_diff.
  rewrite group_diff_from_length. lia.
Qed.
Lemma inc_recs_keys l : map fst (inc_recs l) = map fst l.
Proof. apply map_fst_combine. rewrite incs_length, !map_length. auto. Qed.
Lemma inc_recs_v l : map r_v (inc_recs l) = incs (map ov l).
Proof. apply map_snd_combine. rewrite incs_length, !map_length. auto. Qed.
Lemma inc_recs_o l : map r_o (inc_recs l) = map r_o l.
Proof.
  transitivity (map fst (map fst (inc_recs l))); [symmetry; apply map_map|].
  rewrite inc_recs_keys. apply map_map.
Qed.
Lemma inc_recs_d l : map r_d (inc_recs l) = map r_d l.
Proof.
  transitivity (map snd (map fst (inc_recs l))); [symmetry; apply map_map|].
  rewrite inc_recs_keys. apply map_map.
Qed.

Lemma cum_inc_recs l : all_finite l -> cum_recs (inc_recs l) = l.
Proof.
  intro F. unfold cum_recs. rewrite inc_recs_keys.
  assert (E : cum_vals (inc_recs l) = map r_v l).
  { unfold cum_vals, group_cumsum.
    assert (Q : map ov (inc_recs l) = combine (map fst (map ov l))
       (map fixnan (combine (group_diff_from [] (map ov l)) (map snd (map ov l))))).
    { transitivity (combine (map r_o (inc_recs l)) (map r_v (inc_recs l))).
      - rewrite combine_map_lr. auto.
      - rewrite inc_recs_o, inc_recs_v. f_equal. rewrite map_map. auto. }
    rewrite Q, cumsum_incs.
    - rewrite map_map. auto.
    - intros p Hp. apply in_map_iff in Hp as (r & <- & Hr). destruct (F r Hr) as [q Hq]. exists q. auto.
    - intro o. left. auto. }
  rewrite E. clear. induction l as [|[k v] l IH]; simpl; auto. f_equal. auto.
Qed.

Lemma frename_self f a : frename f a a = f.
Proof.
  unfold frename. rewrite <- (map_id f) at 2. apply map_ext. intros [n c]. simpl.
  destruct (String.eqb_spec n a); subst; auto.
Qed.

Section C09.
  Variables (o d v : string).
  Hypothesis Hod : o <> d.
  Hypothesis Hov : o <> v.
  Hypothesis Hdv : d <> v.
  Hypothesis Hoc : o <> "cumval"%string.
  Hypothesis Hdc : d <> "cumval"%string.
  Hypothesis Hvc : v <> "cumval"%string.
  Hypothesis Ho1 : o <> "cum"%string.
  Hypothesis Hd1 : d <> "cum"%string.
  Hypothesis Ho2 : o <> "incr"%string.
  Hypothesis Hd2 : d <> "incr"%string.

  Lemma rename_cum f l : table_in f o d v l -> (v = "cum"%string \/ ~ In "cum"%string (map fst f)) ->
    table_in (frename f v "cum") o d "cum" l /\
    (v <> "cum"%string -> ~ In v (map fst (frename f v "cum"))).
  Proof.
    clear Hvc Hoc Hdc. intros (N & To & Td & Tv) H. split.
    - destruct (String.string_dec v "cum") as [->|Nv].
      + rewrite frename_self. repeat split; auto.
      + destruct H as [H|H]; [congruence|]. repeat split.
        * apply frename_nodup; auto.
        * apply frename_in_other; auto.
        * apply frename_in_other; auto.
        * apply frename_in; auto.
    - intros Nv Q. unfold frename in Q. rewrite map_map in Q. apply in_map_iff in Q as ([n c] & E & Hp).
      simpl in E. destruct (String.eqb_spec n v); simpl in E; congruence.
  Qed.

  Lemma incr_frame f1 l inc f2 : table_in f1 o d "cum" l -> (v <> "cum"%string -> ~ In v (map fst f1)) ->
    length inc = length l ->
    fdrop (fset f1 "incr" (VC inc)) "cum" = Ok f2 ->
    table_in (frename f2 "incr" v) o d v (combine (map fst l) inc).
  Proof.
    clear Hvc Hoc Hdc. intros (N & To & Td & Tv) Hv HL D. unfold fdrop in D.
    destruct (fhas (fset f1 "incr" (VC inc)) "cum"); [|discriminate]. inversion D; subst f2. clear D.
    set (g := fset f1 "incr" (VC inc)).
    assert (Ng : NoDup (map fst g)) by (apply fset_nodup; auto).
    assert (F : forall n c, n <> "cum"%string -> In (n, c) g ->
                In (n, c) (filter (fun p => negb (String.eqb (fst p) "cum")) g)).
    { intros n c Hn Hin. apply filter_In. split; auto. simpl.
      destruct (String.eqb_spec n "cum"); auto. }
    assert (Ek : map fst (combine (map fst l) inc) = map fst l)
      by (apply map_fst_combine; rewrite map_length; auto).
    assert (Ev : map r_v (combine (map fst l) inc) = inc)
      by (apply map_snd_combine; rewrite map_length; auto).
    assert (Eo : map r_o (combine (map fst l) inc) = map r_o l).
    { transitivity (map fst (map fst (combine (map fst l) inc))); [symmetry; apply map_map|].
      rewrite Ek. apply map_map. }
    assert (Ed : map r_d (combine (map fst l) inc) = map r_d l).
    { transitivity (map snd (map fst (combine (map fst l) inc))); [symmetry; apply map_map|].
      rewrite Ek. apply map_map. }
    unfold table_in. rewrite Eo, Ed, Ev. split.
    - destruct (String.string_dec v "incr") as [->|Nv].
      + rewrite frename_self. apply nodup_filter_keys; auto.
      + apply frename_nodup; [apply nodup_filter_keys; auto|].
        intro Q. apply in_map_iff in Q as (p & E & Hp). apply filter_In in Hp as [Hp Hn].
        destruct (String.eqb_spec (fst p) "cum"); [discriminate|].
        assert (Vc : v <> "cum"%string) by congruence. apply (Hv Vc).
        apply (in_map fst) in Hp. rewrite E in Hp. unfold g in Hp.
        destruct (in_dec String.string_dec "incr"%string (map fst f1)) as [I|I].
        * rewrite fset_keys_has in Hp; auto.
        * rewrite fset_keys_new in Hp; auto. apply in_app_iff in Hp. destruct Hp as [?|[?|[]]]; auto. congruence.
    - repeat split.
      + apply frename_in_other; auto. apply F; auto. apply fset_in_other; auto.
      + apply frename_in_other; auto. apply F; auto. apply fset_in_other; auto.
      + apply frename_in. apply F; [discriminate|]. apply fset_in_same; auto.
  Qed.

  Lemma totri_cumcum_inc f l : table_in f o d v l -> (v = "cum"%string \/ ~ In "cum"%string (map fst f)) ->
    l <> [] ->
    totri f "cum" "cum" "tabular" o d v = fill (mkTri (build (adjusted (cum_recs (inc_recs l)))) o d v).
  Proof.
    intros T Hc Hl. destruct (rename_cum f l T Hc) as [T1 Hv].
    unfold totri, totri_h, totri_frame. cbn [String.eqb Ascii.eqb Bool.eqb].
    change (strip_starts "c" "cum") with true. change (starts "i" "cum") with false.
    change (starts "c" "cum") with true. cbv iota. unfold halloc.
    change (hget [f] 0) with f. set (f1 := frename f v "cum") in *.
    assert (T1' := T1). destruct T1' as (N1 & To & Td & Tv).
    rewrite (fint_in _ _ _ N1 To), (fval_in _ _ _ N1 Tv). rewrite combine_map_lr.
    change (map (fun x => (r_o x, r_v x)) l) with (map ov l).
    assert (Ei : map (fun p => if isnan (fst p) then snd p else fst p)
                   (combine (group_diff (map ov l)) (map r_v l)) = incs (map ov l)).
    { unfold incs. rewrite map_map. reflexivity. }
    rewrite Ei.
    assert (Hd : exists f2, fdrop (fset f1 "incr" (VC (incs (map ov l)))) "cum" = Ok f2).
    { unfold fdrop. assert (E : fhas (fset f1 "incr" (VC (incs (map ov l)))) "cum" = true).
      { apply fhas_in. apply (fset_in_other f1 "incr" (VC (incs (map ov l)))) in Tv; [|discriminate].
        change "cum"%string with (fst ("cum"%string, VC (map r_v l))). apply in_map; auto. }
      rewrite E. eauto. }
    destruct Hd as [f2 E2]. rewrite E2.
    assert (T3 := incr_frame f1 l (incs (map ov l)) f2 T1 Hv
                    (eq_trans (incs_length _) (map_length _ _)) E2).
    fold (inc_recs l) in T3. set (f3 := frename f2 "incr" v) in *.
    set (h3 := hset ([f] ++ [f1]) (length [f]) _) in *.
    rewrite hget_last.
    set (h4 := h3 ++ [f3]).
    assert (E := cum_ctor_table o d v Hod Hov Hdv Hoc Hdc Hvc (h4 ++ [f3]) (length h4) f3 (inc_recs l)).
    rewrite hget_last in E. specialize (E eq_refl T3).
    destruct (cum_ctor (h4 ++ [f3]) (length h4) (Some o) (Some d) (Some v)) as [h5 [t|e]];
      cbn [snd] in E |- *.
    - assert (Q : Ok t = Ok (mkTri (build (adjusted (cum_recs (inc_recs l)))) o d v)).
      { apply E. intro Q. apply (f_equal (map fst)) in Q. rewrite inc_recs_keys in Q.
        destruct l; [congruence|discriminate]. }
      inversion Q. auto.
    - assert (Q : @Err tri e = Ok (mkTri (build (adjusted (cum_recs (inc_recs l)))) o d v)).
      { apply E. intro Q. apply (f_equal (map fst)) in Q. rewrite inc_recs_keys in Q.
        destruct l; [congruence|discriminate]. }
      discriminate.
  Qed.

  Lemma totri_cumcum f l : table_in f o d v l -> (v = "cum"%string \/ ~ In "cum"%string (map fst f)) ->
    l <> [] -> all_finite l ->
    totri f "cum" "cum" "tabular" o d v = fill (mkTri (build (adjusted l)) o d v).
  Proof.
    intros T Hc Hl F. rewrite (totri_cumcum_inc f l T Hc Hl), cum_inc_recs; auto.
  Qed.

  Lemma c09 f l : table_in f o d v l -> (v = "cum"%string \/ ~ In "cum"%string (map fst f)) ->
    l <> [] -> all_finite l -> NoDup (map fst l) ->
    exists ob, totri f "cum" "cum" "tabular" o d v = Ok ob /\
      distinct_sorted (m_idx (t_mat (ob_tri ob))) (map r_o l) /\
      distinct_sorted (m_cols (t_mat (ob_tri ob))) (map r_d l) /\
      forall r, In r l ->
        (~ (first_dev l (r_d r) /\ vleb (r_v r) (Fin 0%Qc) = true) ->
          cell_at (t_mat (ob_tri ob)) (r_o r) (r_d r) = Some (r_v r)) /\
        (first_dev l (r_d r) /\ vleb (r_v r) (Fin 0%Qc) = true ->
          cell_at (t_mat (ob_tri ob)) (r_o r) (r_d r) = Some (Fin 1%Qc)).
  Proof.
    intros T Hc Hl F ND. rewrite (totri_cumcum f l T Hc Hl F).
    assert (H := build_holds (adjusted l)). rewrite adjusted_o, adjusted_d in H.
    fold (os_of l) (ds_of l) in H. rewrite (holds_mk _ _ _ _ H).
    assert (NI : no_inf (adjusted l)) by (apply adjusted_noinf, all_finite_noinf; auto).
    assert (Rc : forall og dv, recorded (adjusted l) og dv <-> recorded l og dv).
    { intros. unfold recorded. rewrite adjusted_keys. tauto. }
    assert (Cd : forall dv, In dv (ds_of l) -> exists og, In og (os_of l) /\ cell_total (adjusted l) og dv <> NaN).
    { intros dv Hdv'. destruct (ds_recorded _ _ Hdv') as (og & R). exists og.
      split; [eapply recorded_os; eauto|]. destruct (cell_total_fin (adjusted l) og dv NI) as [q ->].
      apply Rc; auto. discriminate. }
    destruct (fill_mk (os_of l) (ds_of l) o d v
       (fun i j => cell_total (adjusted l) (nth i (os_of l) 0%Z) (nth j (ds_of l) 0%Z))
       (lastrow (os_of l) (ds_of l) (cell_total (adjusted l)))) as (c & E & _).
    - apply os_nonempty; auto.
    - apply ds_nonempty; auto.
    - intros. apply lastrow_spec; auto.
    - rewrite E. eexists. split; [reflexivity|]. cbn [ob_tri t_mat m_idx m_cols].
      split; [apply zuniq_distinct|]. split; [apply zuniq_distinct|].
      intros r Hr.
      assert (R : recorded l (r_o r) (r_d r)).
      { unfold recorded. apply in_map_iff. exists r. split; auto. destruct r as [[? ?] ?]; auto. }
      assert (C : cell_at (mkMat (os_of l) (ds_of l) (mk (length (os_of l)) (length (ds_of l))
         (fun i => fillc ((fun i j => cell_total (adjusted l) (nth i (os_of l) 0%Z) (nth j (ds_of l) 0%Z)) i)
            (fun j => lastrow (os_of l) (ds_of l) (cell_total (adjusted l)) j <? i)))) (r_o r) (r_d r)
         = Some (cell_total (adjusted l) (r_o r) (r_d r))).
      { destruct (label_pos _ _ (recorded_os _ _ _ R)) as (i & Hi & Ei).
        destruct (label_pos _ _ (recorded_ds _ _ _ R)) as (j & Hj & Ej). rewrite Ei, Ej.
        rewrite cell_at_mk; auto using zsorted_nodup, os_sorted, ds_sorted. f_equal.
        rewrite fillc_keep; auto. rewrite <- Ei, <- Ej.
        destruct (cell_total_fin (adjusted l) (r_o r) (r_d r) NI) as [q ->]; [apply Rc; auto|discriminate]. }
      rewrite C.
      set (x := if is_first_dev l r && vleb (r_v r) (Fin 0%Qc) then Fin 1%Qc else r_v r).
      assert (V : cell_total (adjusted l) (r_o r) (r_d r) = x).
      { unfold cell_total. rewrite (values_at_nodup (adjusted l) (r_o r) (r_d r) x).
        - unfold x. destruct (F r Hr) as [q ->]. destruct (is_first_dev l r && vleb (Fin q) (Fin 0%Qc)); apply vadd_0_r.
        - rewrite adjusted_keys; auto.
        - unfold adjusted. apply in_map_iff. exists r. split; auto. unfold x. destruct r as [[? ?] ?]; auto. }
      rewrite V. unfold x.
      assert (FD := is_first_dev_spec l r (in_map r_d _ _ Hr)).
      destruct (is_first_dev l r), (vleb (r_v r) (Fin 0%Qc)); simpl; split; auto.
      + intro W. exfalso. apply W. split; auto. apply FD; auto.
      + intros [_ W]; discriminate.
      + intros [W _]. apply FD in W. discriminate.
      + intros [_ W]; discriminate.
  Qed.
End C09.
