(** When incremental-then-cumulated and cumulative triangles agree (C08), for all finite tables in development order. *)

From Coq Require Import String Ascii QArith Qcanon ZArith List Bool Lia Permutation Sorting.Sorted.
From Verif Require Import Val Frame Triangle QcLib ListLib Spec SpecCum BuildFacts CumFacts FillFacts
  TotriFacts TblFacts TriClaims ConvFacts TriClaims2 TriClaims3 TriClaims5 CumExact CumTabClaims.
Import ListNotations.
Open Scope list_scope.
Open Scope nat_scope.

Definition adjv (l : list rec) (r : rec) : val :=
  if is_first_dev l r && vleb (r_v r) (Fin 0%Qc) then Fin 1%Qc else r_v r.

Lemma adjusted_map l : adjusted l = map (fun r => (fst r, adjv l r)) l.
Proof. reflexivity. Qed.
Lemma adjusted_fd l r r' : r_d r = r_d r' -> is_first_dev (adjusted l) r = is_first_dev l r'.
Proof. intro E. apply first_dev_ext; auto. apply adjusted_d. Qed.
Lemma adjusted_twice l : adjusted (adjusted l) = adjusted l.
Proof.
  transitivity (map (fun r => r) (adjusted l)); [|apply map_id].
  unfold adjusted at 1. apply map_ext_in. intros r Hr. rewrite adjusted_map in Hr.
  apply in_map_iff in Hr as (p & <- & Hp). cbn [fst].
  rewrite (adjusted_fd l (fst p, adjv l p) p) by reflexivity. cbn [r_v snd]. unfold adjv.
  destruct (is_first_dev l p) eqn:E; cbn [andb]; auto.
  destruct (vleb (r_v p) (Fin 0%Qc)) eqn:W; auto. rewrite W. auto.
Qed.
Lemma adjusted_finite l : all_finite l -> all_finite (adjusted l).
Proof.
  intros F r Hr. rewrite adjusted_map in Hr. apply in_map_iff in Hr as (p & <- & Hp). cbn [r_v snd]. unfold adjv.
  destruct (_ && _); eauto.
Qed.
Lemma adjusted_positive_first l : all_finite l -> positive_first_values (adjusted l).
Proof.
  intros F r Hr FD. assert (Hr' := Hr). rewrite adjusted_map in Hr. apply in_map_iff in Hr as (p & <- & Hp).
  assert (D : is_first_dev (adjusted l) (fst p, adjv l p) = true).
  { apply is_first_dev_spec; auto. apply in_map; auto. }
  rewrite (adjusted_fd l _ p) in D by reflexivity. cbn [r_v snd]. unfold adjv. rewrite D. cbn [andb].
  destruct (vleb (r_v p) (Fin 0%Qc)) eqn:W; auto. destruct (F p Hp) as [q E]. rewrite E in *. cbn in *.
  apply qcltb_lt. destruct (qcleb_spec q 0); [congruence|]. apply Qcnot_le_lt; auto.
Qed.

Lemma adjusted_total l o d : recorded l o d -> all_finite l ->
  isnan (cell_total (adjusted l) o d) = false.
Proof.
  intros R F. destruct (cell_total_fin (adjusted l) o d) as [q ->]; auto.
  - apply adjusted_noinf, all_finite_noinf; auto.
  - unfold recorded. rewrite adjusted_keys. auto.
Qed.

Lemma incr_to_cum_all f l : table_in f "origin" "dev" "value" l -> l <> [] -> all_finite l ->
  exists ob m, totri f "incr" "incr" "tabular" "origin" "dev" "value" = Ok ob /\
    to_cum (ob_tri ob) = Ok (mkTri m "origin" "dev" "value") /\
    holds m (os_of l) (ds_of l)
      (fun o d => if isnan (cell_total (adjusted l) o d) then NaN else running_total (adjusted l) o d).
Proof.
  intros T Hl F.
  set (g := [("origin"%string, ZC (map r_o (adjusted l))); ("dev"%string, ZC (map r_d (adjusted l))); ("value"%string, VC (map r_v (adjusted l)))]).
  assert (Ng : adjusted l <> []) by (destruct l; [congruence|discriminate]).
  destruct (incr_to_cum g (adjusted l)) as (ob & m & E1 & E2 & H); auto using adjusted_finite, adjusted_positive_first.
  { apply table_any; discriminate. }
  exists ob, m. split; [|split; [exact E2|]].
  - rewrite (totri_incr_table "origin" "dev" "value") with (l := l); try discriminate; auto.
    rewrite (totri_incr_table "origin" "dev" "value") with (l := adjusted l) in E1; try discriminate; auto.
    + rewrite adjusted_twice in E1. exact E1.
    + apply table_any; discriminate.
  - unfold os_of, ds_of in *. rewrite adjusted_o, adjusted_d in H. exact H.
Qed.

Lemma running_adjusted l o d :
  running_total (adjusted l) o d = nan_sum (map (adjv l) (filter (fun r => (r_o r =? o)%Z && (r_d r <=? d)%Z) l)).
Proof.
  unfold running_total. f_equal. rewrite adjusted_map. generalize (adjv l). intro g.
  induction l as [|r l IH]; auto. cbn [map filter]. unfold r_o at 1, r_d at 1. cbn [fst].
  fold (r_o r) (r_d r). destruct ((r_o r =? o)%Z && (r_d r <=? d)%Z); cbn [map]; rewrite IH; auto.
Qed.

Lemma nan_sum_le (g h : rec -> val) s : (forall r, In r s -> exists a b, g r = Fin a /\ h r = Fin b /\ (a <= b)%Qc) ->
  exists a b, nan_sum (map g s) = Fin a /\ nan_sum (map h s) = Fin b /\ (a <= b)%Qc /\
    ((exists r, In r s /\ g r <> h r) -> (a < b)%Qc).
Proof.
  induction s as [|r s IH]; intro H.
  - exists 0%Qc, 0%Qc. cbn. repeat split; auto; [apply Qcle_refl|]. intros (r & [] & _).
  - destruct (H r (or_introl eq_refl)) as (a & b & Ea & Eb & Hab).
    destruct IH as (a' & b' & Ea' & Eb' & Hab' & St); [intros; apply H; right; auto|].
    exists (a + a')%Qc, (b + b')%Qc. cbn [map nan_sum fold_right].
    unfold nan_sum in Ea', Eb'. cbn [nan_sum fold_right map] in *. unfold nan_sum. cbn [fold_right].
    rewrite Ea, Eb, Ea', Eb'. cbn. repeat split; auto.
    + apply Qcplus_le_compat; auto.
    + intros (x & [<-|Hx] & N).
      * assert (L : (a < b)%Qc).
        { assert (a <> b) by (intros ->; congruence). destruct (qc_lt_le_dec a b) as [L|L]; auto.
          exfalso. apply H0. apply Qcle_antisym; auto. }
        clear - L Hab'. qlra.
      * assert (L : (a' < b')%Qc) by (apply St; exists x; auto). clear - L Hab. qlra.
Qed.

Lemma filter_first l o d r : NoDup (map fst l) -> In r l -> r_o r = o -> r_d r = d -> first_dev l d ->
  filter (fun x => (r_o x =? o)%Z && (r_d x <=? d)%Z) l = [r].
Proof.
  intros ND Hr Eo Ed FD. apply filter_one; auto.
  - apply NoDup_map_inv in ND. auto.
  - intros y Hy. split.
    + intro H. apply andb_prop in H as [H1 H2]. apply Z.eqb_eq in H1. apply Z.leb_le in H2.
      assert (H3 := proj2 FD (r_d y) (in_map r_d _ _ Hy)).
      assert (K : fst y = fst r).
      { revert H1 H2 H3 Eo Ed. unfold r_o, r_d. destruct y as [[a b] u], r as [[a' b'] u']. cbn. intros. f_equal; lia. }
      destruct (In_nth _ _ y Hy) as (i & Hi & Ei). destruct (In_nth _ _ y Hr) as (j & Hj & Ej).
      assert (i = j).
      { apply (proj1 (NoDup_nth (map fst l) (fst y)) ND); rewrite ?map_length; auto.
        transitivity (fst (nth i l y)); [exact (map_nth fst l y i)|].
        transitivity (fst (nth j l y)); [|symmetry; exact (map_nth fst l y j)].
        transitivity (fst y); [f_equal; exact Ei|]. transitivity (fst r); [exact K|f_equal; symmetry; exact Ej]. }
      congruence.
    + intros ->. rewrite Eo, Ed, Z.eqb_refl, Z.leb_refl. auto.
Qed.

Lemma adj_cum_iff l o d : dev_sorted l -> all_finite l -> recorded l o d ->
  (running_total (adjusted l) o d = cum_cell l o d <->
   (first_dev l d \/ forall r, In r l -> r_o r = o -> first_dev l (r_d r) -> vltb (Fin 0%Qc) (r_v r) = true)).
Proof.
  intros S F R. rewrite running_adjusted. unfold cum_cell.
  assert (ND := dev_sorted_nodup l S).
  assert (Hd : In d (map r_d l)).
  { unfold recorded in R. apply in_map_iff in R as (r & E & Hr). apply in_map_iff. exists r. split; auto.
    unfold r_d. rewrite E. auto. }
  destruct (first_devb l d) eqn:FD; cbn [andb].
  - apply first_devb_spec in FD; auto. split; [tauto|]. intros _.
    unfold recorded in R. apply in_map_iff in R as (r & E & Hr).
    assert (Eo : r_o r = o) by (unfold r_o; rewrite E; auto). assert (Ed : r_d r = d) by (unfold r_d; rewrite E; auto).
    unfold running_total. rewrite (filter_first l o d r) by auto. cbn [map].
    destruct (F r Hr) as [q Q].
    assert (D : is_first_dev l r = true). { apply is_first_dev_spec; [apply in_map; auto|]. rewrite Ed. auto. }
    unfold adjv. rewrite D, Q. unfold nan_sum. cbn [andb fold_right isnan vadd]. rewrite !Qcplus_0_r.
    destruct (vleb (Fin q) (Fin 0%Qc)); cbn [isnan vadd]; rewrite ?Qcplus_0_r; auto.
  - assert (NF : ~ first_dev l d). { intro W. apply first_devb_spec in W; auto. congruence. }
    unfold running_total. set (s := filter _ l).
    assert (Hs : forall r, In r s -> In r l /\ r_o r = o /\ (r_d r <= d)%Z).
    { intros r Hr. apply filter_In in Hr as [Hr W]. apply andb_prop in W as [W1 W2].
      apply Z.eqb_eq in W1. apply Z.leb_le in W2. auto. }
    split.
    + intro E. right. intros r Hr Eo FDr.
      destruct (vltb (Fin 0%Qc) (r_v r)) eqn:V; auto. exfalso.
      destruct (nan_sum_le r_v (adjv l) s) as (a & b & Ea & Eb & _ & St).
      { intros x Hx. apply Hs in Hx as (Hx & _). destruct (F x Hx) as [q Q]. unfold adjv. rewrite Q.
        destruct (is_first_dev l x); cbn [andb vleb].
        - destruct (qcleb_spec q 0) as [L|L].
          + exists q, 1%Qc. repeat split; auto. clear - L. assert (H := qc_0_lt_1). qlra.
          + exists q, q. repeat split; auto. apply Qcle_refl.
        - exists q, q. repeat split; auto. apply Qcle_refl. }
      rewrite Ea, Eb in E. assert (L : (a < b)%Qc).
      { apply St. exists r. split.
        - apply filter_In. split; auto. rewrite Eo, Z.eqb_refl. cbn [andb]. apply Z.leb_le. apply (proj2 FDr); auto.
        - assert (D : is_first_dev l r = true) by (apply is_first_dev_spec; [apply in_map|]; auto).
          unfold adjv. rewrite D. destruct (F r Hr) as [q Q]. rewrite Q in *. cbn [andb vleb] in *. cbn in V.
          destruct (qcltb_spec 0 q) as [|N]; [discriminate|].
          destruct (qcleb_spec q 0) as [L|L]; [|exfalso; apply N, Qcnot_le_lt; auto].
          intro X. assert (q = 1%Qc) by congruence. subst q. apply N. apply qc_0_lt_1. }
      assert (a = b) by congruence. subst b. exact (Qclt_not_eq _ _ L eq_refl).
    + intros [W|W]; [contradiction|]. f_equal. apply map_ext_in. intros r Hr. apply Hs in Hr as (Hr & Eo & _).
      unfold adjv. destruct (is_first_dev l r) eqn:D; auto. cbn [andb].
      apply is_first_dev_spec in D; [|apply in_map; auto]. specialize (W r Hr Eo D).
      destruct (F r Hr) as [q Q]. rewrite Q in *. cbn in *. destruct (qcleb_spec q 0) as [L|]; auto.
      apply qcltb_lt in W. exfalso. apply (Qclt_not_le _ _ W); auto.
Qed.

Theorem c08_iff : forall (f : frame) (l : list rec),
  table_in f "origin" "dev" "value" l -> l <> [] -> all_finite l -> dev_sorted l ->
  exists ob ob' t, totri f "incr" "incr" "tabular" "origin" "dev" "value" = Ok ob /\
    totri f "cum" "incr" "tabular" "origin" "dev" "value" = Ok ob' /\
    to_cum (ob_tri ob) = Ok t /\
    (t = ob_tri ob' <->
      (forall o d, In o (map r_o l) -> In d (map r_d l) -> recorded l o d \/ cut_off l o d) /\
      (forall r r', In r l -> In r' l -> r_o r = r_o r' -> first_dev l (r_d r) -> (r_d r < r_d r')%Z ->
         vltb (Fin 0%Qc) (r_v r) = true)).
Proof.
  intros f l T Hl F S. assert (NI := all_finite_noinf _ F).
  destruct (incr_to_cum_all f l T Hl F) as (ob & m & E1 & E2 & H).
  destruct (totri_cum_mk "origin" "dev" "value" f l) as (c & E3 & _); try discriminate; auto.
  destruct (c05_exact f "origin" "dev" "value" l) as (ob' & E4 & C5); try discriminate; auto.
  rewrite E3 in E4. injection E4 as <-. cbn [ob_tri t_mat] in C5.
  exists ob. eexists. exists (mkTri m "origin" "dev" "value"). split; [exact E1|]. split; [exact E3|]. split; [exact E2|].
  cbn [ob_tri]. rewrite (holds_mk _ _ _ _ H).
  set (lhs := fun i j => _).
  assert (Cell : forall og dv, In og (map r_o l) -> In dv (map r_d l) ->
    exists i j, i < length (os_of l) /\ j < length (ds_of l) /\ og = nth i (os_of l) 0%Z /\ dv = nth j (ds_of l) 0%Z).
  { intros og dv Ho Hd. rewrite <- zuniq_in in Ho. rewrite <- zuniq_in in Hd.
    destruct (label_pos _ _ Ho) as (i & Hi & ->). destruct (label_pos _ _ Hd) as (j & Hj & ->). exists i, j. auto. }
  assert (P : forall i j, i < length (os_of l) -> j < length (ds_of l) ->
    let og := nth i (os_of l) 0%Z in let dv := nth j (ds_of l) 0%Z in
    (recorded l og dv -> (lhs i j = fcell l i j <-> running_total (adjusted l) og dv = cum_cell l og dv)) /\
    (~ recorded l og dv -> (lhs i j = fcell l i j <-> cut_off l og dv))).
  { intros i j Hi Hj og dv.
    assert (Ho : In og (map r_o l)) by (rewrite <- zuniq_in; apply nth_In; auto).
    assert (Hd : In dv (map r_d l)) by (rewrite <- zuniq_in; apply nth_In; auto).
    destruct (C5 og dv Ho Hd) as (N & _).
    unfold og, dv in N. rewrite (cell_at_mk (os_of l) (ds_of l)) in N; auto using zsorted_nodup, os_sorted, ds_sorted.
    fold og dv in N. unfold lhs. fold og dv. split; intro R.
    - rewrite adjusted_total by auto.
      assert (E : fcell l i j = cum_cell l og dv).
      { unfold fcell. rewrite fillc_keep; [|apply ucell_nan; auto]. unfold ucell. apply cum_cell_sorted; auto. }
      rewrite E. tauto.
    - assert (E : cell_total (adjusted l) og dv = NaN).
      { apply cell_total_nan; [apply adjusted_finite; auto|]. unfold recorded. rewrite adjusted_keys. auto. }
      rewrite E. cbn [isnan]. split.
      + intro W. apply N. rewrite <- W. auto.
      + intro W. apply N in W. congruence. }
  assert (Q : mkTri (mkMat (os_of l) (ds_of l) (mk (length (os_of l)) (length (ds_of l)) lhs)) "origin" "dev" "value"
    = mkTri (mkMat (os_of l) (ds_of l) (mk (length (os_of l)) (length (ds_of l)) (fcell l))) "origin" "dev" "value"
    <-> forall i j, i < length (os_of l) -> j < length (ds_of l) -> lhs i j = fcell l i j).
  { split.
    - intros W i j Hi Hj. injection W as W.
      assert (X := f_equal (fun cs => cell cs i j) W). cbn beta in X. rewrite !cell_mk in X by auto. exact X.
    - intro W. do 2 f_equal. apply mk_ext. auto. }
  rewrite Q. clear Q. split.
  - intro W. split.
    + intros og dv Ho Hd. destruct (Cell og dv Ho Hd) as (i & j & Hi & Hj & -> & ->).
      destruct (recorded_dec l (nth i (os_of l) 0%Z) (nth j (ds_of l) 0%Z)) as [R|R]; auto.
      right. destruct (P i j Hi Hj) as [_ PB]. apply (PB R); auto.
    + intros r r' Hr Hr' Eo FD Lt.
      destruct (Cell (r_o r') (r_d r')) as (i & j & Hi & Hj & Eo' & Ed'); [apply in_map; auto|apply in_map; auto|].
      assert (R : recorded l (r_o r') (r_d r')).
      { unfold recorded. apply in_map_iff. exists r'. split; auto. destruct r' as [[? ?] ?]; auto. }
      assert (X := W i j Hi Hj). destruct (P i j Hi Hj) as [PA _]. cbv zeta in PA.
      rewrite <- Eo', <- Ed' in PA. apply (PA R) in X. apply adj_cum_iff in X; auto. destruct X as [X|X].
      * exfalso. assert (Z := proj2 X (r_d r) (in_map r_d _ _ Hr)). lia.
      * apply X; auto.
  - intros [W1 W2] i j Hi Hj.
    assert (Ho : In (nth i (os_of l) 0%Z) (map r_o l)) by (rewrite <- zuniq_in; apply nth_In; auto).
    assert (Hd : In (nth j (ds_of l) 0%Z) (map r_d l)) by (rewrite <- zuniq_in; apply nth_In; auto).
    destruct (recorded_dec l (nth i (os_of l) 0%Z) (nth j (ds_of l) 0%Z)) as [R|R].
    + destruct (P i j Hi Hj) as [PA _]. apply (PA R). apply adj_cum_iff; auto.
      destruct (first_devb l (nth j (ds_of l) 0%Z)) eqn:FD; [left; apply first_devb_spec; auto|].
      right. intros r Hr Eo FDr.
      assert (R' := R). unfold recorded in R'. apply in_map_iff in R' as (r' & E & Hr').
      apply (W2 r r'); auto.
      * unfold r_o at 2. rewrite E. auto.
      * unfold r_d at 2. rewrite E. cbn [snd].
        assert (Z := proj2 FDr _ Hd). destruct (Z.eq_dec (r_d r) (nth j (ds_of l) 0%Z)) as [X|]; [|lia].
        rewrite <- X in FD. apply first_devb_spec in FDr; [congruence|apply in_map; auto].
    + destruct (P i j Hi Hj) as [_ PB]. apply (PB R). destruct (W1 _ _ Ho Hd); auto. contradiction.
Qed.
