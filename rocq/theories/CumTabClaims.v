(** Tables of cumulative losses with missing values (C09). *)

From Coq Require Import String Ascii QArith Qcanon ZArith List Bool Lia Permutation Sorting.Sorted.
From Verif Require Import Val Frame Triangle QcLib ListLib Spec SpecCum SpecCumTab BuildFacts CumFacts FillFacts
  TotriFacts TblFacts TriClaims ConvFacts TriClaims2 TriClaims3 TriClaims5 CumExact.
Import ListNotations.
Open Scope list_scope.
Open Scope nat_scope.

Definition okv (v : val) : Prop := v <> PInf /\ v <> NInf.
Definition vals_of (o : Z) (s : list (Z * val)) : list val := map snd (filter (fun p => (fst p =? o)%Z) s).

Definition lastv (vs : list val) : val := last vs NaN.
Definition lastq (vs : list val) : Qc := match lastv vs with Fin q => q | _ => 0%Qc end.

Lemma lastv_cons a b r : lastv (a :: b :: r) = lastv (b :: r).
Proof. reflexivity. Qed.
Lemma carried_snoc_nan vs : carried (vs ++ [NaN]) = (carried vs + lastq vs)%Qc.
Proof.
  induction vs as [|a r IH]; [reflexivity|]. destruct r as [|b r].
  - destruct a; cbn; ring.
  - assert (E : lastq (a :: b :: r) = lastq (b :: r)) by reflexivity. rewrite E. clear E.
    change ((a :: b :: r) ++ [NaN]) with (a :: (b :: r) ++ [NaN]).
    destruct a, b; cbn [carried app] in *; try rewrite IH; ring.
Qed.
Lemma carried_snoc vs v : v <> NaN -> carried (vs ++ [v]) = carried vs.
Proof.
  intro N. induction vs as [|a r IH].
  - cbn. destruct v; auto.
  - destruct r as [|b r].
    + destruct a, v; try reflexivity; congruence.
    + change ((a :: b :: r) ++ [v]) with (a :: (b :: r) ++ [v]).
      destruct a, b; cbn [carried app] in *; try rewrite IH; reflexivity.
Qed.

Fixpoint reads (seen zs : list (Z * val)) : list val :=
  match zs with
  | [] => []
  | (o, v) :: r => (match v with Fin q => Fin (q + carried (vals_of o seen))%Qc | x => x end) :: reads (seen ++ [(o, v)]) r
  end.

Lemma last_of_vals o s : forall x, last_of o s x = last (vals_of o s) x.
Proof.
  induction s as [|[o' v] s IH]; intro x; [reflexivity|]. cbn [last_of]. rewrite IH. unfold vals_of. cbn [filter fst].
  destruct (o' =? o)%Z eqn:E; cbn [map]; auto.
  cbn [snd]. destruct (map snd (filter (fun p => (fst p =? o)%Z) s)) as [|b r]; [reflexivity|].
  cbn [last]. revert b. induction r as [|c r IHr]; intro b; [reflexivity|]. apply IHr.
Qed.

Lemma vals_of_app o a b : vals_of o (a ++ b) = vals_of o a ++ vals_of o b.
Proof. unfold vals_of. rewrite filter_app, map_app. auto. Qed.

Lemma cumsum_reads zs : forall seen seen', (forall p, In p zs -> okv (snd p)) ->
  (forall o, okv (lastv (vals_of o seen))) ->
  (forall o, osum o seen' = Fin (carried (vals_of o seen) + lastq (vals_of o seen))%Qc) ->
  group_cumsum_from seen' (combine (map fst zs) (map fixnan (combine (group_diff_from seen zs) (map snd zs))))
  = reads seen zs.
Proof.
  induction zs as [|[o v] zs IH]; intros seen seen' F L V; [reflexivity|].
  cbn [map fst snd combine group_diff_from group_cumsum_from reads].
  set (inc := fixnan (vsub v (last_of o seen NaN), v)).
  assert (Fv := F (o, v) (or_introl eq_refl)). cbn [snd] in Fv.
  assert (Lo := L o). assert (Vo := V o).
  assert (K : forall o', okv (lastv (vals_of o' (seen ++ [(o, v)])))).
  { intro o'. rewrite vals_of_app. unfold vals_of at 2. cbn [filter fst]. destruct (o =? o')%Z; cbn [map snd].
    - unfold lastv. rewrite last_last. auto.
    - rewrite app_nil_r. apply L. }
  assert (K2 : (isnan inc = true /\ v = NaN) \/
    (exists q, v = Fin q /\ isnan inc = false /\ vadd (osum o seen') inc = Fin (q + carried (vals_of o seen))%Qc)).
  { unfold inc, fixnan. cbn [fst snd]. rewrite last_of_vals. fold (lastv (vals_of o seen)).
    rewrite Vo. unfold lastq. destruct v as [| | |q]; destruct Fv as [F1 F2]; try congruence; [left; destruct (lastv (vals_of o seen)); auto|].
    right. exists q. split; auto. destruct (lastv (vals_of o seen)) as [| | |p]; destruct Lo; try congruence;
        cbn; (split; [reflexivity|f_equal; ring]). }
  assert (V' : forall o', osum o' (seen' ++ [(o, inc)]) =
     Fin (carried (vals_of o' (seen ++ [(o, v)])) + lastq (vals_of o' (seen ++ [(o, v)])))%Qc).
  { intro o'. rewrite osum_app, vals_of_app. unfold osum at 2. unfold vals_of at 2 4. cbn [filter fst].
    destruct (Z.eqb_spec o o') as [<-|]; cbn [map snd].
    - destruct K2 as [[N ->]|(q & -> & N & S')].
      + rewrite carried_snoc_nan. unfold lastq at 2. unfold lastv. rewrite last_last. rewrite Vo.
        apply isnan_true in N. rewrite N. cbn. try (f_equal; ring).
      + rewrite carried_snoc by discriminate. unfold lastq, lastv. rewrite last_last.
        assert (E : skipsum [inc] = inc).
        { unfold skipsum. cbn. rewrite N. apply vadd_0_r. }
        rewrite E, S'. f_equal. ring.
    - cbn. rewrite !app_nil_r. rewrite V. cbn. f_equal. ring. }
  f_equal.
  - destruct K2 as [[N ->]|(q & -> & N & S')]; rewrite N; auto.
    change (osum o (seen' ++ [(o, inc)]) = Fin (q + carried (vals_of o seen))%Qc).
    rewrite osum_app, <- S'. f_equal. unfold osum. cbn [filter fst]. rewrite Z.eqb_refl. cbn [map snd].
    unfold skipsum. cbn. rewrite N. apply vadd_0_r.
  - apply IH; auto. intros p Hp. apply F. right; auto.
Qed.

Lemma reads_length seen zs : length (reads seen zs) = length zs.
Proof. revert seen. induction zs as [|[o v] zs IH]; intro seen; simpl; auto. Qed.
Lemma reads_nth zs : forall seen k, k < length zs ->
  nth k (reads seen zs) NaN = let (o, v) := nth k zs (0%Z, NaN) in
    match v with Fin q => Fin (q + carried (vals_of o (seen ++ firstn k zs)))%Qc | x => x end.
Proof.
  induction zs as [|[o v] zs IH]; intros seen k Hk; [simpl in Hk; lia|]. destruct k.
  - cbn [reads nth firstn]. rewrite app_nil_r. auto.
  - cbn [reads nth firstn]. rewrite IH by (simpl in Hk; lia). rewrite <- app_assoc. reflexivity.
Qed.

Lemma inc_length l : length (inc_recs l) = length l.
Proof. assert (E := f_equal (@length (Z * Z)) (inc_recs_keys l)). rewrite !map_length in E. exact E. Qed.
Lemma inc_row_key l k : fst (row (inc_recs l) k) = fst (row l k).
Proof.
  assert (E := f_equal (fun x => nth k x (0%Z, 0%Z)) (inc_recs_keys l)). cbn beta in E.
  transitivity (nth k (map fst (inc_recs l)) (0%Z, 0%Z)); [symmetry; exact (map_nth fst (inc_recs l) ((0%Z, 0%Z), NaN) k)|].
  refine (eq_trans E _). exact (map_nth fst l ((0%Z, 0%Z), NaN) k).
Qed.

Lemma inc_reading l k : no_inf l -> k < length l -> row_total (inc_recs l) k = reading l k.
Proof.
  intros NI Hk.
  assert (E : cum_vals (inc_recs l) = reads [] (map ov l)).
  { unfold cum_vals, group_cumsum.
    assert (Q : map ov (inc_recs l) = combine (map fst (map ov l))
       (map fixnan (combine (group_diff_from [] (map ov l)) (map snd (map ov l))))).
    { transitivity (combine (map r_o (inc_recs l)) (map r_v (inc_recs l))).
      - rewrite combine_map_lr. auto.
      - rewrite inc_recs_o, inc_recs_v. f_equal. rewrite map_map. auto. }
    rewrite Q. apply cumsum_reads.
    - intros p Hp. apply in_map_iff in Hp as (r & <- & Hr). exact (NI r Hr).
    - intro o. split; discriminate.
    - intro o. reflexivity. }
  assert (E2 := f_equal (fun x => nth k x NaN) E). cbn beta in E2.
  rewrite cum_vals_rows, inc_length, nth_map_seq in E2 by auto. rewrite E2, reads_nth by (rewrite map_length; auto).
  assert (R : nth k (map ov l) (0%Z, NaN) = ov (row l k)).
  { unfold row. change (0%Z, NaN) with (ov ((0%Z, 0%Z), NaN)). apply map_nth. }
  rewrite R. unfold ov at 1. unfold reading. destruct (r_v (row l k)); auto. cbn [app]. do 3 f_equal.
  unfold vals_of, above. rewrite firstn_map. apply filter_ov.
Qed.

Lemma inc_noinf l : no_inf l -> no_inf (inc_recs l).
Proof.
  intros NI r Hr.
  destruct (In_nth _ _ ((0%Z, 0%Z), NaN) Hr) as (k & Hk & <-). rewrite inc_length in Hk.
  assert (E : r_v (nth k (inc_recs l) ((0%Z, 0%Z), NaN)) = nth k (incs (map ov l)) NaN).
  { rewrite <- inc_recs_v. symmetry. exact (map_nth r_v (inc_recs l) ((0%Z, 0%Z), NaN) k). }
  change (okv (r_v (nth k (inc_recs l) ((0%Z, 0%Z), NaN)))). refine (eq_ind_r okv _ E). unfold incs.
  assert (W : forall x, In x (map fixnan (combine (group_diff (map ov l)) (map snd (map ov l)))) -> okv x).
  { unfold group_diff.
    assert (F : forall p, In p (map ov l) -> okv (snd p)).
    { intros p Hp. apply in_map_iff in Hp as (q & <- & Hq). exact (NI q Hq). }
    assert (F0 : forall o, okv (last_of o [] NaN)) by (intro; split; discriminate).
    revert F F0. generalize (map ov l). clear. intro zs. generalize (@nil (Z * val)).
    induction zs as [|[o v] zs IH]; intros seen F F0 x Hx; [destruct Hx|].
    cbn [group_diff_from map combine] in Hx. destruct Hx as [<-|Hx].
    - assert (Fv := F (o, v) (or_introl eq_refl)). assert (Lo := F0 o). unfold fixnan. cbn [fst snd] in *.
      destruct v, (last_of o seen NaN); destruct Fv, Lo; try congruence; cbn; split; discriminate.
    - eapply IH; [| |exact Hx].
      + intros p Hp. apply F. right; auto.
      + intro o'. rewrite last_of_app. cbn. destruct (o =? o')%Z; auto. exact (F (o, v) (or_introl eq_refl)). }
  apply W. apply nth_In. fold (incs (map ov l)). rewrite incs_length, map_length. auto.
Qed.

Lemma inc_booked l k : no_inf l -> k < length l -> booked (inc_recs l) k = read l k.
Proof.
  intros NI Hk. unfold booked, read. rewrite inc_reading by auto.
  rewrite (first_dev_ext (inc_recs l) l (row (inc_recs l) k) (row l k)); auto using inc_recs_d.
  unfold r_d. rewrite inc_row_key. auto.
Qed.
Lemma inc_booked_at l o d : no_inf l -> booked_at (inc_recs l) o d = read_at l o d.
Proof.
  intro NI. unfold booked_at, read_at. rewrite inc_length. f_equal.
  rewrite (filter_ext (fun k => ((r_o (row (inc_recs l) k) =? o)%Z && (r_d (row (inc_recs l) k) =? d)%Z))
     (fun k => ((r_o (row l k) =? o)%Z && (r_d (row l k) =? d)%Z))).
  - apply map_ext_in. intros k Hk. apply filter_In in Hk as [Hk _]. apply in_seq in Hk. apply inc_booked; auto. lia.
  - intro k. unfold r_o, r_d. rewrite inc_row_key. auto.
Qed.
Lemma inc_recorded l o d : recorded (inc_recs l) o d <-> recorded l o d.
Proof. unfold recorded. rewrite inc_recs_keys. tauto. Qed.
Lemma inc_first l d : first_dev (inc_recs l) d <-> first_dev l d.
Proof. unfold first_dev. rewrite inc_recs_d. tauto. Qed.
Lemma inc_actual l o d : is_actual (inc_recs l) o d <-> is_actual l o d.
Proof. unfold is_actual. split; intros (o' & H & R); exists o'; (split; [auto|]); apply inc_recorded; auto. Qed.
Lemma inc_cut l o d : cut_off (inc_recs l) o d <-> cut_off l o d.
Proof.
  unfold cut_off. rewrite inc_recs_d.
  split; intros (d' & A & B & C & D & E); exists d'; (split; [auto|]); (split; [auto|]).
  - rewrite inc_first in C. rewrite inc_actual in D. split; [auto|]. split; [auto|].
    intros e He R. apply (E e He). apply inc_recorded; auto.
  - rewrite inc_first, inc_actual. split; [auto|]. split; [auto|].
    intros e He R. apply (E e He). apply inc_recorded; auto.
Qed.

Lemma table_any l o d v : o <> d -> o <> v -> d <> v ->
  table_in [(o, ZC (map r_o l)); (d, ZC (map r_d l)); (v, VC (map r_v l))] o d v l.
Proof.
  intros A B C. repeat split; cbn; auto.
  repeat constructor; cbn; intuition congruence.
Qed.

Theorem c09_exactly : forall (o d v : string), o <> d -> o <> v -> d <> v ->
    o <> "cumval"%string -> d <> "cumval"%string -> v <> "cumval"%string ->
    o <> "cum"%string -> d <> "cum"%string -> o <> "incr"%string -> d <> "incr"%string ->
  forall (f : frame) (l : list rec),
    table_in f o d v l -> (v = "cum"%string \/ ~ In "cum"%string (map fst f)) -> l <> [] -> no_inf l ->
    exists ob, totri f "cum" "cum" "tabular" o d v = Ok ob /\
      let m := t_mat (ob_tri ob) in
      distinct_sorted (m_idx m) (map r_o l) /\ distinct_sorted (m_cols m) (map r_d l) /\
      forall og dv, In og (map r_o l) -> In dv (map r_d l) ->
        (recorded l og dv -> cell_at m og dv = Some (read_at l og dv)) /\
        (cell_at m og dv = Some NaN <-> cut_off l og dv) /\
        (forall d0, ~ cut_off l og dv -> (d0 <= dv)%Z -> recorded l og d0 ->
           (forall e, (d0 < e <= dv)%Z -> ~ recorded l og e) -> cell_at m og dv = Some (read_at l og d0)) /\
        (~ cut_off l og dv -> (forall e, (e <= dv)%Z -> ~ recorded l og e) -> cell_at m og dv = Some (Fin 1%Qc)).
Proof.
  intros o d v Hod Hov Hdv Hoc Hdc Hvc Ho1 Hd1 Ho2 Hd2 f l T Hc Hl NI.
  set (g := [(o, ZC (map r_o (inc_recs l))); (d, ZC (map r_d (inc_recs l))); (v, VC (map r_v (inc_recs l)))]).
  assert (Tg : table_in g o d v (inc_recs l)) by (apply table_any; auto).
  assert (Ng : inc_recs l <> []).
  { intro E. apply Hl. apply length_zero_iff_nil. rewrite <- inc_length, E. auto. }
  assert (E : totri f "cum" "cum" "tabular" o d v = totri g "cum" "incr" "tabular" o d v).
  { rewrite (totri_cumcum_inc o d v Hod Hov Hdv Hoc Hdc Hvc Ho1 Hd1 Ho2 Hd2 f l T Hc Hl).
    symmetry. apply totri_cum_table; auto. }
  destruct (c03_all g o d v (inc_recs l) Hod Hov Hdv Hoc Hdc Hvc Tg Ng (inc_noinf l NI)) as (ob & E1 & A1 & A2 & A3).
  destruct (c05_exact g o d v (inc_recs l) Hod Hov Hdv Hoc Hdc Hvc Tg Ng (inc_noinf l NI)) as (ob' & E2 & B).
  rewrite E1 in E2. injection E2 as <-. exists ob. rewrite E. split; [exact E1|].
  cbv zeta in *. rewrite inc_recs_o in *. rewrite inc_recs_d in *.
  split; [exact A1|]. split; [exact A2|]. intros og dv Ho Hd.
  destruct (A3 og dv Ho Hd) as (A & _). destruct (B og dv Ho Hd) as (B1 & B2 & B3).
  rewrite inc_cut in B1, B3. split; [|split; [exact B1|split]].
  - intro R. rewrite A by (apply inc_recorded; auto). rewrite inc_booked_at; auto.
  - intros d0 N Hle R G. rewrite (B2 d0); auto.
    + rewrite inc_booked_at; auto.
    + rewrite inc_cut; auto.
    + apply inc_recorded; auto.
    + intros e He Q. apply (G e He). apply inc_recorded; auto.
  - intros N G. apply B3; auto. intros e He Q. apply (G e He). apply inc_recorded; auto.
Qed.

(** Without repeated pairs: one record, one cell. *)
Lemma filter_one {A} (p : A -> bool) (x : A) (s : list A) : NoDup s -> In x s -> (forall y, In y s -> p y = true <-> y = x) ->
  filter p s = [x].
Proof.
  induction s as [|a s IH]; intros N Hin P; [destruct Hin|]. inversion N as [|? ? Na Ns]; subst. cbn.
  destruct (p a) eqn:E.
  - apply P in E; [|left; auto]. subst a. f_equal.
    assert (G : forall w : list A, (forall y, In y w -> p y = false) -> filter p w = []).
    { clear. induction w as [|y w IH]; intro G; auto. cbn. rewrite (G y) by (left; auto). apply IH. intros; apply G; right; auto. }
    apply G. intros y Hy. destruct (p y) eqn:Ey; auto. apply P in Ey; [|right; auto]. subst y. contradiction.
  - destruct Hin as [->|Hin].
    + assert (p x = true) by (apply P; [left|]; auto). congruence.
    + apply IH; auto. intros y Hy. apply P. right; auto.
Qed.

Lemma read_at_one l k : NoDup (map fst l) -> k < length l ->
  read_at l (r_o (row l k)) (r_d (row l k)) = nan_sum [read l k].
Proof.
  intros ND Hk. unfold read_at. rewrite (filter_one _ k (seq 0 (length l))); auto using seq_NoDup.
  - apply in_seq. lia.
  - intros y Hy. apply in_seq in Hy. split; [|intros ->; rewrite !Z.eqb_refl; auto].
    intro H. apply andb_prop in H as [H1 H2]. apply Z.eqb_eq in H1, H2.
    apply (proj1 (NoDup_nth (map fst l) (0%Z, 0%Z)) ND); rewrite ?map_length; try lia.
    transitivity (fst (row l y)); [exact (map_nth fst l ((0%Z, 0%Z), NaN) y)|].
    transitivity (fst (row l k)); [|symmetry; exact (map_nth fst l ((0%Z, 0%Z), NaN) k)].
    revert H1 H2. unfold r_o, r_d. generalize (row l y), (row l k). intros [[a b] u] [[a' b'] u'] H1 H2. cbn in *. congruence.
Qed.

Theorem c09_one : forall (o d v : string), o <> d -> o <> v -> d <> v ->
    o <> "cumval"%string -> d <> "cumval"%string -> v <> "cumval"%string ->
    o <> "cum"%string -> d <> "cum"%string -> o <> "incr"%string -> d <> "incr"%string ->
  forall (f : frame) (l : list rec),
    table_in f o d v l -> (v = "cum"%string \/ ~ In "cum"%string (map fst f)) -> l <> [] -> no_inf l -> NoDup (map fst l) ->
    exists ob, totri f "cum" "cum" "tabular" o d v = Ok ob /\
      let m := t_mat (ob_tri ob) in
      forall k, k < length l -> let r := row l k in
        (r_v r = NaN -> cell_at m (r_o r) (r_d r) = Some (Fin 0%Qc)) /\
        (forall q, r_v r = Fin q -> ~ first_dev l (r_d r) ->
           (cell_at m (r_o r) (r_d r) = Some (Fin q) <-> carried (above l k) = 0%Qc)).
Proof.
  intros o d v Hod Hov Hdv Hoc Hdc Hvc Ho1 Hd1 Ho2 Hd2 f l T Hc Hl NI ND.
  destruct (c09_exactly o d v Hod Hov Hdv Hoc Hdc Hvc Ho1 Hd1 Ho2 Hd2 f l T Hc Hl NI) as (ob & E & _ & _ & A).
  exists ob. split; [exact E|]. cbv zeta in *. intros k Hk.
  assert (Hin : In (row l k) l) by (apply nth_In; auto).
  assert (R : recorded l (r_o (row l k)) (r_d (row l k))).
  { unfold recorded. apply in_map_iff. exists (row l k). split; auto. destruct (row l k) as [[? ?] ?]; auto. }
  destruct (A _ _ (in_map r_o _ _ Hin) (in_map r_d _ _ Hin)) as (B & _). rewrite (B R), read_at_one by auto.
  assert (FD := is_first_dev_spec l (row l k) (in_map r_d _ _ Hin)).
  unfold read, reading. split.
  - intros ->. cbn [vleb]. rewrite andb_false_r. reflexivity.
  - intros q -> NF. destruct (is_first_dev l (row l k)); [exfalso; apply NF, FD; auto|]. cbn [andb].
    unfold nan_sum. cbn [fold_right isnan vadd]. rewrite Qcplus_0_r. split.
    + intro H. assert (H1 : (q + carried (above l k))%Qc = q) by congruence.
      transitivity ((q + carried (above l k)) - q)%Qc; [ring|rewrite H1; ring].
    + intros ->. rewrite Qcplus_0_r. auto.
Qed.
