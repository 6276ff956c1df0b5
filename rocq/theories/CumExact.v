(** The cells of a cumulative triangle, for every table. *)

From Coq Require Import String QArith Qcanon ZArith List Bool Lia Permutation Sorting.Sorted.
From Verif Require Import Val Frame Triangle QcLib ListLib Spec SpecCum BuildFacts CumFacts FillFacts TotriFacts TriClaims TriClaims5.
Import ListNotations.
Open Scope list_scope.
Open Scope nat_scope.

Lemma nth_split_eq {A} (l : list A) k d : k < length l -> l = firstn k l ++ nth k l d :: skipn (S k) l.
Proof.
  revert k. induction l as [|a l IH]; intros k H; [simpl in H; lia|]. destruct k; [reflexivity|].
  cbn [firstn nth skipn app]. f_equal. apply IH. simpl in H; lia.
Qed.

Lemma firstn_S_nth {A} (l : list A) k d : k < length l -> firstn (S k) l = firstn k l ++ [nth k l d].
Proof.
  revert k. induction l as [|a l IH]; intros k H; [simpl in H; lia|]. destruct k; [reflexivity|].
  change (firstn (S (S k)) (a :: l)) with (a :: firstn (S k) l). rewrite IH by (simpl in H; lia). reflexivity.
Qed.

Lemma cum_vals_rows l : cum_vals l = map (row_total l) (seq 0 (length l)).
Proof.
  apply nth_ext with (d := NaN) (d' := NaN); [rewrite cum_vals_length, map_length, seq_length; auto|].
  rewrite cum_vals_length. intros k Hk. rewrite nth_map_seq by auto.
  assert (E : l = firstn k l ++ row l k :: skipn (S k) l).
  { unfold row. apply nth_split_eq. auto. }
  unfold cum_vals, group_cumsum. rewrite E at 1. rewrite map_app, group_cumsum_from_app. simpl.
  rewrite app_nth2; rewrite group_cumsum_from_length, map_length, firstn_length_le by lia; auto.
  rewrite Nat.sub_diag. cbn [nth]. unfold row_total. unfold ov at 1. cbn [snd fst].
  destruct (isnan (r_v (row l k))); auto. rewrite skipsum_nan_sum. f_equal.
  change [(r_o (row l k), r_v (row l k))] with (map ov [row l k]). rewrite <- map_app, filter_ov. f_equal. f_equal.
  symmetry. apply firstn_S_nth. auto.
Qed.

Lemma first_dev_ext l l' r r' : map r_d l = map r_d l' -> r_d r = r_d r' -> is_first_dev l r = is_first_dev l' r'.
Proof.
  intros E Er. unfold is_first_dev. rewrite Er.
  assert (K : forall l, forallb (fun x => (r_d r' <=? r_d x)%Z) l = forallb (fun y => (r_d r' <=? y)%Z) (map r_d l)).
  { clear. induction l as [|a l IH]; simpl; auto. rewrite IH. auto. }
  rewrite !K, E. auto.
Qed.
Lemma combine_map_seq {A B} (g : nat -> A) (h : nat -> B) n : combine (map g (seq 0 n)) (map h (seq 0 n)) = map (fun k => (g k, h k)) (seq 0 n).
Proof. generalize (seq 0 n). induction l as [|a l IH]; auto. cbn [map combine]. rewrite IH. auto. Qed.

Lemma adjusted_rows l : adjusted (cum_recs l) = map (fun k => (fst (row l k), booked l k)) (seq 0 (length l)).
Proof.
  assert (E : cum_recs l = map (fun k => (fst (row l k), row_total l k)) (seq 0 (length l))).
  { unfold cum_recs. rewrite cum_vals_rows, <- combine_map_seq. f_equal.
    transitivity (map fst (map (row l) (seq 0 (length l)))); [|apply map_map]. f_equal. symmetry. apply map_nth_seq_fst. }
  unfold adjusted.
  transitivity (map (fun r => (fst r, if is_first_dev (cum_recs l) r && vleb (r_v r) (Fin 0%Qc) then Fin 1%Qc else r_v r))
    (map (fun k => (fst (row l k), row_total l k)) (seq 0 (length l)))); [f_equal; exact E|].
  rewrite map_map. apply map_ext. intro k. cbn [fst]. f_equal. unfold booked. cbn [r_v snd].
  rewrite (first_dev_ext (cum_recs l) l _ (row l k)); [reflexivity|apply cum_recs_d|reflexivity].
Qed.

Lemma ucell_booked l o d : recorded l o d -> ucell l o d = booked_at l o d.
Proof.
  intro R. unfold ucell, cell_total.
  assert (E : values_at (adjusted (cum_recs l)) o d
    = map (booked l) (filter (fun k => (r_o (row l k) =? o)%Z && (r_d (row l k) =? d)%Z) (seq 0 (length l)))).
  { unfold values_at. rewrite adjusted_rows. generalize (seq 0 (length l)). intro s. induction s as [|k s IH]; auto.
    cbn [map filter]. unfold r_o at 1, r_d at 1. cbn [fst]. fold (r_o (row l k)) (r_d (row l k)).
    destruct ((r_o (row l k) =? o)%Z && (r_d (row l k) =? d)%Z); cbn [map]; rewrite IH; auto. }
  unfold booked_at. rewrite <- E. destruct (values_at (adjusted (cum_recs l)) o d) eqn:Q; auto.
  apply values_at_nil in Q. rewrite adjusted_keys, cum_recs_keys in Q. contradiction.
Qed.

Theorem c03_all f o d v l : o <> d -> o <> v -> d <> v ->
  o <> "cumval"%string -> d <> "cumval"%string -> v <> "cumval"%string ->
  table_in f o d v l -> l <> [] -> no_inf l ->
  exists ob, totri f "cum" "incr" "tabular" o d v = Ok ob /\
    let m := t_mat (ob_tri ob) in
    distinct_sorted (m_idx m) (map r_o l) /\ distinct_sorted (m_cols m) (map r_d l) /\
    forall og dv, In og (map r_o l) -> In dv (map r_d l) ->
      (recorded l og dv -> cell_at m og dv = Some (booked_at l og dv)) /\
      (~ recorded l og dv -> first_dev l dv -> cell_at m og dv = Some (Fin 1%Qc)) /\
      (~ recorded l og dv -> ~ first_dev l dv -> ~ is_actual l og dv -> cell_at m og dv = Some NaN) /\
      (~ recorded l og dv -> is_actual l og dv ->
         forall d', next_in (m_cols m) d' dv -> cell_at m og dv = cell_at m og d').
Proof.
  intros H1 H2 H3 H4 H5 H6 T Hl NI.
  destruct (totri_cum_mk o d v f l H1 H2 H3 H4 H5 H6 T Hl NI) as (c & E & _).
  eexists. split; [exact E|]. cbn [ob_tri t_mat m_idx m_cols]. cbv zeta.
  split; [apply zuniq_distinct|]. split; [apply zuniq_distinct|].
  intros og dv Ho Hd. rewrite <- zuniq_in in Ho, Hd. change (In og (os_of l)) in Ho. change (In dv (ds_of l)) in Hd.
  destruct (label_pos _ _ Ho) as (i & Hi & ->). destruct (label_pos _ _ Hd) as (j & Hj & ->).
  assert (No := zsorted_nodup _ (os_sorted l)). assert (Nd := zsorted_nodup _ (ds_sorted l)).
  rewrite cell_at_mk by auto. rewrite actual_pos by auto. unfold fcell.
  assert (F : first_dev l (nth j (ds_of l) 0%Z) <-> j = 0).
  { split.
    - intros (_ & Q). destruct j; auto. exfalso. specialize (Q (nth 0 (ds_of l) 0%Z)).
      assert (In (nth 0 (ds_of l) 0%Z) (map r_d l)) as Q' by (rewrite <- zuniq_in; apply nth_In; fold (ds_of l); lia).
      apply Q in Q'. apply zsorted_nth_le in Q'; auto using ds_sorted; lia.
    - intros ->. split; [rewrite <- zuniq_in; exact Hd|].
      intros d' Hd'. rewrite <- zuniq_in in Hd'. change (In d' (ds_of l)) in Hd'. destruct (label_pos _ _ Hd') as (k & Hk & ->).
      apply zsorted_nth_le; auto using ds_sorted; lia. }
  split; [|split; [|split]].
  - intro R. f_equal. rewrite fillc_keep by (apply ucell_nan; auto). apply ucell_booked; auto.
  - intros R Hf. apply F in Hf. subst j. cbn [fillc]. rewrite ucell_unrecorded by auto. reflexivity.
  - intros R Hf Ha. rewrite F in Hf. f_equal. rewrite fillc_below; [apply ucell_unrecorded; auto|lia|apply Nat.ltb_lt; lia].
  - intros R Ha d' Hn. destruct (next_in_pos _ _ _ (ds_sorted l) Hn) as (a & Ha' & Ea & Eb).
    apply (NoDup_nth _ 0%Z) in Eb; auto. subst j d'. rewrite cell_at_mk by (auto; lia). f_equal. unfold fcell.
    rewrite fillc_step; auto; [apply Nat.ltb_ge; auto|apply ucell_unrecorded; auto].
Qed.

(** ** Which cells stay missing *)
Lemma fillc_nan c ti j : fillc c ti j = NaN <-> exists k, 0 < k <= j /\ ti k = true /\ forall e, k <= e <= j -> c e = NaN.
Proof.
  induction j as [|j IH].
  - split; [|intros (k & Hk & _); lia]. cbn. destruct (isnan (c 0)) eqn:E; [discriminate|]. intro N. rewrite N in E. discriminate.
  - split.
    + intro N. cbn [fillc] in N. destruct (negb (ti (S j)) && isnan (c (S j))) eqn:B.
      * apply andb_prop in B as [B1 B2]. apply IH in N as (k & Hk & T & H). exists k. split; [lia|]. split; auto.
        intros e He. destruct (Nat.eq_dec e (S j)) as [->|]; [apply isnan_true; auto|apply H; lia].
      * exists (S j). split; [lia|]. rewrite N in B. cbn [isnan] in B. rewrite andb_true_r in B. apply negb_false_iff in B.
        split; auto. intros e He. replace e with (S j) by lia. auto.
    + intros (k & Hk & T & H). assert (Nj : c (S j) = NaN) by (apply H; lia).
      destruct (ti (S j)) eqn:B.
      * rewrite fillc_below; auto; lia.
      * rewrite fillc_step by auto. apply IH. exists k. assert (k <> S j) by (intros ->; congruence).
        split; [lia|]. split; auto. intros e He. apply H. lia.
Qed.

Theorem c05_exact f o d v l : o <> d -> o <> v -> d <> v ->
  o <> "cumval"%string -> d <> "cumval"%string -> v <> "cumval"%string ->
  table_in f o d v l -> l <> [] -> no_inf l ->
  exists ob, totri f "cum" "incr" "tabular" o d v = Ok ob /\
    let m := t_mat (ob_tri ob) in
    forall og dv, In og (map r_o l) -> In dv (map r_d l) ->
      (cell_at m og dv = Some NaN <-> cut_off l og dv) /\
      (forall d0, ~ cut_off l og dv -> (d0 <= dv)%Z -> recorded l og d0 ->
         (forall e, (d0 < e <= dv)%Z -> ~ recorded l og e) -> cell_at m og dv = Some (booked_at l og d0)) /\
      (~ cut_off l og dv -> (forall e, (e <= dv)%Z -> ~ recorded l og e) -> cell_at m og dv = Some (Fin 1%Qc)).
Proof.
  intros H1 H2 H3 H4 H5 H6 T Hl NI.
  destruct (totri_cum_mk o d v f l H1 H2 H3 H4 H5 H6 T Hl NI) as (c & E & _).
  eexists. split; [exact E|]. cbn [ob_tri t_mat m_idx m_cols]. cbv zeta.
  intros og dv Ho Hd. rewrite <- zuniq_in in Ho, Hd. change (In og (os_of l)) in Ho. change (In dv (ds_of l)) in Hd.
  destruct (label_pos _ _ Ho) as (i & Hi & ->). destruct (label_pos _ _ Hd) as (j & Hj & ->).
  assert (No := zsorted_nodup _ (os_sorted l)). assert (Nd := zsorted_nodup _ (ds_sorted l)).
  rewrite cell_at_mk by auto. unfold fcell.
  assert (F : forall k, k < List.length (ds_of l) -> first_dev l (nth k (ds_of l) 0%Z) <-> k = 0).
  { intros k Hk. split.
    - intros (_ & Q). destruct k; auto. exfalso. specialize (Q (nth 0 (ds_of l) 0%Z)).
      assert (In (nth 0 (ds_of l) 0%Z) (map r_d l)) as Q' by (rewrite <- zuniq_in; apply nth_In; fold (ds_of l); lia).
      apply Q in Q'. apply zsorted_nth_le in Q'; auto using ds_sorted; lia.
    - intros ->. split; [rewrite <- zuniq_in; apply nth_In; auto|].
      intros d' Hd'. rewrite <- zuniq_in in Hd'. change (In d' (ds_of l)) in Hd'. destruct (label_pos _ _ Hd') as (a & Ha & ->).
      apply zsorted_nth_le; auto using ds_sorted; lia. }
  set (cc := fun k => ucell l (nth i (os_of l) 0%Z) (nth k (ds_of l) 0%Z)).
  set (ti := fun k => lastpos l k <? i).
  assert (CN : forall k, cc k = NaN <-> ~ recorded l (nth i (os_of l) 0%Z) (nth k (ds_of l) 0%Z)).
  { intro k. unfold cc. split; [intros N R; revert N; apply ucell_nan; auto|apply ucell_unrecorded]. }
  assert (TA : forall k, k < List.length (ds_of l) -> ti k = true <-> ~ is_actual l (nth i (os_of l) 0%Z) (nth k (ds_of l) 0%Z)).
  { intros k Hk. unfold ti. rewrite actual_pos by auto. rewrite Nat.ltb_lt. lia. }
  assert (CO : cut_off l (nth i (os_of l) 0%Z) (nth j (ds_of l) 0%Z) <-> exists k, 0 < k <= j /\ ti k = true /\ forall e, k <= e <= j -> cc e = NaN).
  { split.
    - intros (d' & Hd' & Le & Nf & Na & Nr). rewrite <- zuniq_in in Hd'. change (In d' (ds_of l)) in Hd'.
      destruct (label_pos _ _ Hd') as (k & Hk & ->). rewrite F in Nf by auto. rewrite zsorted_nth_le in Le by auto using ds_sorted.
      exists k. split; [lia|]. split; [apply TA; auto|]. intros e He. apply CN, Nr.
      split; apply zsorted_nth_le; auto using ds_sorted; lia.
    - intros (k & Hk & Tk & H). exists (nth k (ds_of l) 0%Z). split; [rewrite <- zuniq_in; apply nth_In; fold (ds_of l); lia|].
      split; [apply zsorted_nth_le; auto using ds_sorted; lia|]. split; [rewrite F by lia; lia|]. split; [apply TA; auto; lia|].
      intros e He R. destruct (label_pos _ _ (recorded_ds _ _ _ R)) as (a & Ha & ->). revert R. apply CN, H.
      destruct He as (He1 & He2). apply zsorted_nth_le in He1; auto using ds_sorted; [|lia]. apply zsorted_nth_le in He2; auto using ds_sorted. }
  split; [|split].
  - rewrite CO, <- fillc_nan. split; [intro Q; injection Q; auto|congruence].
  - intros d0 Nc Le R Nr. destruct (label_pos _ _ (recorded_ds _ _ _ R)) as (a & Ha & ->).
    apply zsorted_nth_le in Le; auto using ds_sorted.
    f_equal. rewrite (fillc_carry cc ti a); auto.
    + rewrite fillc_keep by (intro N; apply CN in N; auto). apply ucell_booked; auto.
    + assert (K : forall k, a < k <= j -> cc k = NaN).
      { intros k Hk. apply CN, Nr. split; [apply zsorted_nth_lt|apply zsorted_nth_le]; auto using ds_sorted; lia. }
      intros k Hk. split; auto. destruct (ti k) eqn:B; auto. exfalso. apply Nc, CO. exists k. split; [lia|]. split; auto.
      intros e He. apply K. lia.
  - intros Nc Nr. f_equal.
    assert (K : forall k, k <= j -> cc k = NaN).
    { intros k Hk. apply CN, Nr. apply zsorted_nth_le; auto using ds_sorted; lia. }
    apply fillc_init; [apply K; lia|]. intros k Hk. split; [|apply K; lia]. destruct (ti k) eqn:B; auto. exfalso. apply Nc, CO. exists k. split; [lia|]. split; auto.
    intros e He. apply K. lia.
Qed.
