(** Proofs of the triangle properties C01-C06, C08 (part), C16. *)

From Coq Require Import String Ascii QArith Qcanon ZArith List Bool Lia Permutation Sorting.Sorted.
From Verif Require Import Val Frame Triangle QcLib ListLib Spec BuildFacts CumFacts FillFacts TotriFacts TblFacts.
Import ListNotations.
Open Scope list_scope.
Open Scope nat_scope.

(** ** C01 *)

Lemma zuniq_distinct l : distinct_sorted (zuniq l) l.
Proof. split; [apply zuniq_sorted | intro; apply zuniq_in]. Qed.

Lemma c01 f o d v l : o <> d -> o <> v -> d <> v -> table_in f o d v l -> l <> [] ->
  exists ob os ds, totri f "incr" "incr" "tabular" o d v = Ok ob /\
    distinct_sorted os (map r_o l) /\ distinct_sorted ds (map r_d l) /\
    holds (t_mat (ob_tri ob)) os ds (cell_total (adjusted l)).
Proof.
  intros H1 H2 H3 T Hl.
  eexists _, (zuniq (map r_o l)), (zuniq (map r_d l)). split.
  - apply (totri_incr_table o d v H1 H2 H3 f l); auto.
  - split; [apply zuniq_distinct|]. split; [apply zuniq_distinct|].
    cbn [ob_tri t_mat]. assert (H := build_holds (adjusted l)).
    rewrite adjusted_o, adjusted_d in H. exact H.
Qed.

(** ** C02 *)

Lemma is_first_dev_perm l l' r : Permutation l l' -> is_first_dev l r = is_first_dev l' r.
Proof.
  intro P. unfold is_first_dev. apply eq_true_iff_eq. rewrite !forallb_forall.
  split; intros H q Hq; apply H; [apply (Permutation_in _ (Permutation_sym P)) | apply (Permutation_in _ P)]; auto.
Qed.
Lemma adjusted_perm l l' : Permutation l l' -> Permutation (adjusted l) (adjusted l').
Proof.
  intro P. unfold adjusted.
  rewrite (map_ext _ (fun r => (fst r, if is_first_dev l' r && vleb (r_v r) (Fin 0%Qc)
                        then Fin 1%Qc else r_v r))).
  - apply Permutation_map; auto.
  - intro r. rewrite (is_first_dev_perm l l') by auto. auto.
Qed.
Lemma nan_sum_perm a b : Permutation a b -> nan_sum a = nan_sum b.
Proof. rewrite <- !skipsum_nan_sum. apply skipsum_perm. Qed.
Lemma cell_total_perm l l' o d : Permutation l l' -> cell_total l o d = cell_total l' o d.
Proof.
  intro P. unfold cell_total.
  assert (Q : Permutation (values_at l o d) (values_at l' o d)).
  { unfold values_at. apply Permutation_map, filter_perm; auto. }
  assert (E := nan_sum_perm _ _ Q).
  destruct (values_at l o d) as [|a w] eqn:A, (values_at l' o d) as [|b w'] eqn:B; auto.
  - apply Permutation_nil_cons in Q. contradiction.
  - apply Permutation_sym, Permutation_nil_cons in Q. contradiction.
Qed.
Lemma build_perm l l' : Permutation l l' -> build l = build l'.
Proof.
  intro P. apply (holds_unique _ _ (zuniq (map r_o l)) (zuniq (map r_d l)) (cell_total l)).
  - apply build_holds.
  - assert (Eo : zuniq (map r_o l) = zuniq (map r_o l')).
    { apply zuniq_ext. intro x. split; apply Permutation_in, Permutation_map; auto. symmetry; auto. }
    assert (Ed : zuniq (map r_d l) = zuniq (map r_d l')).
    { apply zuniq_ext. intro x. split; apply Permutation_in, Permutation_map; auto. symmetry; auto. }
    rewrite Eo, Ed. eapply holds_ext; [|apply build_holds]. intros. symmetry.
    apply cell_total_perm; auto.
Qed.
Lemma c02 f f' o d v l l' : o <> d -> o <> v -> d <> v ->
  table_in f o d v l -> table_in f' o d v l' -> Permutation l l' -> l <> [] ->
  totri f "incr" "incr" "tabular" o d v = totri f' "incr" "incr" "tabular" o d v.
Proof.
  intros H1 H2 H3 T T' P Hl.
  rewrite (totri_incr_table o d v H1 H2 H3 f l), (totri_incr_table o d v H1 H2 H3 f' l'); auto.
  - rewrite (build_perm _ _ (adjusted_perm _ _ P)). auto.
  - intro E. subst. apply Permutation_sym, Permutation_nil in P. auto.
Qed.

(** ** C03 *)

Lemma cum_cell_fin l o d : all_finite l -> exists q, cum_cell l o d = Fin q.
Proof.
  intro A. unfold cum_cell. destruct (running_total_fin l o d A) as [q ->].
  destruct (_ && _); eauto.
Qed.

Lemma c03 f o d v l : o <> d -> o <> v -> d <> v ->
  o <> "cumval"%string -> d <> "cumval"%string -> v <> "cumval"%string ->
  table_in f o d v l -> l <> [] -> all_finite l -> dev_sorted l ->
  exists ob, totri f "cum" "incr" "tabular" o d v = Ok ob /\
    distinct_sorted (m_idx (t_mat (ob_tri ob))) (map r_o l) /\
    distinct_sorted (m_cols (t_mat (ob_tri ob))) (map r_d l) /\
    forall og dv, recorded l og dv ->
      (~ (first_dev l dv /\ vleb (running_total l og dv) (Fin 0%Qc) = true) ->
       cell_at (t_mat (ob_tri ob)) og dv = Some (running_total l og dv)) /\
      (first_dev l dv /\ vleb (running_total l og dv) (Fin 0%Qc) = true ->
       cell_at (t_mat (ob_tri ob)) og dv = Some (Fin 1%Qc)).
Proof.
  intros H1 H2 H3 H4 H5 H6 T Hl A S.
  destruct (totri_cum_mk o d v f l H1 H2 H3 H4 H5 H6 T Hl (all_finite_noinf _ A)) as (c & E & _).
  eexists. split; [exact E|]. cbn [ob_tri t_mat m_idx m_cols].
  split; [apply zuniq_distinct|]. split; [apply zuniq_distinct|].
  intros og dv R.
  assert (C : cell_at (mkMat (os_of l) (ds_of l) (mk (length (os_of l)) (length (ds_of l)) (fcell l))) og dv
              = Some (cum_cell l og dv)).
  { destruct (label_pos _ _ (recorded_os _ _ _ R)) as (i & Hi & ->).
    destruct (label_pos _ _ (recorded_ds _ _ _ R)) as (j & Hj & ->).
    rewrite cell_at_mk; auto using zsorted_nodup, os_sorted, ds_sorted. f_equal.
    unfold fcell. rewrite fillc_keep.
    - apply cum_cell_sorted; auto.
    - apply ucell_nan; auto using all_finite_noinf. }
  rewrite C. unfold cum_cell.
  assert (D : In dv (map r_d l)). { apply recorded_ds in R. unfold ds_of in R. rewrite zuniq_in in R. auto. }
  assert (FD := first_devb_spec l dv D).
  destruct (first_devb l dv) eqn:F, (vleb (running_total l og dv) (Fin 0%Qc)) eqn:V; simpl; split; auto.
  - intro N. exfalso. apply N. split; auto. apply FD; auto.
  - intros [_ Q]; discriminate.
  - intros [Q _]. apply FD in Q. discriminate.
  - intros [_ Q]; discriminate.
Qed.

(** ** C05 *)

Lemma c05 f o d v l : o <> d -> o <> v -> d <> v ->
  o <> "cumval"%string -> d <> "cumval"%string -> v <> "cumval"%string ->
  table_in f o d v l -> l <> [] -> no_inf l -> staircase l ->
  exists ob, totri f "cum" "incr" "tabular" o d v = Ok ob /\
    let m := t_mat (ob_tri ob) in
    forall og dv, In og (m_idx m) -> In dv (m_cols m) ->
      (is_actual l og dv -> exists q, cell_at m og dv = Some (Fin q)) /\
      (is_actual l og dv -> (forall d', (d' <= dv)%Z -> ~ recorded l og d') ->
         cell_at m og dv = Some (Fin 1%Qc)) /\
      (is_actual l og dv -> forall d0, (d0 <= dv)%Z -> recorded l og d0 ->
         (forall d', (d0 < d' <= dv)%Z -> ~ recorded l og d') ->
         cell_at m og dv = cell_at m og d0) /\
      (~ is_actual l og dv -> ~ first_dev l dv -> cell_at m og dv = Some NaN).
Proof.
  intros H1 H2 H3 H4 H5 H6 T Hl NI S.
  destruct (totri_cum_mk o d v f l H1 H2 H3 H4 H5 H6 T Hl NI) as (c & E & _).
  eexists. split; [exact E|]. cbn [ob_tri t_mat m_idx m_cols]. cbv zeta.
  intros og dv Ho Hd. cbn [m_idx m_cols] in Ho, Hd.
  destruct (label_pos _ _ Ho) as (i & Hi & ->). destruct (label_pos _ _ Hd) as (j & Hj & ->).
  assert (No := zsorted_nodup _ (os_sorted l)). assert (Nd := zsorted_nodup _ (ds_sorted l)).
  rewrite cell_at_mk by auto. rewrite actual_pos by auto.
  assert (TI : i <= lastpos l j -> forall k, k <= j -> (lastpos l k <? i) = false).
  { intros Hact k Hk. apply Nat.ltb_ge. etransitivity; [exact Hact|]. apply staircase_pos; auto. }
  repeat split.
  - intro Hact. unfold fcell.
    destruct (fillc_populated (fun j => ucell l (nth i (os_of l) 0%Z) (nth j (ds_of l) 0%Z))
                (fun j => lastpos l j <? i) j) as [Q|(k & Hk & Nk & Q)].
    + intros k Hk. apply TI; auto. lia.
    + rewrite Q. eauto.
    + rewrite Q. rewrite ucell_nan in Nk by auto. destruct (ucell_recorded _ _ _ NI Nk) as [q ->]. eauto.
  - intros Hact Hno. f_equal. unfold fcell. apply fillc_init.
    + apply ucell_unrecorded. apply Hno. apply zsorted_nth_le; auto using ds_sorted; lia.
    + intros k Hk. split; [apply TI; auto; lia|]. apply ucell_unrecorded. apply Hno.
      apply zsorted_nth_le; auto using ds_sorted; lia.
  - intros Hact d0 Hle R Hno.
    destruct (label_pos _ _ (recorded_ds _ _ _ R)) as (a & Ha & ->).
    rewrite cell_at_mk by auto. f_equal. unfold fcell. apply fillc_carry.
    + apply zsorted_nth_le in Hle; auto using ds_sorted.
    + intros k Hk. split; [apply TI; auto; lia|]. apply ucell_unrecorded. apply Hno. split.
      * apply zsorted_nth_lt; auto using ds_sorted; lia.
      * apply zsorted_nth_le; auto using ds_sorted; lia.
  - intros Hna Hnf. f_equal. unfold fcell.
    assert (Hj0 : 0 < j).
    { destruct j; [|lia]. exfalso. apply Hnf. split.
      - rewrite <- zuniq_in. exact Hd.
      - intros d' Hd'. rewrite <- zuniq_in in Hd'. change (In d' (ds_of l)) in Hd'. destruct (label_pos _ _ Hd') as (k & Hk & ->).
        apply zsorted_nth_le; auto using ds_sorted; lia. }
    rewrite fillc_below; auto.
    + destruct (lastpos_spec l j NI Hj) as (A & B & C). apply C. lia.
    + apply Nat.ltb_lt. lia.
Qed.

(** ** C06: the heap below the input is never written *)

Definition agree (n : nat) (h h' : heap) : Prop := n <= length h' /\ firstn n h' = firstn n h.

Lemma agree_refl n h : n <= length h -> agree n h h.
Proof. split; auto. Qed.
Lemma agree_alloc n h h' f : agree n h h' -> agree n h (fst (halloc h' f)).
Proof.
  intros [A B]. unfold halloc. simpl. split; [rewrite app_length; lia|].
  rewrite firstn_app. assert (n - length h' = 0) by lia. rewrite H. simpl. rewrite app_nil_r. auto.
Qed.
Lemma hset_length h r f : length (hset h r f) = length h.
Proof. revert r. induction h; intros [|r]; simpl; auto. Qed.
Lemma firstn_hset n h r f : n <= r -> firstn n (hset h r f) = firstn n h.
Proof.
  revert n r. induction h as [|x h IH]; intros n r H; simpl; auto.
  destruct r; simpl.
  - assert (n = 0) by lia. subst. auto.
  - destruct n; simpl; auto. f_equal. apply IH. lia.
Qed.
Lemma agree_set n h h' r f : n <= r -> agree n h h' -> agree n h (hset h' r f).
Proof.
  intros Hr [A B]. split; [rewrite hset_length; auto|]. rewrite firstn_hset; auto.
Qed.

Lemma base_ctor_agree n h h' r o d v : n <= r -> agree n h h' -> agree n h (fst (base_ctor h' r o d v)).
Proof.
  intros Hr A. unfold base_ctor.
  destruct (validate (hget h' r) o d v); auto.
  destruct (_ || _); auto.
  destruct (fint (hget h' r) o); auto. destruct (fint (hget h' r) d) as [ds|]; auto.
  destruct (fval (hget h' r) v) as [vs|]; auto. destruct ds; auto. cbn [fst]. apply agree_set; auto.
Qed.
Lemma cum_ctor_agree n h h' r o d v : n <= r -> agree n h h' -> agree n h (fst (cum_ctor h' r o d v)).
Proof.
  intros Hr A. unfold cum_ctor. destruct o as [o|]; auto. destruct v as [v|]; auto.
  destruct (fint (hget h' r) o); auto. destruct (fval (hget h' r) v); auto.
  destruct (fdrop _ v) as [f2|]; [|simpl; apply agree_set; auto].
  unfold halloc. apply base_ctor_agree.
  - rewrite !app_length, hset_length. simpl. destruct A. lia.
  - apply agree_alloc with (f := frename f2 "cumval" v), agree_alloc with (f := f2), agree_set; auto.
Qed.
Lemma totri_frame_agree h data df ds o d v :
  agree (length h) h (fst (totri_frame h data df ds o d v)) /\
  forall r, snd (totri_frame h data df ds o d v) = Ok r -> True.
Proof.
  split; auto. unfold totri_frame.
  destruct (String.eqb ds "triangle").
  - destruct data as [r|m nm]; [apply agree_refl; auto|].
    destruct (strip_starts "i" df).
    + destruct (match nm with None => true | Some s => String.eqb s "origin" end); simpl;
        [apply (agree_alloc _ h h), agree_refl; auto|apply agree_refl; auto].
    + destruct (strip_starts "c" df); [|apply agree_refl; auto].
      destruct (match nm with None => true | Some s => String.eqb s "origin" end); simpl;
        [apply (agree_alloc _ h h), agree_refl; auto|apply agree_refl; auto].
  - destruct (String.eqb ds "tabular"); [|apply agree_refl; auto].
    destruct data as [r|m nm]; [|apply agree_refl; auto].
    destruct (strip_starts "c" df); [|apply agree_refl; auto].
    cbn [halloc]. set (f1 := frename (hget h r) v "cum").
    assert (A1 : agree (length h) h (h ++ [f1])) by (apply (agree_alloc _ h h), agree_refl; auto).
    destruct (fint f1 o); [|auto]. destruct (fval f1 "cum"); [|auto].
    match goal with |- context [fdrop ?x "cum"] => destruct (fdrop x "cum") end.
    + cbn [halloc fst]. apply (agree_alloc _ h). apply agree_set; auto.
    + cbn [fst]. apply agree_set; auto.
Qed.

Lemma totri_agree h data tt df ds o d v :
  agree (length h) h (fst (totri_h h data tt df ds o d v)).
Proof.
  unfold totri_h. destruct (totri_frame_agree h data df ds o d v) as [A _].
  destruct (totri_frame h data df ds o d v) as [h1 [r1|e]]; simpl in A; [|auto].
  cbn [halloc].
  assert (A2 : agree (length h) h (h1 ++ [hget h1 r1])) by (apply (agree_alloc _ h h1); auto).
  assert (L : length h <= length h1) by (destruct A; auto).
  destruct (starts "i" tt).
  - unfold incr_ctor.
    assert (B := base_ctor_agree (length h) h (h1 ++ [hget h1 r1]) (length h1)
                  (dflt "origin" (Some o)) (dflt "dev" (Some d)) (dflt "value" (Some v)) L A2).
    destruct (base_ctor _ _ _ _ _) as [h3 [t|e]]; auto.
  - destruct (starts "c" tt); [|auto].
    assert (B := cum_ctor_agree (length h) h (h1 ++ [hget h1 r1]) (length h1)
                  (Some o) (Some d) (Some v) L A2).
    destruct (cum_ctor _ _ _ _ _) as [h3 [t|e]]; auto.
Qed.

Lemma c06 h data tt df ds o d v r : r < length h ->
  hget (fst (totri_h h data tt df ds o d v)) r = hget h r.
Proof.
  intro H. destruct (totri_agree h data tt df ds o d v) as [A B].
  unfold hget. assert (E : nth r (firstn (length h) (fst (totri_h h data tt df ds o d v))) [] = nth r (firstn (length h) h) []).
  { rewrite B. auto. }
  rewrite firstn_all in E. rewrite <- E.
  clear -H A. revert A. generalize (fst (totri_h h data tt df ds o d v)) as h'. generalize (length h) as n, H.
  intros n Hn h' A. clear -Hn A. revert r n Hn A. induction h' as [|x h' IH]; intros r n Hn A; simpl in *.
  - lia.
  - destruct n; [lia|]. destruct r; simpl; auto. apply IH; lia.
Qed.
