(** Proofs of C78: assignments to labels outside the link ratio table. *)

From Coq Require Import String QArith Qcanon ZArith List Bool Lia Sorting.Sorted Permutation.
From Verif Require Import Val Frame Triangle A2A Base Mack State SpecState ListLib QcLib Spec BuildFacts RegFacts RegFacts ListLib MackFacts TriClaims4
  AvgClaims2 AcceptClaims Enlarge.
Import ListNotations.
Open Scope string_scope.
Open Scope list_scope.
Open Scope nat_scope.

Lemma zmem_in x l : zmem x l = true <-> In x l.
Proof.
  unfold zmem. rewrite existsb_exists. split.
  - intros (y & H & E). apply Z.eqb_eq in E. subst. auto.
  - intro H. exists x. split; auto. apply Z.eqb_refl.
Qed.
Lemma zadd_in x y l : In x (zadd y l) <-> In x l \/ x = y.
Proof.
  unfold zadd. destruct (zmem y l) eqn:E.
  - apply zmem_in in E. split; auto. intros [H| ->]; auto.
  - rewrite in_app_iff. simpl. intuition congruence.
Qed.
Lemma zadd_nodup y l : NoDup l -> NoDup (zadd y l).
Proof.
  intro H. unfold zadd. destruct (zmem y l) eqn:E; auto.
  apply (Permutation_NoDup (Permutation_cons_append l y)). constructor; auto. intro Q. apply zmem_in in Q. congruence.
Qed.

(** Looking a cell up in a frame given by a function of the labels. *)
Lemma mget_fun os ds (g : Z -> Z -> val) o d : NoDup os -> NoDup ds ->
  mget (mkMat os ds (map (fun o => map (fun d => g o d) ds) os)) o d = if (zmem o os && zmem d ds)%bool then g o d else NaN.
Proof.
  intros No Nd. unfold mget, cell_at. cbn [m_idx m_cols m_cells].
  destruct (zfind o os) as [i|] eqn:Ei.
  - apply zfind_some in Ei as (Li & Ni). assert (Eo : zmem o os = true) by (apply zmem_in; rewrite <- (Ni 0%Z); apply nth_In; auto).
    rewrite Eo. cbn [andb]. destruct (zfind d ds) as [j|] eqn:Ej.
    + apply zfind_some in Ej as (Lj & Nj). assert (Ed : zmem d ds = true) by (apply zmem_in; rewrite <- (Nj 0%Z); apply nth_In; auto).
      rewrite Ed. unfold cell. rewrite (nth_map_in _ os _ _ 0%Z) by auto. rewrite (nth_map_in _ ds _ _ 0%Z) by auto.
      rewrite Ni, Nj. auto.
    + destruct (zmem d ds) eqn:Q; auto. apply zmem_in in Q. apply zfind_none in Ej. contradiction.
  - destruct (zmem o os) eqn:Q; auto. apply zmem_in in Q. apply zfind_none in Ei. contradiction.
Qed.
Lemma mget_out m o d : ~ In o (m_idx m) \/ ~ In d (m_cols m) -> mget m o d = NaN.
Proof.
  intro H. unfold mget, cell_at. destruct (zfind o (m_idx m)) as [i|] eqn:E1; auto. destruct (zfind d (m_cols m)) as [j|] eqn:E2; auto.
  exfalso. apply zfind_some in E1 as (L1 & N1). apply zfind_some in E2 as (L2 & N2).
  destruct H as [H|H]; apply H; [rewrite <- (N1 0%Z)|rewrite <- (N2 0%Z)]; apply nth_In; auto.
Qed.

Lemma frame_at_get F o d v o' d' : NoDup (m_idx F) -> NoDup (m_cols F) ->
  mget (frame_at F o d v) o' d' = if (Z.eqb o' o && Z.eqb d' d)%bool then v else mget F o' d'.
Proof.
  intros No Nd. unfold frame_at.
  rewrite (mget_fun _ _ (fun o' d' => if (Z.eqb o' o && Z.eqb d' d)%bool then v else mget F o' d')) by (apply zadd_nodup; auto).
  destruct (zmem o' (zadd o (m_idx F)) && zmem d' (zadd d (m_cols F)))%bool eqn:E; auto.
  assert (K : ~ (In o' (zadd o (m_idx F)) /\ In d' (zadd d (m_cols F)))).
  { intros (K1 & K2). apply zmem_in in K1, K2. rewrite K1, K2 in E. discriminate. }
  rewrite !zadd_in in K.
  destruct (Z.eqb_spec o' o), (Z.eqb_spec d' d); cbn [andb]; try (exfalso; tauto); symmetry; apply mget_out;
    destruct (in_dec Z.eq_dec o' (m_idx F)), (in_dec Z.eq_dec d' (m_cols F)); tauto.
Qed.

Lemma last_value_snoc l a o d : last_value (l ++ [a]) o d =
  if (Z.eqb (fst (fst a)) o && Z.eqb (snd (fst a)) d)%bool then Some (snd a) else last_value l o d.
Proof.
  induction l as [|[[o1 d1] v1] l IH]; [destruct a as [[? ?] ?]; auto|]. cbn [app last_value]. rewrite IH.
  destruct (_ && _)%bool; auto.
Qed.

Section S.
  Variable m : lmat.
  Hypothesis Sm : increasing (m_idx m).
  Hypothesis Sc : increasing (m_cols m).
  Notation I := (m_idx (a2a m)).
  Notation A := (m_cols (a2a m)).

  Lemma I_sorted : increasing I.
  Proof. unfold a2a, keep_rows. cbn [m_idx]. apply zsorted_picks. exact Sm. Qed.
  Lemma A_sorted : increasing A.
  Proof. unfold a2a, keep_cols. cbn [m_cols]. apply zsorted_picks. exact Sc. Qed.

  Lemma after_inv l : let F := frame_after m l in
    NoDup (m_idx F) /\ NoDup (m_cols F) /\
    (forall o, In o (m_idx F) <-> In o I \/ exists a, In a l /\ fst (fst a) = o) /\
    (forall d, In d (m_cols F) <-> In d A \/ exists a, In a l /\ snd (fst a) = d) /\
    (forall o d, mget F o d = match last_value l o d with Some v => v | None => mget (ind_frame m) o d end).
  Proof.
    cbv zeta. induction l as [|a l IH] using rev_ind.
    - unfold frame_after. cbn [fold_left]. 
      split; [apply zsorted_nodup, I_sorted|]. split; [apply zsorted_nodup, A_sorted|].
      split; [|split; [|auto]]; intro; (split; [left; auto|intros [H|(a & [] & _)]; exact H]).
    - destruct IH as (N1 & N2 & H1 & H2 & H3). unfold frame_after. rewrite fold_left_app. cbn [fold_left].
      change (fold_left (fun F a => frame_at F (fst (fst a)) (snd (fst a)) (snd a)) l (ind_frame m)) with (frame_after m l).
      set (F := frame_after m l) in *.
      split; [apply zadd_nodup; auto|]. split; [apply zadd_nodup; auto|].
      split; [|split].
      + intro o. cbn [frame_at m_idx]. rewrite zadd_in, H1. split.
        * intros [[H|(b & Hb & E)]|H]; auto; right; [exists b|exists a]; rewrite in_app_iff; simpl; auto.
        * intros [H|(b & Hb & E)]; auto. apply in_app_iff in Hb as [Hb|[<-|[]]]; eauto.
      + intro d. cbn [frame_at m_cols]. rewrite zadd_in, H2. split.
        * intros [[H|(b & Hb & E)]|H]; auto; right; [exists b|exists a]; rewrite in_app_iff; simpl; auto.
        * intros [H|(b & Hb & E)]; auto. apply in_app_iff in Hb as [Hb|[<-|[]]]; eauto.
      + intros o d. rewrite frame_at_get by auto. rewrite last_value_snoc, H3.
        rewrite (Z.eqb_sym o), (Z.eqb_sym d). destruct (_ && _)%bool; auto.
  Qed.

  (** *** The aligned product *)
  Lemma zunion_in a b o : In o (zunion a b) <-> In o a \/ In o b.
  Proof.
    unfold zunion. destruct (listb Z.eqb a b) eqn:E.
    - apply listb_eq in E; [|intros; apply Z.eqb_eq; auto]. subst. tauto.
    - change (uniq Z.compare) with zuniq. rewrite zuniq_in, in_app_iff. tauto.
  Qed.
  Lemma zunion_sorted a b : increasing a -> increasing (zunion a b).
  Proof. intro H. unfold zunion. destruct (listb Z.eqb a b); auto. apply zuniq_sorted. Qed.

  Lemma adj_col F j : NoDup (m_idx F) -> NoDup (m_cols F) -> let adj := falign vmul (a2a m) F in
    j < ncols adj ->
    mcol adj j = map (fun o => vmul (mget (a2a m) o (nth j (m_cols adj) 0%Z)) (mget F o (nth j (m_cols adj) 0%Z))) (m_idx adj).
  Proof.
    intros N1 N2 adj Hj. unfold mcol, nrows. rewrite (map_by_pos _ (m_idx adj)). apply map_seq_ext. intros i Hi.
    unfold adj at 1, falign, cell. cbn [m_cells].
    change (zunion (m_idx (a2a m)) (m_idx F)) with (m_idx adj). change (zunion (m_cols (a2a m)) (m_cols F)) with (m_cols adj).
    rewrite (nth_map_in _ (m_idx adj) _ _ 0%Z) by lia. rewrite (nth_map_in _ (m_cols adj) _ _ 0%Z) by (unfold ncols in Hj; lia). auto.
  Qed.

  Lemma one_err gm adj a dur col e : one_avg_in gm m adj a dur col = Err e -> e = IndexError.
  Proof.
    unfold one_avg_in, simple_avg, geometric_avg, medial_avg, weighted_avg. destruct a; try discriminate.
    - destruct (ssort _ _) as [|x r]; [congruence|]. destruct (forallb _ _); [discriminate|].
      destruct r as [|y [|z r]]; try discriminate. destruct (filter _ _); discriminate.
    - destruct (_ <=? _); [congruence|]. destruct (_ <=? _); [congruence|discriminate].
  Qed.

  Lemma avgs_fail gm F : let adj := falign vmul (a2a m) F in
    (exists j, j < ncols adj /\ forall dur, window dur (mcol adj j) = []) -> avgs_in gm m F = Err IndexError.
  Proof.
    intros adj (j & Hj & W). unfold avgs_in. fold adj.
    destruct (mapM _ (avg_specs _)) as [r|e] eqn:E.
    - exfalso. assert (Hs : In (Medial, 0) (avg_specs (nrows (a2a m)))).
      { unfold avg_specs. apply in_prod; [simpl; auto|]. apply in_app_iff. right. left. auto. }
      destruct (mapM_in _ _ _ _ E Hs) as (y & Ey). cbn [fst snd] in Ey.
      destruct (mapM (one_avg_in gm m adj Medial 0) (seq 0 (ncols adj))) as [row|] eqn:Er; cbn [bind] in Ey; [|discriminate].
      destruct (mapM_in _ _ _ j Er) as (x & Ex); [apply in_seq; lia|].
      unfold one_avg_in in Ex. rewrite W in Ex. discriminate.
    - apply mapM_err in E as ((a & dur) & _ & E). cbn [fst snd] in E.
      destruct (mapM (one_avg_in gm m adj a dur) (seq 0 (ncols adj))) as [row|e'] eqn:Er; cbn [bind] in E; [discriminate|].
      injection E as <-. apply mapM_err in Er as (c & _ & Er). apply one_err in Er. subst. auto.
  Qed.

  Lemma window_head dur l : window dur (NaN :: l) = [].
  Proof. unfold window. cbn [first_nan isnan]. cbn [Nat.sub]. unfold slice. destruct (dur =? 0); reflexivity. Qed.
  Lemma window_nil dur : window dur [] = [].
  Proof. unfold window. cbn. unfold slice. destruct (dur =? 0); reflexivity. Qed.

  (** A period outside the table. *)
  Lemma c78_period gm l a : In a l -> ~ In (snd (fst a)) A -> avgs_in gm m (frame_after m l) = Err IndexError.
  Proof.
    intros Ha Na. destruct (after_inv l) as (N1 & N2 & H1 & H2 & H3). set (F := frame_after m l) in *.
    apply avgs_fail. set (adj := falign vmul (a2a m) F).
    assert (Hd : In (snd (fst a)) (m_cols adj)).
    { unfold adj. cbn [falign m_cols]. apply zunion_in. right. apply H2. eauto. }
    destruct (In_nth _ _ 0%Z Hd) as (j & Hj & Ej). exists j. split; auto. intro dur.
    unfold adj. rewrite adj_col by (auto; apply Hj). fold adj. rewrite Ej.
    rewrite (map_ext _ (fun _ => NaN)).
    - destruct (m_idx adj); [apply window_nil|apply window_head].
    - intro o. rewrite (mget_out (a2a m)); auto.
  Qed.

  (** An origin before the first. *)
  Lemma c78_early gm l a : In a l -> (forall o, In o I -> (fst (fst a) < o)%Z) -> 0 < List.length A ->
    avgs_in gm m (frame_after m l) = Err IndexError.
  Proof.
    intros Ha Na PA. destruct (after_inv l) as (N1 & N2 & H1 & H2 & H3). set (F := frame_after m l) in *.
    apply avgs_fail. set (adj := falign vmul (a2a m) F).
    exists 0. split.
    { unfold adj, ncols. cbn [falign m_cols]. destruct (zunion A (m_cols F)) eqn:E; simpl; [|lia].
      destruct A as [|x r]; [simpl in PA; lia|]. assert (K : In x (zunion (x :: r) (m_cols F))) by (apply zunion_in; left; left; auto).
      rewrite E in K. destruct K. }
    intro dur. unfold adj. rewrite adj_col; auto.
    2:{ unfold adj, ncols. cbn [falign m_cols]. destruct (zunion A (m_cols F)) eqn:E; simpl; [|lia].
        destruct A as [|x r]; [simpl in PA; lia|]. assert (K : In x (zunion (x :: r) (m_cols F))) by (apply zunion_in; left; left; auto).
        rewrite E in K. destruct K. }
    fold adj. assert (Si : increasing (m_idx adj)) by (apply zunion_sorted, I_sorted).
    assert (Hi : In (fst (fst a)) (m_idx adj)) by (apply zunion_in; right; apply H1; eauto).
    destruct (m_idx adj) as [|x r]; [destruct Hi|]. cbn [map]. rewrite (mget_out (a2a m)); [apply window_head|].
    left. intro Hx. specialize (Na x Hx). inversion Si as [|? ? _ Fx]; subst. rewrite Forall_forall in Fx.
    destruct Hi as [Hi|Hi]; [lia|]. specialize (Fx _ Hi). lia.
  Qed.

  (** Origins after the last. *)
  Lemma window_app dur l k : window dur (l ++ repeat NaN k) = window dur l.
  Proof.
    destruct k as [|k]; [cbn [repeat]; rewrite app_nil_r; auto|].
    assert (Ef : first_nan (l ++ repeat NaN (S k)) = Some (match first_nan l with Some q => q | None => List.length l end)).
    { induction l as [|v l IH]; [reflexivity|]. cbn [app first_nan]. destruct (isnan v); auto. rewrite IH.
      destruct (first_nan l); reflexivity. }
    assert (Lf : match first_nan l with Some q => q | None => List.length l end <= List.length l).
    { clear. induction l as [|v l IH]; simpl; auto. destruct (isnan v); [lia|]. destruct (first_nan l); simpl; lia. }
    unfold window. rewrite Ef. set (fin := match first_nan l with Some q => q | None => List.length l end) in *.
    f_equal. unfold slice. set (b := if dur =? 0 then 0 else fin - dur).
    assert (b <= fin) by (unfold b; destruct (dur =? 0); lia).
    rewrite skipn_app, firstn_app, skipn_length.
    replace (fin - b - (List.length l - b)) with 0 by lia. rewrite firstn_O, app_nil_r. auto.
  Qed.

  Lemma union_after X : (forall o, In o I -> In o X) -> (forall o, In o X -> In o I \/ forall o', In o' I -> (o' < o)%Z) ->
    exists ext, zunion I X = I ++ ext /\ forall o, In o ext -> ~ In o I.
  Proof.
    intros Sub Aft. set (ext := filter (fun o => negb (zmem o I)) (zuniq X)). exists ext.
    assert (Hx : forall o, In o ext -> ~ In o I).
    { intros o H. apply filter_In in H as (_ & H). intro Q. apply zmem_in in Q. rewrite Q in H. discriminate. }
    split; auto.
    assert (Se : increasing (I ++ ext)).
    { assert (Se : increasing ext).
      { unfold ext. assert (K := zuniq_sorted X). revert K. generalize (zuniq X) as l. clear.
        induction l as [|x l IH]; intro K; [constructor|]. inversion K as [|? ? K1 K2]; subst. cbn [filter]. destruct (negb _); auto.
        constructor; [apply IH; auto|]. rewrite Forall_forall in K2 |- *. intros y Hy. apply filter_In in Hy as (Hy & _). auto. }
      assert (C : forall x y, In x I -> In y ext -> (x < y)%Z).
      { intros x y H1 H2. assert (N := Hx y H2). apply filter_In in H2 as (H2 & _). apply (proj1 (zuniq_in _ _)) in H2.
        destruct (Aft y H2) as [Q|Q]; [contradiction|auto]. }
      revert C Se. generalize I_sorted. generalize I as l. clear. induction l as [|x l IH]; intros K C Se; auto.
      inversion K as [|? ? K1 K2]; subst. cbn [app]. constructor.
      - apply IH; auto. intros; apply C; simpl; auto.
      - rewrite Forall_forall in K2 |- *. intros y Hy. apply in_app_iff in Hy as [Hy|Hy]; auto. apply C; simpl; auto. }
    transitivity (zuniq (I ++ ext)); [|apply zuniq_id; auto].
    transitivity (zuniq (zunion I X)); [symmetry; apply zuniq_id, zunion_sorted, I_sorted|].
    apply zuniq_ext. intro o. rewrite zunion_in, in_app_iff. split.
    - intros [H|H]; auto. destruct (zmem o I) eqn:Q; [left; apply zmem_in; auto|].
      right. apply filter_In. split; [apply zuniq_in; auto|rewrite Q; auto].
    - intros [H|H]; auto. right. apply filter_In in H as (H & _). apply (proj1 (zuniq_in _ _)) in H. auto.
  Qed.

  Lemma a2a_get i j : i < nrows (a2a m) -> j < ncols (a2a m) ->
    mget (a2a m) (nth i I 0%Z) (nth j A 0%Z) = cell (m_cells (a2a m)) i j.
  Proof.
    intros Hi Hj. unfold nrows, ncols in *. unfold mget, cell_at.
    rewrite !zfind_nth; auto using zsorted_nodup; apply zsorted_nodup; [apply A_sorted|apply I_sorted].
  Qed.
  Lemma init_get i j : i < nrows (a2a m) -> j < ncols (a2a m) ->
    mget (ind_frame m) (nth i I 0%Z) (nth j A 0%Z) = cell (a2aind_init m) i j.
  Proof.
    intros Hi Hj. unfold nrows, ncols in *. unfold mget, cell_at, ind_frame. cbn [m_idx m_cols m_cells].
    rewrite !zfind_nth; auto using zsorted_nodup; apply zsorted_nodup; [apply A_sorted|apply I_sorted].
  Qed.

  Lemma c78_late gm l ind :
    (forall a, In a l -> In (snd (fst a)) A /\ (In (fst (fst a)) I \/ forall o, In o I -> (o < fst (fst a))%Z)) ->
    (forall i j, i < List.length I -> j < List.length A ->
       nth j (nth i ind []) NaN = match last_value l (nth i I 0%Z) (nth j A 0%Z) with
                                  | Some v => v | None => nth j (nth i (a2aind_init m) []) NaN end) ->
    avgs_in gm m (frame_after m l) = a2a_avgs gm m ind.
  Proof.
    intros Hl Hind. destruct (after_inv l) as (N1 & N2 & H1 & H2 & H3). set (F := frame_after m l) in *.
    unfold avgs_in, a2a_avgs. set (adj := falign vmul (a2a m) F).
    assert (Ec : m_cols adj = A).
    { apply zunion_sub; [apply A_sorted|]. intros d Hd. apply H2 in Hd as [Hd|(a & Ha & <-)]; auto. apply (Hl a Ha). }
    destruct (union_after (m_idx F)) as (ext & Ei & Hx).
    { intros o Ho. apply H1. auto. }
    { intros o Ho. apply H1 in Ho as [Ho|(a & Ha & <-)]; auto. apply (Hl a Ha). }
    assert (Ei' : m_idx adj = I ++ ext) by exact Ei.
    apply mapM_ext. intros (a & dur) _. cbn [fst snd].
    assert (Er : mapM (one_avg_in gm m adj a dur) (seq 0 (ncols adj)) = mapM (one_avg gm m ind a dur) (seq 0 (ncols (a2a m)))).
    { unfold ncols at 1. rewrite Ec. fold (ncols (a2a m)). apply mapM_ext. intros j Hj. apply in_seq in Hj.
      unfold one_avg_in, one_avg.
      assert (Em : mcol adj j = mcol (a2a_adj m ind) j ++ repeat NaN (List.length ext)).
      { unfold adj. rewrite adj_col; auto; fold adj; [|unfold ncols; rewrite Ec; unfold ncols in Hj; lia].
        rewrite Ec, Ei', map_app. f_equal.
        - unfold mcol, a2a_adj, nrows. cbn [m_idx m_cells]. rewrite (map_by_pos _ I). apply map_seq_ext. intros i Hi.
          rewrite cell_mk by (unfold nrows; lia). rewrite a2a_get by (unfold nrows; lia). f_equal.
          rewrite H3. unfold cell at 1. rewrite Hind by (unfold ncols in Hj; lia).
          destruct (last_value _ _ _); auto. rewrite init_get by (unfold nrows; lia). auto.
        - clear - Hx. induction ext as [|x r IH]; auto. cbn [map repeat List.length]. f_equal.
          + rewrite (mget_out (a2a m)); auto. left. apply Hx. left. auto.
          + apply IH. intros. apply Hx. right. auto. }
      rewrite Em, window_app. auto. }
    rewrite Er. auto.
  Qed.

  Lemma c78_base_late gm l ind v cl s tail :
    (forall a, In a l -> In (snd (fst a)) A /\ (In (fst (fst a)) I \/ forall o, In o I -> (o < fst (fst a))%Z)) ->
    (forall i j, i < List.length I -> j < List.length A ->
       nth j (nth i ind []) NaN = match last_value l (nth i I 0%Z) (nth j A 0%Z) with
                                  | Some v => v | None => nth j (nth i (a2aind_init m) []) NaN end) ->
    avgs_in gm m (frame_after m l) = a2a_avgs gm m ind /\
    base_cl_in gm (mkTri m "origin" "dev" v) cl (frame_after m l) s tail
    = snd (base_cl gm (mkTri m "origin" "dev" v) cl ind (SelLabel s) tail).
  Proof.
    intros Hl Hi. assert (E := c78_late gm l ind Hl Hi). split; auto.
    unfold base_cl_in, ldfs_in, base_cl, select_ldfs, ldfs_of_label. cbn [t_mat snd]. rewrite E. auto.
  Qed.
  Lemma c78_base_fail gm l a v cl s tail : In a l ->
    ~ In (snd (fst a)) A \/ (forall o, In o I -> (fst (fst a) < o)%Z) /\ 0 < List.length A ->
    avgs_in gm m (frame_after m l) = Err IndexError /\
    base_cl_in gm (mkTri m "origin" "dev" v) cl (frame_after m l) s tail = Err IndexError.
  Proof.
    intros Ha H. assert (E : avgs_in gm m (frame_after m l) = Err IndexError).
    { destruct H as [H|(H & P)]; [eapply c78_period; eauto|eapply c78_early; eauto]. }
    split; auto. unfold base_cl_in, ldfs_in. cbn [t_mat]. rewrite E. auto.
  Qed.
End S.
