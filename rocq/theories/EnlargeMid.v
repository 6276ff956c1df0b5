(** Indicators assigned to origins anywhere (C78). *)

From Coq Require Import String QArith Qcanon ZArith List Bool Lia Sorting.Sorted.
From Verif Require Import Val Frame Triangle A2A Base Mack State SpecState ListLib QcLib Spec BuildFacts RegFacts MackFacts TriClaims4
  AvgClaims2 AcceptClaims Enlarge EnlargeClaims.
Import ListNotations.
Open Scope string_scope.
Open Scope list_scope.
Open Scope nat_scope.

Lemma window_cut dur l r : window dur (l ++ NaN :: r) = window dur l.
Proof.
  assert (Ef : first_nan (l ++ NaN :: r) = Some (match first_nan l with Some q => q | None => List.length l end)).
  { induction l as [|v l IH]; [reflexivity|]. cbn [app first_nan]. destruct (isnan v); auto. rewrite IH.
    destruct (first_nan l); reflexivity. }
  assert (Lf : match first_nan l with Some q => q | None => List.length l end <= List.length l).
  { clear. induction l as [|v l IH]; simpl; auto. destruct (isnan v); [lia|]. destruct (first_nan l); simpl; lia. }
  unfold window. rewrite Ef. set (fin := match first_nan l with Some q => q | None => List.length l end) in *.
  f_equal. unfold slice. set (b := if dur =? 0 then 0 else fin - dur).
  assert (b <= fin) by (unfold b; destruct (dur =? 0); lia).
  rewrite skipn_app, firstn_app, skipn_length.
  replace (fin - b - (List.length l - b)) with 0 by lia. rewrite firstn_O, app_nil_r. auto.
Qed.

(** Where a sorted list first leaves a sorted part of it. *)
Lemma first_outside U I : increasing U -> increasing I -> (forall o, In o I -> In o U) ->
  U = I \/ exists pre x rest post, U = pre ++ x :: rest /\ I = pre ++ post /\ ~ In x I /\
    (forall o, In o post -> (x < o)%Z) /\ (forall y, In y U -> ~ In y I -> (x <= y)%Z) /\ (forall o, In o pre -> (o < x)%Z).
Proof.
  revert I. induction U as [|u U IH]; intros I SU SI Sub.
  - left. destruct I as [|i I]; auto. destruct (Sub i); left; auto.
  - inversion SU as [|? ? SU' FU]; subst. rewrite Forall_forall in FU.
    destruct (in_dec Z.eq_dec u I) as [Hu|Hu].
    + destruct I as [|i I]; [destruct Hu|]. inversion SI as [|? ? SI' FI]; subst. rewrite Forall_forall in FI.
      assert (i = u).
      { destruct Hu as [->|Hu]; auto. specialize (FI u Hu). destruct (Sub i) as [E|H]; [left; auto|auto|]. specialize (FU i H). lia. }
      subst i. destruct (IH I SU' SI') as [->|(pre & x & rest & post & E1 & E2 & N & P1 & P2 & P3)]; auto.
      * intros o Ho. destruct (Sub o) as [<-|H]; [right; auto| |auto]. specialize (FI u Ho). lia.
      * right. exists (u :: pre), x, rest, post. subst U I. split; auto. split; auto.
        assert (Hx : (u < x)%Z) by (apply FU, in_app_iff; right; left; auto).
        split; [|split; [auto|split]].
        -- intros [->|H]; [lia|auto].
        -- intros y [<-|Hy] Ny; [exfalso; apply Ny; left; auto|]. apply P2; auto. intros H. apply Ny. right. auto.
        -- intros o [<-|Ho]; auto.
    + right. exists [], u, U, I. split; auto. split; auto. split; auto.
      assert (G : forall o, In o I -> (u < o)%Z).
      { intros o Ho. destruct (Sub o Ho) as [<-|H]; [contradiction|auto]. }
      split; auto. split; [|intros o []]. intros y [<-|Hy] _; [lia|]. specialize (FU y Hy). lia.
Qed.

Section S.
  Variable m : lmat.
  Hypothesis Sm : increasing (m_idx m).
  Hypothesis Sc : increasing (m_cols m).
  Notation I := (m_idx (a2a m)).
  Notation A := (m_cols (a2a m)).

  Lemma c78_any gm l ind :
    (forall a, In a l -> In (snd (fst a)) A) ->
    (forall i j, i < List.length I -> j < List.length A ->
       (exists a, In a l /\ ~ In (fst (fst a)) I /\ (fst (fst a) < nth i I 0)%Z) -> nth j (nth i ind []) NaN = NaN) ->
    (forall i j, i < List.length I -> j < List.length A ->
       ~ (exists a, In a l /\ ~ In (fst (fst a)) I /\ (fst (fst a) < nth i I 0)%Z) ->
       nth j (nth i ind []) NaN = match last_value l (nth i I 0%Z) (nth j A 0%Z) with
                                  | Some v => v | None => nth j (nth i (a2aind_init m) []) NaN end) ->
    avgs_in gm m (frame_after m l) = a2a_avgs gm m ind.
  Proof.
    intros Hl Hcut Hind. destruct (after_inv m Sm Sc l) as (N1 & N2 & H1 & H2 & H3). set (F := frame_after m l) in *.
    unfold avgs_in, a2a_avgs. set (adj := falign vmul (a2a m) F).
    assert (Ec : m_cols adj = A).
    { apply zunion_sub; [apply A_sorted; auto|]. intros d Hd. apply H2 in Hd as [Hd|(a & Ha & <-)]; auto. }
    assert (SI := I_sorted m Sm).
    assert (Hin : forall o, In o (m_idx adj) <-> In o I \/ exists a, In a l /\ fst (fst a) = o).
    { intros o. unfold adj. cbn [falign m_idx]. rewrite zunion_in, H1. tauto. }
    apply mapM_ext. intros (a & dur) _. cbn [fst snd].
    assert (Er : mapM (one_avg_in gm m adj a dur) (seq 0 (ncols adj)) = mapM (one_avg gm m ind a dur) (seq 0 (ncols (a2a m)))).
    { unfold ncols at 1. rewrite Ec. fold (ncols (a2a m)). apply mapM_ext. intros j Hj. apply in_seq in Hj. unfold ncols in Hj.
      unfold one_avg_in, one_avg.
      assert (Ew : window dur (mcol adj j) = window dur (mcol (a2a_adj m ind) j)).
      { set (g := fun o => vmul (mget (a2a m) o (nth j A 0%Z)) (mget F o (nth j A 0%Z))).
        assert (Ea : mcol adj j = map g (m_idx adj)).
        { unfold adj. rewrite adj_col; auto; fold adj; [rewrite Ec; reflexivity|unfold ncols; rewrite Ec; lia]. }
        set (out := fun o => exists a, In a l /\ ~ In (fst (fst a)) I /\ (fst (fst a) < o)%Z).
        assert (Hg : forall i, i < List.length I -> ~ out (nth i I 0%Z) ->
                  cell (m_cells (a2a_adj m ind)) i j = g (nth i I 0%Z)).
        { intros i Hi No. unfold a2a_adj. cbn [m_cells]. rewrite cell_mk by (unfold nrows, ncols; lia).
          unfold g. rewrite a2a_get by (unfold nrows, ncols; auto; lia). f_equal.
          rewrite H3. unfold cell at 1. rewrite (Hind i j Hi ltac:(lia) No).
          destruct (last_value _ _ _); auto. rewrite init_get by (unfold nrows, ncols; auto; lia). auto. }
        assert (Hg2 : forall i, i < List.length I -> out (nth i I 0%Z) -> cell (m_cells (a2a_adj m ind)) i j = NaN).
        { intros i Hi Yo. unfold a2a_adj. cbn [m_cells]. rewrite cell_mk by (unfold nrows, ncols; lia).
          assert (Z : cell ind i j = NaN) by (apply Hcut; auto; lia). rewrite Z. destruct (cell (m_cells (a2a m)) i j); reflexivity. }
        destruct (first_outside (m_idx adj) I) as [E|(pre & x & rest & post & E1 & E2 & Nx & P1 & P2 & P3)]; auto.
        { apply zunion_sorted. auto. }
        { intros o Ho. apply Hin. auto. }
        - rewrite Ea, E. f_equal. unfold mcol, a2a_adj, nrows. cbn [m_idx]. rewrite (map_by_pos _ I). apply map_seq_ext. intros i Hi.
          symmetry. apply Hg; [lia|]. intros (b & Hb & Nb & _). apply Nb. rewrite <- E. apply Hin. right. eauto.
        - rewrite Ea, E1, map_app. cbn [map]. assert (Gx : g x = NaN). { unfold g. rewrite (mget_out (a2a m)); auto. }
          rewrite Gx, window_cut.
          assert (Eb : mcol (a2a_adj m ind) j = map g pre ++ repeat NaN (List.length post)).
          { assert (LI : List.length I = List.length pre + List.length post) by (rewrite E2, app_length; auto).
            assert (Ox : exists a, In a l /\ fst (fst a) = x).
            { assert (Q : In x (m_idx adj)) by (rewrite E1; apply in_app_iff; right; left; auto). apply Hin in Q as [Q|Q]; [contradiction|auto]. }
            assert (Ni : forall i, i < List.length pre -> nth i I 0%Z = nth i pre 0%Z) by (intros; rewrite E2; apply app_nth1; auto).
            assert (Np : forall i, nth (List.length pre + i) I 0%Z = nth i post 0%Z).
            { intros i. rewrite E2, app_nth2 by lia. f_equal. lia. }
            unfold mcol, nrows. change (List.length (m_idx (a2a_adj m ind))) with (List.length I). rewrite LI.
            rewrite seq_app, map_app. f_equal.
            + rewrite (map_by_pos g pre). apply map_seq_ext. intros i Hi. rewrite <- Ni by lia. apply Hg; [lia|].
              rewrite Ni by lia. intros (b & Hb & Nb & Lb).
              assert (Q : (x <= fst (fst b))%Z) by (apply P2; auto; apply Hin; right; eauto).
              assert (R : (nth i pre 0 < x)%Z) by (apply P3, nth_In; lia). lia.
            + cbn [plus]. rewrite <- (seq_length (List.length post) (List.length pre)) at 2.
              assert (Q : forall i, In i (seq (List.length pre) (List.length post)) -> cell (m_cells (a2a_adj m ind)) i j = NaN).
              { intros i Hi. apply in_seq in Hi. apply Hg2; [lia|]. destruct Ox as (b & Hb & <-).
                exists b. split; auto. split; auto. replace i with (List.length pre + (i - List.length pre)) by lia. rewrite Np.
                apply P1, nth_In. lia. }
              revert Q. generalize (seq (List.length pre) (List.length post)) as L. clear.
              induction L as [|i L IH]; intros Q; auto. cbn [map repeat List.length]. rewrite (Q i) by (left; auto). f_equal. apply IH. intros; apply Q; right; auto. }
          rewrite Eb, window_app. auto. }
      rewrite Ew. auto. }
    rewrite Er. auto.
  Qed.

  Lemma c78_base_any gm l ind v cl s tail :
    (forall a, In a l -> In (snd (fst a)) A) ->
    (forall i j, i < List.length I -> j < List.length A ->
       (exists a, In a l /\ ~ In (fst (fst a)) I /\ (fst (fst a) < nth i I 0)%Z) -> nth j (nth i ind []) NaN = NaN) ->
    (forall i j, i < List.length I -> j < List.length A ->
       ~ (exists a, In a l /\ ~ In (fst (fst a)) I /\ (fst (fst a) < nth i I 0)%Z) ->
       nth j (nth i ind []) NaN = match last_value l (nth i I 0%Z) (nth j A 0%Z) with
                                  | Some v => v | None => nth j (nth i (a2aind_init m) []) NaN end) ->
    avgs_in gm m (frame_after m l) = a2a_avgs gm m ind /\
    base_cl_in gm (mkTri m "origin" "dev" v) cl (frame_after m l) s tail
    = snd (base_cl gm (mkTri m "origin" "dev" v) cl ind (SelLabel s) tail).
  Proof.
    intros Hl H1 H2. assert (E := c78_any gm l ind Hl H1 H2). split; auto.
    unfold base_cl_in, ldfs_in, base_cl, select_ldfs, ldfs_of_label. cbn [t_mat snd]. rewrite E. auto.
  Qed.
End S.
