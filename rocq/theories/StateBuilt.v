(** Every cumulative triangle returned by [totri] meets the hypotheses of C18 and C27. *)

From Coq Require Import String QArith Qcanon ZArith List Bool Lia Ascii.
From Verif Require Import Val QcLib Frame Triangle A2A Base State ListLib Spec BuildFacts SpecState StateClaims.
Import ListNotations.
Open Scope string_scope.
Open Scope list_scope.
Open Scope nat_scope.

Lemma last_valid_ex l : (exists v, In v l /\ isnan v = false) -> exists k, last_valid l = Some k.
Proof.
  induction l as [|x l IH]; intros [v [Hv Hn]]; [destruct Hv|]. simpl.
  destruct (last_valid l) as [k|] eqn:E; [eexists; reflexivity|].
  destruct Hv as [->|Hv]; [rewrite Hn; eexists; reflexivity|].
  destruct IH as [k Hk]; [eauto|discriminate Hk].
Qed.
Lemma mapM_total {A B} (f : A -> res B) l : (forall x, In x l -> exists y, f x = Ok y) ->
  exists ys, mapM f l = Ok ys.
Proof.
  induction l as [|a l IH]; intros H; [eexists; reflexivity|]. simpl.
  destruct (H a (or_introl eq_refl)) as [y ->]. simpl.
  destruct IH as [ys ->]; [intros; apply H; right; assumption|]. eexists; reflexivity.
Qed.

Lemma base_ctor_build h r o d v h' t : base_ctor h r o d v = (h', Ok t) -> exists l, t_mat t = build l.
Proof.
  unfold base_ctor. destruct (validate _ _ _ _); [|discriminate].
  destruct (_ || _); [discriminate|].
  destruct (fint _ o) as [os|]; [|discriminate]. destruct (fint _ d) as [ds|]; [|discriminate].
  destruct (fval _ v) as [vs|]; [|discriminate]. destruct ds as [|a ds]; [discriminate|].
  intros H. injection H as _ <-. eexists. reflexivity.
Qed.
Lemma cum_ctor_build h r o d v h' t : cum_ctor h r o d v = (h', Ok t) -> exists l, t_mat t = build l.
Proof.
  unfold cum_ctor. destruct o as [o|]; [|discriminate]. destruct v as [v|]; [|discriminate].
  destruct (fint _ o) as [os|]; [|discriminate]. destruct (fval _ v) as [vs|]; [|discriminate].
  destruct (fdrop _ v) as [f2|]; [|discriminate]. simpl. apply base_ctor_build.
Qed.

(** After the fill loop the first cell of each row is a number. *)
Lemma fill_ready t l ob : t_mat t = build l -> fill t = Ok ob ->
  exists cl rl, offsets (ob_tri ob) (ob_clvi ob) cl /\ rlvi (t_mat (ob_tri ob)) = Ok rl.
Proof.
  intros Hb Hf. pose proof (build_holds l) as (A1 & A2 & A3 & A4 & _). rewrite <- Hb in *.
  set (m := t_mat t) in *.
  assert (Hfill : forall ti row, row <> [] -> isnan (nth 0 (fill_row ti row) NaN) = false).
  { intros ti [|c row] H; [contradiction|]. simpl. destruct (isnan c) eqn:E; [reflexivity|exact E]. }
  assert (Hz : m_cols m <> [] -> m_idx m <> []).
  { rewrite A1, A2. intros H E. apply H.
    destruct l as [|x l]; [reflexivity|]. exfalso.
    assert (In (r_o x) (zuniq (map r_o (x :: l)))) by (apply zuniq_in; left; reflexivity).
    rewrite E in H0. exact H0. }
  (* a frame whose rows all start with a number has last valid offsets by row *)
  assert (Hr : forall cs, (ncols m <> 0 -> forall i, i < nrows m -> isnan (cell cs i 0) = false) ->
     exists rl, rlvi (mkMat (m_idx m) (m_cols m) cs) = Ok rl).
  { intros cs H. apply mapM_total. intros i Hi. apply in_seq in Hi. unfold nrows in Hi. simpl in Hi.
    assert (Hc : ncols m <> 0).
    { unfold ncols. destruct (m_cols m) eqn:E; [|simpl; lia]. exfalso.
      destruct l as [|x l]; [rewrite A1 in Hi; simpl in Hi; lia|].
      assert (In (r_d x) (zuniq (map r_d (x :: l)))) by (apply zuniq_in; left; reflexivity).
      rewrite <- A2 in H0. exact H0. }
    unfold mrow, ncols in *. cbn [m_cols m_cells].
    destruct (last_valid_ex (map (cell cs i) (seq 0 (List.length (m_cols m))))) as [k ->]; [|eexists; reflexivity].
    exists (cell cs i 0). split; [|apply H; [exact Hc|unfold nrows; lia]].
    apply in_map. apply in_seq. lia. }
  assert (Hrow : ncols m <> 0 -> forall i, i < nrows m -> nth i (m_cells m) [] <> []).
  { intros Hc i Hi E. assert (Hin : In (nth i (m_cells m) []) (m_cells m)).
    { apply nth_In. rewrite A3. unfold nrows in Hi. rewrite A1 in Hi. exact Hi. }
    apply A4 in Hin. rewrite E in Hin. unfold ncols in Hc. rewrite A2 in Hc. simpl in Hin. lia. }
  unfold fill in Hf. fold m in Hf. destruct (Nat.ltb (ncols m) 2) eqn:E.
  - injection Hf as <-. cbn [ob_tri ob_clvi t_mat offsets].
    assert (Hcell : ncols m <> 0 -> forall i, i < nrows m ->
      isnan (cell (map (fill_row []) (m_cells m)) i 0) = false).
    { intros Hc i Hi. unfold cell. change [] with (fill_row [] []) at 2. rewrite map_nth.
      apply Hfill, Hrow; assumption. }
    destruct (Hr _ Hcell) as [rl Hrl]. apply Nat.ltb_lt in E.
    assert (exists cl, clvi (mkMat (m_idx m) (m_cols m) (map (fill_row []) (m_cells m))) = Ok cl) as [cl Hcl].
    { unfold clvi, clvi_cells. apply mapM_total. intros j Hj. apply in_seq in Hj. unfold ncols, nrows in *.
      cbn [m_cols m_idx m_cells] in *. assert (j = 0) by lia. subst j.
      assert (Hc : m_cols m <> []) by (destruct (m_cols m); [simpl in Hj; lia|discriminate]).
      specialize (Hz Hc). destruct (m_idx m) as [|z zs] eqn:Ez; [contradiction|].
      match goal with |- context [last_valid ?L] => destruct (last_valid_ex L) as [k ->] end; [|eexists; reflexivity].
      exists (cell (map (fill_row []) (m_cells m)) 0 0). split; [|apply Hcell; simpl; lia].
      simpl. left. reflexivity. }
    exists cl, rl. split; assumption.
  - destruct (clvi_cells _ _ _) as [cl|e]; [|discriminate Hf]. simpl in Hf. injection Hf as <-.
    cbn [ob_tri ob_clvi t_mat offsets].
    match goal with |- context [mkMat _ _ ?cs] => destruct (Hr cs) as [rl Hrl] end.
    { intros Hc i Hi. unfold cell.
      set (g := fun p : list bool * list val => fill_row (fst p) (snd p)).
      change (@nil val) with (g ([], [])) at 1. rewrite map_nth. unfold g.
      assert (Hl : List.length (triind (nrows m) cl) = List.length (m_cells m)).
      { unfold triind, mk. rewrite map_length, seq_length, A3. unfold nrows. rewrite A1. reflexivity. }
      rewrite combine_nth by exact Hl. cbn [fst snd]. apply Hfill, Hrow; assumption. }
    exists cl, rl. split; [reflexivity|exact Hrl].
Qed.

Lemma totri_ready h data ty fmt shape o d v h' ob : starts "c"%char ty = true ->
  totri_h h data ty fmt shape o d v = (h', Ok ob) ->
  exists cl rl, offsets (ob_tri ob) (ob_clvi ob) cl /\ rlvi (t_mat (ob_tri ob)) = Ok rl.
Proof.
  intros Hty H. unfold totri_h in H.
  destruct (totri_frame _ _ _ _ _ _ _) as [h1 [r1|e]]; [|discriminate H].
  unfold halloc in H. destruct (starts "i"%char ty) eqn:Ei.
  { exfalso. clear -Hty Ei. destruct ty as [|a s]; [discriminate|]. simpl in *.
    apply Ascii.eqb_eq in Hty, Ei. rewrite Hty in Ei. discriminate Ei. }
  rewrite Hty in H.
  destruct (cum_ctor _ _ _ _ _) as [h3 [t|e]] eqn:E; [|discriminate H].
  injection H as _ H. destruct (cum_ctor_build _ _ _ _ _ _ _ E) as [l Hl].
  exact (fill_ready t l ob Hl H).
Qed.
