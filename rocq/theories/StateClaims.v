(** Proofs of C18 and C27. *)

From Coq Require Import String QArith Qcanon ZArith List Bool Lia.
From Verif Require Import Val QcLib Frame Triangle A2A Base Mack Diag Boot State ListLib SpecState StateFacts AvgFacts.
Import ListNotations.
Open Scope list_scope.
Open Scope nat_scope.

Definition apply1 (m : lmat) (i : list (list val)) (x : Z * Z * val) : list (list val) :=
  match a2aind_set (a2a m) i (fst (fst x)) (snd (fst x)) (snd x) with Ok i' => i' | Err _ => i end.

Section S.
Context (gm : list val -> val) (sq : val -> val) (t : tri) (cl rl : list nat).
Let m := t_mat t.
Hypothesis Hrl : rlvi m = Ok rl.

Lemma zfind_in z l : In z l -> exists k, zfind z l = Some k.
Proof.
  intros H. induction l as [|x l IH]; [destruct H|]. simpl.
  destruct (Z.eqb z x) eqn:E; [eexists; reflexivity|].
  destruct H as [H|H]; [subst; rewrite Z.eqb_refl in E; discriminate|].
  destruct (IH H) as [k ->]. eexists; reflexivity.
Qed.

Lemma set_known i o d v : In o (m_idx (a2a m)) -> In d (m_cols (a2a m)) ->
  exists i', a2aind_set (a2a m) i o d v = Ok i'.
Proof.
  intros Ho Hd. unfold a2aind_set. destruct (zfind_in _ _ Ho) as [a ->].
  destruct (zfind_in _ _ Hd) as [b ->]. eexists; reflexivity.
Qed.

(** An assignment changes the current indicators, and succeeds or raises without effect. *)
Lemma set_inv i k o d v : inv t cl rl i k -> k_a2aind k = Some i ->
  In o (m_idx (a2a m)) -> In d (m_cols (a2a m)) ->
  inv t cl rl (apply1 m i (o, d, v)) (fst (set_ind t o d v k)) /\ snd (set_ind t o d v k) = Ok tt.
Proof.
  intros Hk E Ho Hd. unfold set_ind. rewrite E. unfold apply1. simpl.
  destruct (set_known i o d v Ho Hd) as [i' Hi]. fold m. rewrite Hi. simpl.
  split; [|reflexivity]. destruct Hk; constructor; simpl; try assumption. left. reflexivity.
Qed.

Lemma ind_cached i k : inv t cl rl i k -> k_a2aind (fst (p_a2aind t k)) = Some i.
Proof.
  intros Hk. unfold p_a2aind, memo. destruct (i_a2aind _ _ _ _ _ Hk) as [E|[E Ei]]; rewrite E.
  - exact E.
  - unfold bindM. destruct (tr_a2a t cl rl i k Hk) as [Hk' Hr].
    destruct (p_a2a t k) as [k' r]. simpl in Hr. subst r. simpl. apply f_equal. symmetry. exact Ei.
Qed.

Lemma set_at_inv i k o d v : inv t cl rl i k ->
  In o (m_idx (a2a m)) -> In d (m_cols (a2a m)) ->
  inv t cl rl (apply1 m i (o, d, v)) (fst (set_at t o d v k)) /\ snd (set_at t o d v k) = Ok tt.
Proof.
  intros Hk Ho Hd. unfold set_at, bindM.
  destruct (tr_a2aind t cl rl i k Hk) as [Hk' Hr]. pose proof (ind_cached i k Hk) as E.
  destruct (p_a2aind t k) as [k' r]. simpl in *. subst r. apply set_inv; assumption.
Qed.

Definition asg1 (o : op) (r : res obs) : list (Z * Z * val) := assignments [o] [r].
Definition applyl (i : list (list val)) (l : list (Z * Z * val)) : list (list val) :=
  fold_left (apply1 m) l i.

Lemma step i k o : inv t cl rl i k -> known t o ->
  inv t cl rl (applyl i (asg1 o (snd (exec gm sq t o k)))) (fst (exec gm sq t o k)).
Proof.
  intros Hk Ho. destruct (is_set o) eqn:E.
  - destruct o; try discriminate E; destruct Ho as [Ho Hd].
    + unfold exec, mapR, bindM. destruct (k_a2aind k) as [i'|] eqn:Ek.
      * destruct (i_a2aind _ _ _ _ _ Hk) as [E'|[E' _]]; rewrite Ek in E'; [|discriminate E'].
        injection E' as ->. destruct (set_inv i k o d v Hk Ek Ho Hd) as [H1 H2].
        destruct (set_ind t o d v k) as [k' r]. simpl in H1, H2. subst r. exact H1.
      * unfold set_ind. rewrite Ek. exact Hk.
    + unfold exec, mapR, bindM.
      destruct (set_at_inv i k o d v Hk Ho Hd) as [H1 H2].
      destruct (set_at t o d v k) as [k' r]. simpl in H1, H2. subst r. exact H1.
  - destruct (exec_pure gm sq t cl rl i Hrl o E k Hk) as [H _].
    assert (asg1 o (snd (exec gm sq t o k)) = []) as ->; [|exact H].
    destruct o; try discriminate E; reflexivity.
Qed.

Lemma asg_cons o h r ans : assignments (o :: h) (r :: ans) = asg1 o r ++ assignments h ans.
Proof. unfold asg1, assignments. simpl. rewrite app_nil_r. reflexivity. Qed.

Lemma after_inv h : forall i k, inv t cl rl i k -> Forall (known t) h ->
  inv t cl rl (applyl i (assignments h (answers gm sq t h k))) (after gm sq t h k).
Proof.
  induction h as [|o h IH]; intros i k Hk Hh; [exact Hk|].
  pose proof (step i k o Hk (Forall_inv Hh)) as Hs. simpl.
  destruct (exec gm sq t o k) as [k' r] eqn:E. rewrite asg_cons. unfold applyl. rewrite fold_left_app.
  apply IH; [exact Hs|exact (Forall_inv_tail Hh)].
Qed.

Lemma asg_known h ans o d v : Forall (known t) h -> In (o, d, v) (assignments h ans) ->
  In o (m_idx (a2a m)) /\ In d (m_cols (a2a m)).
Proof.
  intros Hh Hin. unfold assignments in Hin. apply in_flat_map in Hin. destruct Hin as [[p r] [Hp Hx]].
  apply in_combine_l in Hp. rewrite Forall_forall in Hh. specialize (Hh _ Hp).
  destruct p; destruct r; simpl in Hx; try contradiction; destruct Hx as [Hx|[]];
    injection Hx as <- <- <-; exact Hh.
Qed.

Lemma updates_inv l : forall i k, inv t cl rl i k ->
  (forall o d v, In (o, d, v) l -> In o (m_idx (a2a m)) /\ In d (m_cols (a2a m))) ->
  inv t cl rl (applyl i l) (after gm sq t (only_updates l) k).
Proof.
  induction l as [|[[o d] v] l IH]; intros i k Hk Hl; [exact Hk|].
  destruct (Hl o d v (or_introl eq_refl)) as [Ho Hd].
  destruct (set_at_inv i k o d v Hk Ho Hd) as [H1 H2].
  simpl. apply IH; [|intros; apply (Hl o0 d0 v0); right; assumption].
  unfold mapR, bindM. destruct (set_at t o d v k) as [k' r]. simpl in H1, H2. subst r. exact H1.
Qed.

(** The initial caches. *)
Definition starts_with (c0 : option (list nat)) : Prop :=
  match c0 with Some c => c = cl | None => clvi m = Ok cl end.
Lemma new_inv c0 : starts_with c0 -> inv t cl rl (a2aind_init m) (new_cache t c0).
Proof.
  intros H. constructor; simpl; try (intros x Hx; discriminate Hx).
  - destruct c0; simpl in H; [subst; left|right]; auto.
  - destruct c0; simpl in H; intros x Hx; [|discriminate Hx]. injection Hx as <-. subst. reflexivity.
  - right. auto.
Qed.

Lemma c27 c0 h o : starts_with c0 -> Forall (known t) h -> is_update o = false ->
  snd (exec gm sq t o (after gm sq t h (new_cache t c0))) =
  snd (exec gm sq t o (after gm sq t (only_updates (assignments h (answers gm sq t h (new_cache t c0))))
                             (new_cache t c0))).
Proof.
  intros H0 Hh Ho. pose proof (new_inv c0 H0) as Hi.
  destruct (exec_pure gm sq t cl rl _ Hrl o Ho _ (after_inv h _ _ Hi Hh)) as [_ H1].
  destruct (exec_pure gm sq t cl rl _ Hrl o Ho _
     (updates_inv (assignments h (answers gm sq t h (new_cache t c0))) _ _ Hi
        (fun o d v => asg_known _ _ o d v Hh))) as [_ H2].
  rewrite H1, H2. reflexivity.
Qed.

Lemma c27_pure c0 h o : starts_with c0 -> Forall (known t) h -> is_update o = false ->
  snd (exec gm sq t o (after gm sq t h (new_cache t c0))) =
  pure gm sq t cl rl (applyl (a2aind_init m) (assignments h (answers gm sq t h (new_cache t c0)))) o.
Proof.
  intros H0 Hh Ho. pose proof (new_inv c0 H0) as Hi.
  destruct (exec_pure gm sq t cl rl _ Hrl o Ho _ (after_inv h _ _ Hi Hh)) as [_ H1]. exact H1.
Qed.

Lemma c18_else c0 h o : starts_with c0 -> Forall (known t) h -> indicator_free o = true ->
  snd (exec gm sq t o (after gm sq t h (new_cache t c0))) = snd (exec gm sq t o (new_cache t c0)).
Proof.
  intros H0 Hh Ho. assert (Hu : is_update o = false) by (destruct o; try reflexivity; discriminate Ho).
  rewrite (c27_pure c0 h o H0 Hh Hu).
  pose proof (c27_pure c0 [] o H0 (Forall_nil _) Hu) as H1. simpl in H1. rewrite H1.
  destruct o; try discriminate Ho; reflexivity.
Qed.

(** ** The cells of the indicators *)
Definition ind_at (i : list (list val)) (o d : Z) : val :=
  mget (mkMat (m_idx (a2a m)) (m_cols (a2a m)) i) o d.

Lemma zfind_lt z l k : zfind z l = Some k -> k < List.length l.
Proof.
  revert k. induction l as [|x l IH]; simpl; intros k H; [discriminate|].
  destruct (Z.eqb z x); [injection H as <-; lia|].
  destruct (zfind z l) as [j|]; simpl in H; [|discriminate]. injection H as <-. specialize (IH j eq_refl). lia.
Qed.
Lemma zfind_nth z l k : zfind z l = Some k -> nth k l 0%Z = z.
Proof.
  revert k. induction l as [|x l IH]; simpl; intros k H; [discriminate|].
  destruct (Z.eqb z x) eqn:E; [injection H as <-; symmetry; apply Z.eqb_eq; exact E|].
  destruct (zfind z l) as [j|]; simpl in H; [|discriminate]. injection H as <-. exact (IH j eq_refl).
Qed.

Definition shaped (i : list (list val)) : Prop :=
  List.length i = nrows (a2a m) /\ Forall (fun r => List.length r = ncols (a2a m)) i.

Lemma upd_len {A} (l : list A) n x : List.length (upd l n x) = List.length l.
Proof. revert n. induction l as [|y l IH]; intros [|n]; simpl; auto. Qed.
Lemma upd_nth {A} (l : list A) n x k (e : A) : k < List.length l ->
  nth k (upd l n x) e = if Nat.eqb n k then x else nth k l e.
Proof.
  revert n k. induction l as [|y l IH]; intros [|n] [|k] H; simpl in *; try lia; auto. apply IH; lia.
Qed.
Lemma upd_Forall {A} (P : A -> Prop) (l : list A) n x : Forall P l -> P x -> Forall P (upd l n x).
Proof. intros H Hx. revert n. induction H; intros [|n]; simpl; auto. Qed.

Lemma shaped_init : shaped (a2aind_init m).
Proof.
  unfold shaped, a2aind_init, nrows, ncols, a2a. simpl. split.
  - rewrite !map_length. reflexivity.
  - rewrite map_map. apply Forall_forall. intros r Hr. apply in_map_iff in Hr. destruct Hr as [x [<- _]].
    rewrite !map_length. reflexivity.
Qed.
Lemma shaped_apply1 i x : shaped i -> shaped (apply1 m i x).
Proof.
  intros [H1 H2]. destruct x as [[o d] v]. unfold apply1, a2aind_set. simpl.
  destruct (zfind o _) as [a|] eqn:Ea; [|split; auto]. destruct (zfind d _) as [b|]; [|split; auto].
  unfold upd2. split; [rewrite upd_len; exact H1|]. apply upd_Forall; [exact H2|].
  rewrite upd_len. rewrite Forall_forall in H2. apply H2. apply nth_In. rewrite H1.
  exact (zfind_lt _ _ _ Ea).
Qed.
Lemma shaped_applyl l : forall i, shaped i -> shaped (applyl i l).
Proof. induction l; intros i H; simpl; auto. apply IHl, shaped_apply1, H. Qed.

Lemma apply1_at i o d v o' d' : shaped i -> In o (m_idx (a2a m)) -> In d (m_cols (a2a m)) ->
  In o' (m_idx (a2a m)) -> In d' (m_cols (a2a m)) ->
  ind_at (apply1 m i (o, d, v)) o' d' =
  if Z.eqb o o' && Z.eqb d d' then v else ind_at i o' d'.
Proof.
  intros [H1 H2] Ho Hd Ho' Hd'. unfold ind_at, apply1, a2aind_set, mget, cell_at. cbn [m_idx m_cols m_cells fst snd].
  destruct (zfind_in _ _ Ho) as [a Ea]. destruct (zfind_in _ _ Hd) as [b Eb].
  destruct (zfind_in _ _ Ho') as [a' Ea']. destruct (zfind_in _ _ Hd') as [b' Eb'].
  rewrite Ea, Eb, Ea', Eb'. unfold cell, upd2.
  pose proof (zfind_lt _ _ _ Ea') as La. pose proof (zfind_lt _ _ _ Eb') as Lb.
  rewrite upd_nth by (unfold nrows in H1; rewrite H1; exact La).
  assert (Hab : Nat.eqb a a' = Z.eqb o o').
  { destruct (Z.eqb o o') eqn:E.
    - apply Z.eqb_eq in E. subst o'. rewrite Ea in Ea'. injection Ea' as <-. apply Nat.eqb_refl.
    - apply Nat.eqb_neq. intros ->. apply Z.eqb_neq in E. apply E.
      rewrite <- (zfind_nth _ _ _ Ea), <- (zfind_nth _ _ _ Ea'). reflexivity. }
  assert (Hbb : Nat.eqb b b' = Z.eqb d d').
  { destruct (Z.eqb d d') eqn:E.
    - apply Z.eqb_eq in E. subst d'. rewrite Eb in Eb'. injection Eb' as <-. apply Nat.eqb_refl.
    - apply Nat.eqb_neq. intros ->. apply Z.eqb_neq in E. apply E.
      rewrite <- (zfind_nth _ _ _ Eb), <- (zfind_nth _ _ _ Eb'). reflexivity. }
  rewrite Hab, <- Hbb. destruct (Z.eqb o o') eqn:E; [|reflexivity]. simpl.
  apply Z.eqb_eq in E. subst o'. rewrite Ea in Ea'. injection Ea' as <-.
  apply upd_nth. rewrite Forall_forall in H2. rewrite (H2 (nth a i [])); [exact Lb|].
  apply nth_In. rewrite H1. exact La.
Qed.

Lemma applyl_at l : forall i o' d', shaped i ->
  (forall o d v, In (o, d, v) l -> In o (m_idx (a2a m)) /\ In d (m_cols (a2a m))) ->
  In o' (m_idx (a2a m)) -> In d' (m_cols (a2a m)) ->
  ind_at (applyl i l) o' d' = match last_value l o' d' with Some v => v | None => ind_at i o' d' end.
Proof.
  induction l as [|[[o d] v] l IH]; intros i o' d' Hi Hl Ho Hd; [reflexivity|]. simpl.
  destruct (Hl o d v (or_introl eq_refl)) as [Ho1 Hd1].
  rewrite IH; [|apply shaped_apply1, Hi|intros; eapply Hl; right; eassumption|exact Ho|exact Hd].
  destruct (last_value l o' d'); [reflexivity|].
  rewrite apply1_at by assumption. destruct (_ && _); reflexivity.
Qed.

Lemma init_at o d : In o (m_idx (a2a m)) -> In d (m_cols (a2a m)) ->
  ind_at (a2aind_init m) o d = if isnan (mget (a2a m) o d) then Fin 0 else Fin 1.
Proof.
  intros Ho Hd. unfold ind_at, mget, cell_at. cbn [m_idx m_cols m_cells].
  destruct (zfind_in _ _ Ho) as [a Ea]. destruct (zfind_in _ _ Hd) as [b Eb]. rewrite Ea, Eb.
  pose proof (zfind_lt _ _ _ Ea) as La. pose proof (zfind_lt _ _ _ Eb) as Lb.
  unfold cell, a2aind_init. set (g := fun v : val => if isnan v then Fin 0 else Fin 1).
  change (@nil val) with (map g []) at 1. rewrite map_nth.
  rewrite (nth_indep (map g _) NaN (g NaN)); [rewrite map_nth; reflexivity|].
  rewrite map_length. unfold a2a in *. simpl in *. rewrite map_length in La, Lb.
  rewrite (nth_indep _ [] (map (fun j => cell (ratio_cells m) 0 j) (keep_cols (nrows m) (ncols m) (ratio_cells m))))
    by (rewrite map_length; exact La).
  rewrite (map_nth (fun i => map (fun j => cell (ratio_cells m) i j) _)). rewrite map_length. exact Lb.
Qed.

Lemma c18 c0 h : starts_with c0 -> Forall (known t) h ->
  exists i, snd (exec gm sq t OA2aind (after gm sq t h (new_cache t c0))) = Ok (BCells i) /\
    List.length i = nrows (a2a m) /\ Forall (fun r => List.length r = ncols (a2a m)) i /\
    forall o d, In o (m_idx (a2a m)) -> In d (m_cols (a2a m)) ->
      mget (mkMat (m_idx (a2a m)) (m_cols (a2a m)) i) o d =
      match last_value (assignments h (answers gm sq t h (new_cache t c0))) o d with
      | Some v => v
      | None => if isnan (mget (a2a m) o d) then Fin 0 else Fin 1
      end.
Proof.
  intros H0 Hh. eexists. split; [rewrite (c27_pure c0 h OA2aind H0 Hh eq_refl); reflexivity|].
  match goal with |- context [applyl ?a ?b] => pose proof (shaped_applyl b a shaped_init) as [S1 S2] end.
  split; [exact S1|]. split; [exact S2|]. intros o d Ho Hd.
  match goal with |- mget (mkMat _ _ ?i) _ _ = _ => fold (ind_at i o d) end.
  rewrite applyl_at; [|apply shaped_init|intros ? ? ?; apply asg_known; exact Hh|exact Ho|exact Hd].
  rewrite init_at by assumption. reflexivity.
Qed.

End S.

(** ** When the setter works *)
Section K.
Context (gm : list val -> val) (sq : val -> val) (t : tri).
Definition keeps {A} (p : M A) : Prop := forall k, k_a2aind k <> None -> k_a2aind (fst (p k)) <> None.
Lemma keeps_ret {A} (x : A) : keeps (ret x). Proof. intros k H. exact H. Qed.
Lemma keeps_lift {A} (x : res A) : keeps (lift x). Proof. intros k H. exact H. Qed.
Lemma keeps_bind {A B} (p : M A) (f : A -> M B) : keeps p -> (forall x, keeps (f x)) -> keeps (bindM p f).
Proof.
  intros Hp Hf k H. unfold bindM. specialize (Hp k H). destruct (p k) as [k' [x|e]]; [|exact Hp].
  apply Hf, Hp.
Qed.
Lemma keeps_memo {A} (get : cache -> option A) put p : keeps p ->
  (forall k x, k_a2aind k <> None -> k_a2aind (put x k) <> None) -> keeps (memo get put p).
Proof.
  intros Hp Hput k H. unfold memo. destruct (get k); [exact H|]. specialize (Hp k H).
  destruct (p k) as [k' [x|e]]; [|exact Hp]. apply Hput, Hp.
Qed.
Ltac kp := first
  [ apply keeps_ret | apply keeps_lift
  | apply keeps_memo; [|intros ? ? ?; simpl; first [assumption | discriminate]]
  | apply keeps_bind; [|intros ?] ].
Lemma keeps_clvi : keeps (p_clvi t).
Proof. intros k H. unfold p_clvi. destruct (k_clvi k) as [[?|]|]; try exact H. destruct (clvi _); exact H. Qed.
Lemma keeps_rlvi : keeps (p_rlvi t).
Proof. intros k H. unfold p_rlvi. destruct (k_rlvi k) as [[?|]|]; try exact H. destruct (rlvi _); exact H. Qed.
Lemma keeps_triind : keeps (p_triind t).
Proof.
  intros k H. unfold p_triind. destruct (k_triind k); [exact H|].
  match goal with |- context [p_clvi t ?k0] => pose proof (keeps_clvi k0 H) as Hk end.
  destruct (p_clvi t _) as [k' [c|e]]; exact Hk.
Qed.
Lemma keeps_latest : keeps (p_latest t). Proof. unfold p_latest. repeat kp. Qed.
Lemma keeps_latest_o : keeps (p_latest_o t). Proof. unfold p_latest_o. repeat (first [apply keeps_latest|kp]). Qed.
Lemma keeps_maturity : keeps (p_maturity t). Proof. unfold p_maturity. repeat (first [apply keeps_triind|kp]). Qed.
Lemma keeps_devp : keeps (p_devp t). Proof. unfold p_devp. repeat kp. Qed.
Lemma keeps_a2a : keeps (p_a2a t). Proof. unfold p_a2a. repeat kp. Qed.
Lemma keeps_a2aind : keeps (p_a2aind t). Proof. unfold p_a2aind. repeat (first [apply keeps_a2a|kp]). Qed.
Lemma keeps_avgs : keeps (q_avgs t gm).
Proof. unfold q_avgs. repeat (first [apply keeps_a2a|apply keeps_a2aind|kp]). Qed.
Lemma keeps_ldfs s tail : keeps (q_ldfs t gm s tail).
Proof.
  unfold q_ldfs. apply keeps_bind; [apply keeps_avgs|]. intros avgs. destruct (find _ avgs); [|apply keeps_lift].
  repeat (first [apply keeps_a2a|kp]).
Qed.
Lemma keeps_chain ldfs tail : keeps (q_chain_ladder t ldfs tail).
Proof.
  unfold q_chain_ladder.
  repeat (first [apply keeps_latest_o|apply keeps_maturity|apply keeps_clvi|kp]).
Qed.
Lemma keeps_base sel tail k : k_a2aind k <> None -> k_a2aind (fst (q_base_cl t gm sel tail k)) <> None.
Proof.
  intros H. assert (Hs : k_a2aind (fst (q_select t gm sel tail k)) <> None).
  { unfold q_select. destruct sel.
    - pose proof (keeps_ldfs s tail k H). destruct (q_ldfs t gm s tail k). exact H0.
    - pose proof (keeps_devp k H). destruct (p_devp t k). exact H0.
    - pose proof (keeps_devp k H). destruct (p_devp t k) as [k' [ds|e]]; exact H0. }
  unfold q_base_cl. destruct (q_select t gm sel tail k) as [k' [sel' [ldfs|e]]]; [|exact Hs].
  pose proof (keeps_chain ldfs tail k' Hs). destruct (q_chain_ladder t ldfs tail k'). exact H0.
Qed.
Lemma keeps_set o d v : keeps (set_ind t o d v).
Proof.
  intros k H. unfold set_ind. destruct (k_a2aind k) as [i|] eqn:E; [|contradiction].
  destruct (a2aind_set _ _ _ _ _); simpl; [discriminate|rewrite E; discriminate].
Qed.
Lemma keeps_exec o : keeps (exec gm sq t o).
Proof.
  destruct o; simpl exec; unfold mapR;
    try (apply keeps_bind; [|intros; apply keeps_ret]).
  - unfold p_nbr. repeat kp.
  - apply keeps_triind.
  - apply keeps_clvi.
  - apply keeps_rlvi.
  - apply keeps_latest.
  - apply keeps_latest_o.
  - unfold p_latest_d. repeat (first [apply keeps_latest|kp]).
  - apply keeps_devp.
  - unfold p_origins. repeat kp.
  - apply keeps_maturity.
  - apply keeps_a2a.
  - apply keeps_a2aind.
  - unfold p_a2a_lvi. repeat (first [apply keeps_a2a|kp]).
  - unfold p_ranked, p_a2a_lvi. repeat (first [apply keeps_a2a|kp]).
  - unfold p_assign. repeat (first [apply keeps_a2a|kp]).
  - apply keeps_lift.
  - apply keeps_lift.
  - unfold q_diagonal. apply keeps_bind; [apply keeps_devp|]. intros ds.
    destruct (_ <? _)%Z; repeat (first [apply keeps_latest|kp]).
  - apply keeps_avgs.
  - intros k H. pose proof (keeps_base sel tail k H) as Hb. destruct (q_base_cl t gm sel tail k). exact Hb.
  - unfold q_mack_cl.
    repeat (first [apply keeps_latest|apply keeps_a2a|apply keeps_a2aind|apply keeps_chain|kp]).
  - unfold q_boot_cl.
    repeat (first [apply keeps_ldfs|apply keeps_latest_o|apply keeps_maturity|apply keeps_rlvi|apply keeps_clvi|kp]).
  - apply keeps_set.
  - unfold set_at. apply keeps_bind; [apply keeps_a2aind|]. intros _. apply keeps_set.
Qed.
Lemma keeps_after h : forall k, k_a2aind k <> None -> k_a2aind (after gm sq t h k) <> None.
Proof. induction h as [|o h IH]; intros k H; simpl; [exact H|]. apply IH, keeps_exec, H. Qed.

Lemma after_app h1 h2 k : after gm sq t (h1 ++ h2) k = after gm sq t h2 (after gm sq t h1 k).
Proof. revert k. induction h1; intros k; simpl; auto. Qed.
End K.

Lemma c18_at gm sq t cl rl c0 h o d v : rlvi (t_mat t) = Ok rl -> starts_with t cl c0 ->
  Forall (known t) h -> known t (OSetAt o d v) ->
  snd (exec gm sq t (OSetAt o d v) (after gm sq t h (new_cache t c0))) = Ok (BUnit tt).
Proof.
  intros Hrl H0 Hh [Ho Hd].
  pose proof (after_inv gm sq t cl rl Hrl h _ _ (new_inv t cl rl c0 H0) Hh) as Hi.
  destruct (set_at_inv t cl rl _ _ o d v Hi Ho Hd) as [_ H].
  unfold exec, mapR, bindM. destruct (set_at t o d v _) as [k' r]. simpl in H. subst r. reflexivity.
Qed.

Lemma c18_set gm sq t cl rl c0 h o d v : rlvi (t_mat t) = Ok rl -> starts_with t cl c0 ->
  Forall (known t) h -> known t (OSet o d v) -> In OA2aind h ->
  snd (exec gm sq t (OSet o d v) (after gm sq t h (new_cache t c0))) = Ok (BUnit tt).
Proof.
  intros Hrl H0 Hh [Ho Hd] Hin.
  pose proof (after_inv gm sq t cl rl Hrl h _ _ (new_inv t cl rl c0 H0) Hh) as Hi.
  assert (Hk : k_a2aind (after gm sq t h (new_cache t c0)) <> None).
  { apply in_split in Hin. destruct Hin as [h1 [h2 ->]]. rewrite after_app. simpl. apply keeps_after.
    apply Forall_app in Hh. destruct Hh as [Hh1 _].
    pose proof (after_inv gm sq t cl rl Hrl h1 _ _ (new_inv t cl rl c0 H0) Hh1) as Hi1.
    pose proof (ind_cached t cl rl _ _ Hi1) as E. unfold mapR, bindM.
    destruct (p_a2aind t _) as [k' [x|e]]; simpl in E |- *; rewrite E; discriminate. }
  destruct (i_a2aind _ _ _ _ _ Hi) as [E|[E _]]; [|contradiction].
  destruct (set_inv t cl rl _ _ o d v Hi E Ho Hd) as [_ H].
  unfold exec, mapR, bindM. destruct (set_ind t o d v _) as [k' r]. simpl in H. subst r. reflexivity.
Qed.
