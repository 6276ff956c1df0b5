(** Facts about [State.v]: the caches only ever hold what the properties are as
    functions of the cells and the current indicators. *)

From Coq Require Import String QArith Qcanon ZArith List Bool Lia.
From Verif Require Import Val QcLib Frame Triangle A2A Base Mack Diag Boot State ListLib.
Import ListNotations.
Open Scope list_scope.
Open Scope nat_scope.

(** What each read or call is, as a function of the cells, the last valid offsets and
    the current indicators. *)
Definition pure (gm : list val -> val) (sq : val -> val) (t : tri) (cl rl : list nat)
    (i : list (list val)) (o : op) : res obs :=
  let m := t_mat t in
  let mp {A} (f : A -> obs) (r : res A) := do x <- r ; Ok (f x) in
  match o with
  | ONbrCells => Ok (BNat (nbr_cells m))
  | OTriind => Ok (BBools (triind (nrows m) cl))
  | OClvi => Ok (BNats cl)
  | ORlvi => Ok (BNats rl)
  | OLatest => mp BRecs (latest t)
  | OLatestByOrigin => mp BSeries (latest_by_origin t)
  | OLatestByDevp => mp BSeries (latest_by_devp t)
  | ODevp => Ok (BLabels (m_cols m))
  | OOrigins => Ok (BLabels (m_idx m))
  | OMaturity => mp BLabels (maturity m (triind (nrows m) cl))
  | OA2a => Ok (BMat (a2a m))
  | OA2aind => Ok (BCells i)
  | OA2aLvi => mp BLvi (a2a_lvi m)
  | ORankedA2a => mp BRanks (ranked_a2a m)
  | OA2aAssignment => Ok (BSigns (a2a_assignment m))
  | OToTbl b => mp BFrame (to_tbl t b)
  | OToIncr => mp BTri (to_incr t)
  | ODiagonal z => mp BRecs (diagonal t z)
  | OA2aAvgs => mp BAvgs (a2a_avgs gm m i)
  | OBaseCl sel tail => let r := base_cl gm t cl i sel tail in Ok (BBase (fst r) (snd r))
  | OMackCl alpha tail => mp BMack (mack_cl t cl i alpha tail)
  | OBootCl sims par rng =>
      (* the maturity property is read, although the modelled result does not use it *)
      mp BBoot (do _ <- ldfs_of_label gm m i "all-weighted" (Fin 1%Qc) ;
                do _ <- latest_by_origin t ;
                do _ <- maturity m (triind (nrows m) cl) ;
                boot_cl gm sq t cl rl i sims par rng)
  | OSet o d v => mp (fun _ => BUnit tt) (a2aind_set (a2a m) i o d v)
  | OSetAt o d v => mp (fun _ => BUnit tt) (a2aind_set (a2a m) i o d v)
  end.

Definition is_set (o : op) : bool := match o with OSet _ _ _ | OSetAt _ _ _ => true | _ => false end.

Section Inv.
Context (gm : list val -> val) (sq : val -> val) (t : tri) (cl rl : list nat) (i : list (list val)).
Let m := t_mat t.
Hypothesis Hrl : rlvi m = Ok rl.

Definition agrees {A} (o : option A) (r : res A) : Prop := forall x, o = Some x -> r = Ok x.

Record inv (k : cache) : Prop := mkInv {
  i_nbr : agrees (k_nbr k) (Ok (nbr_cells m));
  i_clvi : k_clvi k = Some (Some cl) \/ (k_clvi k = None /\ clvi m = Ok cl);
  i_rlvi : agrees (k_rlvi k) (Ok (Some rl));
  i_triind : agrees (k_triind k) (Ok (triind (nrows m) cl));
  i_latest : agrees (k_latest k) (latest t);
  i_latest_o : agrees (k_latest_o k) (latest_by_origin t);
  i_latest_d : agrees (k_latest_d k) (latest_by_devp t);
  i_devp : agrees (k_devp k) (Ok (m_cols m));
  i_origins : agrees (k_origins k) (Ok (m_idx m));
  i_maturity : agrees (k_maturity k) (maturity m (triind (nrows m) cl));
  i_a2a : agrees (k_a2a k) (Ok (a2a m));
  i_a2aind : k_a2aind k = Some i \/ (k_a2aind k = None /\ i = a2aind_init m);
  i_a2a_lvi : agrees (k_a2a_lvi k) (a2a_lvi m);
  i_ranked : agrees (k_ranked k) (ranked_a2a m);
  i_assign : agrees (k_assign k) (Ok (a2a_assignment m)) }.

(** A program that keeps the invariant and returns [r]. *)
Definition tr {A} (p : M A) (r : res A) : Prop :=
  forall k, inv k -> inv (fst (p k)) /\ snd (p k) = r.

Lemma tr_ret {A} (x : A) : tr (ret x) (Ok x).
Proof. intros k Hk. split; [exact Hk|reflexivity]. Qed.
Lemma tr_lift {A} (r : res A) : tr (lift r) r.
Proof. intros k Hk. split; [exact Hk|reflexivity]. Qed.
Lemma tr_bind {A B} (p : M A) r (f : A -> M B) (g : A -> res B) :
  tr p r -> (forall x, r = Ok x -> tr (f x) (g x)) -> tr (bindM p f) (bind r g).
Proof.
  intros Hp Hf k Hk. destruct (Hp k Hk) as [Hi Hr]. unfold bindM.
  destruct (p k) as [k' x]. simpl in Hi, Hr. subst x. destruct r as [x|e]; simpl.
  - exact (Hf x eq_refl k' Hi).
  - split; [exact Hi|reflexivity].
Qed.
Lemma tr_eq {A} (p : M A) r r' : tr p r -> r = r' -> tr p r'.
Proof. intros H <-. exact H. Qed.
Lemma tr_memo {A} (get : cache -> option A) put p r :
  (forall k, inv k -> agrees (get k) r) ->
  (forall k x, inv k -> r = Ok x -> inv (put x k)) ->
  tr p r -> tr (memo get put p) r.
Proof.
  intros Hg Hput Hp k Hk. unfold memo. destruct (get k) as [x|] eqn:E.
  - split; [exact Hk|]. simpl. symmetry. exact (Hg k Hk x E).
  - destruct (Hp k Hk) as [Hi Hr]. destruct (p k) as [k' y]. simpl in Hi, Hr. subst y.
    destruct r as [x|e]; simpl; split; auto.
Qed.

Ltac putinv := intros k x Hk Hx; destruct Hk; constructor; simpl; try assumption;
  intros y Hy; injection Hy; intros; subst; assumption.

Lemma tr_nbr : tr (p_nbr t) (Ok (nbr_cells m)).
Proof. apply tr_memo; [intros k Hk; apply Hk|putinv|apply tr_ret]. Qed.
Lemma tr_clvi : tr (p_clvi t) (Ok cl).
Proof.
  intros k Hk. unfold p_clvi. destruct (i_clvi _ Hk) as [E|[E Hcl]]; rewrite E.
  - split; [exact Hk|reflexivity].
  - fold m. rewrite Hcl. split; [|reflexivity]. destruct Hk; constructor; simpl; try assumption.
    left. reflexivity.
Qed.
Lemma tr_rlvi : tr (p_rlvi t) (Ok rl).
Proof.
  intros k Hk. unfold p_rlvi. destruct (k_rlvi k) as [[c|]|] eqn:E.
  - split; [exact Hk|]. simpl. pose proof (i_rlvi _ Hk _ E) as H. injection H as ->. reflexivity.
  - pose proof (i_rlvi _ Hk _ E) as H. discriminate H.
  - fold m. rewrite Hrl. split; [|reflexivity]. destruct Hk; constructor; simpl; try assumption.
    intros y Hy. injection Hy as <-. reflexivity.
Qed.
Lemma tr_triind : tr (p_triind t) (Ok (triind (nrows m) cl)).
Proof.
  intros k Hk. unfold p_triind. destruct (k_triind k) as [ti|] eqn:E.
  - split; [exact Hk|]. simpl. symmetry. exact (i_triind _ Hk _ E).
  - unfold p_clvi. simpl k_clvi. destruct (i_clvi _ Hk) as [Ec|[Ec Hcl]]; rewrite Ec.
    + split; [|reflexivity].
      destruct Hk; constructor; simpl; try assumption.
      intros y Hy. injection Hy as <-. reflexivity.
    + fold m. rewrite Hcl. split; [|reflexivity]. destruct Hk; constructor; simpl; try assumption.
      * left. reflexivity.
      * intros y Hy; injection Hy as <-; reflexivity.
Qed.
Lemma tr_latest : tr (p_latest t) (latest t).
Proof. apply tr_memo; [intros k Hk; apply Hk|putinv|apply tr_lift]. Qed.
Lemma tr_latest_o : tr (p_latest_o t) (latest_by_origin t).
Proof.
  apply tr_memo; [intros k Hk; apply Hk|putinv|].
  unfold latest_by_origin. apply tr_bind; [apply tr_latest|]. intros. apply tr_ret.
Qed.
Lemma tr_latest_d : tr (p_latest_d t) (latest_by_devp t).
Proof.
  apply tr_memo; [intros k Hk; apply Hk|putinv|].
  unfold latest_by_devp. apply tr_bind; [apply tr_latest|]. intros. apply tr_ret.
Qed.
Lemma tr_devp : tr (p_devp t) (Ok (m_cols m)).
Proof. apply tr_memo; [intros k Hk; apply Hk|putinv|apply tr_ret]. Qed.
Lemma tr_origins : tr (p_origins t) (Ok (m_idx m)).
Proof. apply tr_memo; [intros k Hk; apply Hk|putinv|apply tr_ret]. Qed.
Lemma tr_maturity : tr (p_maturity t) (maturity m (triind (nrows m) cl)).
Proof.
  apply tr_memo; [intros k Hk; apply Hk|putinv|].
  apply (tr_bind _ (Ok (triind (nrows m) cl)) _ (maturity m)); [apply tr_triind|]. intros. apply tr_lift.
Qed.
Lemma tr_a2a : tr (p_a2a t) (Ok (a2a m)).
Proof. apply tr_memo; [intros k Hk; apply Hk|putinv|apply tr_ret]. Qed.
Lemma tr_a2aind : tr (p_a2aind t) (Ok i).
Proof.
  intros k Hk. unfold p_a2aind, memo. destruct (i_a2aind _ Hk) as [E|[E Ei]].
  - rewrite E. split; [exact Hk|reflexivity].
  - rewrite E. unfold bindM. destruct (tr_a2a k Hk) as [Hk' Hr].
    destruct (p_a2a t k) as [k' r]. simpl in Hk', Hr. subst r. simpl.
    split; [|apply f_equal; symmetry; exact Ei].
    destruct Hk'; constructor; simpl; try assumption. left. apply f_equal. symmetry. exact Ei.
Qed.
Lemma tr_a2a_lvi : tr (p_a2a_lvi t) (a2a_lvi m).
Proof.
  apply tr_memo; [intros k Hk; apply Hk|putinv|].
  apply (tr_bind _ (Ok (a2a m)) _ a2a_lvi_of); [apply tr_a2a|]. intros. apply tr_lift.
Qed.
Lemma tr_ranked : tr (p_ranked t) (ranked_a2a m).
Proof.
  apply tr_memo; [intros k Hk; apply Hk|putinv|].
  unfold ranked_a2a. apply tr_bind; [apply tr_a2a_lvi|]. intros l _.
  apply (tr_bind _ (Ok (a2a m)) _ (fun a => ranked_of a l)); [apply tr_a2a|]. intros. apply tr_lift.
Qed.
Lemma tr_assign : tr (p_assign t) (Ok (a2a_assignment m)).
Proof.
  apply tr_memo; [intros k Hk; apply Hk|putinv|].
  apply (tr_bind _ (Ok (a2a m)) _ (fun a => Ok (assign_of a))); [apply tr_a2a|]. intros. apply tr_ret.
Qed.

Lemma tr_avgs : tr (q_avgs t gm) (a2a_avgs gm m i).
Proof.
  apply (tr_bind _ (Ok (a2a m)) _ (fun a => a2a_avgs_of t gm a i)); [apply tr_a2a|]. intros a _.
  apply (tr_bind _ (Ok i) _ (fun i => a2a_avgs_of t gm a i)); [apply tr_a2aind|]. intros. apply tr_lift.
Qed.
Lemma tr_ldfs s tail : tr (q_ldfs t gm s tail) (ldfs_of_label gm m i s tail).
Proof.
  unfold ldfs_of_label. apply tr_bind; [apply tr_avgs|]. intros avgs _.
  destruct (find _ avgs) as [row|]; [|apply tr_lift].
  apply (tr_bind _ (Ok (a2a m)) _ (fun a => do inc <- increment (m_cols a) ;
     Ok (zvsort (sset (combine (m_cols a) (snd row)) (zmax (m_cols a) + inc) tail)))); [apply tr_a2a|].
  intros. apply tr_lift.
Qed.

Lemma tr_chain ldfs tail : tr (q_chain_ladder t ldfs tail) (chain_ladder t cl ldfs tail).
Proof.
  unfold q_chain_ladder, chain_ladder. fold m.
  eapply tr_eq.
  { eapply tr_bind; [apply tr_latest_o|]. intros lt Hlt.
    eapply tr_bind; [apply tr_lift|]. intros ult Hult.
    eapply tr_bind; [apply tr_maturity|]. intros mat Hmat.
    eapply tr_bind; [apply tr_clvi|]. intros cl' Hcl'.
    eapply tr_bind; [apply tr_lift|]. intros s Hs.
    apply tr_ret. }
  unfold ultimates, reserves, ultimates_of, reserves_of. fold m.
  destruct (latest_by_origin t) as [lt|e]; [|reflexivity]. simpl.
  destruct (bmul _ _) as [p|e]; [|reflexivity]. simpl.
  destruct (_ =? _); [|reflexivity]. simpl.
  destruct (maturity _ _) as [mat|e]; reflexivity.
Qed.

Lemma base_ok sel tail k : inv k ->
  inv (fst (q_base_cl t gm sel tail k)) /\ snd (q_base_cl t gm sel tail k) = base_cl gm t cl i sel tail.
Proof.
  intros Hk. unfold q_base_cl, base_cl, q_select, select_ldfs. fold m.
  destruct sel as [s|l|s].
  - destruct (tr_ldfs s tail k Hk) as [Hk' Hr]. destruct (q_ldfs t gm s tail k) as [k' r].
    simpl in Hk', Hr. subst r. destruct (ldfs_of_label gm m i s tail) as [ldfs|e]; simpl; [|auto].
    destruct (tr_chain ldfs tail k' Hk') as [Hk'' Hr]. destruct (q_chain_ladder t ldfs tail k') as [k'' r].
    simpl in *. subst r. auto.
  - destruct (tr_devp k Hk) as [Hk' Hr]. destruct (p_devp t k) as [k' r].
    simpl in Hk', Hr. subst r. unfold ncols. simpl. destruct (_ =? _); simpl; [|auto].
    destruct (tr_chain (combine (m_cols m) (l ++ [tail])) tail k' Hk') as [Hk'' Hr].
    destruct (q_chain_ladder t _ tail k') as [k'' r].
    simpl in *. subst r. auto.
  - destruct (tr_devp k Hk) as [Hk' Hr]. destruct (p_devp t k) as [k' r].
    simpl in Hk', Hr. subst r. unfold ncols. destruct (_ =? _); simpl; [|auto].
    destruct (increment _) as [inc|e]; simpl; [|auto].
    match goal with |- context [q_chain_ladder t ?L tail k'] => set (ldfs := L) end.
    destruct (tr_chain ldfs tail k' Hk') as [Hk'' Hr].
    destruct (q_chain_ladder t ldfs tail k') as [k'' r].
    simpl in *. subst r. auto.
Qed.

Lemma tr_mack alpha tail : tr (q_mack_cl t alpha tail) (mack_cl t cl i alpha tail).
Proof.
  unfold q_mack_cl, mack_cl. fold m. eapply tr_eq.
  { eapply tr_bind; [apply tr_latest|]. intros lt Hlt.
    eapply tr_bind; [apply tr_a2a|]. intros a Ha.
    eapply tr_bind; [apply tr_a2aind|]. intros i' Hi'.
    eapply tr_bind; [apply tr_lift|]. intros ldfs Hl.
    eapply tr_bind; [apply tr_chain|]. intros r Hr.
    apply tr_lift. }
  unfold mack_ldfs, mod_tri. destruct (latest t) as [lt|e]; reflexivity.
Qed.

Lemma tr_boot sims par rng : tr (q_boot_cl t gm sq sims par rng)
  (do _ <- ldfs_of_label gm m i "all-weighted" (Fin 1%Qc) ;
   do _ <- latest_by_origin t ;
   do _ <- maturity m (triind (nrows m) cl) ;
   boot_cl gm sq t cl rl i sims par rng).
Proof.
  unfold q_boot_cl, boot_cl. fold m. eapply tr_eq.
  { eapply tr_bind; [apply tr_ldfs|]. intros ldfs Hl.
    eapply tr_bind; [apply tr_latest_o|]. intros lt Hlt.
    eapply tr_bind; [apply tr_maturity|]. intros mat Hmat.
    eapply tr_bind; [apply tr_lift|]. intros fc Hfc.
    eapply tr_bind; [apply tr_lift|]. intros ru Hru.
    eapply tr_bind; [apply tr_lift|]. intros u Hu.
    eapply tr_bind; [apply tr_rlvi|]. intros rl' Hrl'.
    eapply tr_bind; [apply tr_clvi|]. intros cl' Hcl'.
    apply tr_ret. }
  destruct (ldfs_of_label _ _ _ _ _) as [ldfs|e]; cbv beta iota delta [bind]; [|reflexivity].
  destruct (latest_by_origin t) as [lt|e]; cbv beta iota; [|reflexivity].
  destruct (maturity _ _) as [mat|e]; cbv beta iota; [|reflexivity].
  destruct (tri_fit_cum _ _) as [fc|e]; cbv beta iota; [|reflexivity].
  destruct (resid_us _ _ _) as [ru|e]; cbv beta iota zeta; [|reflexivity].
  destruct (negb (_ =? _)%string); cbv beta iota; [reflexivity|].
  destruct (negb par && _ && _); reflexivity.
Qed.

Lemma tr_diagonal z : tr (q_diagonal t z) (diagonal t z).
Proof.
  unfold q_diagonal. eapply tr_eq.
  { eapply tr_bind; [apply tr_devp|]. intros ds Hds.
    instantiate (1 := fun ds => if (Z.of_nat (List.length ds) - 1 <? Z.abs z)%Z then Err ValueError
                                else do l <- latest t ; diagonal_of t l z). simpl.
    destruct (_ <? _)%Z; [apply tr_lift|].
    apply tr_bind; [apply tr_latest|]. intros. apply tr_lift. }
  reflexivity.
Qed.

Lemma tr_mapR {A} (f : A -> obs) p r : tr p r -> tr (mapR f p) (do x <- r ; Ok (f x)).
Proof. intros H. apply tr_bind; [exact H|]. intros. apply tr_ret. Qed.

Theorem exec_pure o : is_set o = false -> tr (exec gm sq t o) (pure gm sq t cl rl i o).
Proof.
  intros Ho. destruct o; try discriminate Ho; simpl exec; unfold pure.
  - apply (tr_mapR BNat _ (Ok _) tr_nbr).
  - apply (tr_mapR BBools _ (Ok _) tr_triind).
  - apply (tr_mapR BNats _ (Ok _) tr_clvi).
  - apply (tr_mapR BNats _ (Ok _) tr_rlvi).
  - apply (tr_mapR BRecs _ _ tr_latest).
  - apply (tr_mapR BSeries _ _ tr_latest_o).
  - apply (tr_mapR BSeries _ _ tr_latest_d).
  - apply (tr_mapR BLabels _ (Ok _) tr_devp).
  - apply (tr_mapR BLabels _ (Ok _) tr_origins).
  - apply (tr_mapR BLabels _ _ tr_maturity).
  - apply (tr_mapR BMat _ (Ok _) tr_a2a).
  - apply (tr_mapR BCells _ (Ok _) tr_a2aind).
  - apply (tr_mapR BLvi _ _ tr_a2a_lvi).
  - apply (tr_mapR BRanks _ _ tr_ranked).
  - apply (tr_mapR BSigns _ (Ok _) tr_assign).
  - apply tr_mapR, tr_lift.
  - apply tr_mapR, tr_lift.
  - apply (tr_mapR BRecs _ _ (tr_diagonal offset)).
  - apply (tr_mapR BAvgs _ _ tr_avgs).
  - intros k Hk. destruct (base_ok sel tail k Hk) as [H1 H2].
    destruct (q_base_cl t gm sel tail k) as [k' r]. simpl in *. subst r. auto.
  - apply (tr_mapR BMack _ _ (tr_mack alpha tail)).
  - apply (tr_mapR BBoot _ _ (tr_boot sims parametric rng)).
Qed.
End Inv.
