(** Independence of the simulations, for every triangle: simulations exchange nothing
    when the last development period of each simulation is held by a single origin. *)

From Coq Require Import String QArith Qcanon ZArith List Bool Lia Permutation Sorting.Sorted.
From Verif Require Import Val Frame Triangle A2A Base Mack Boot ListLib QcLib Spec Spec2 TblFacts ConvFacts FillFacts
  TriClaims4 RegFacts AvgFacts MackFacts BaseClaims BootFit BootLib BootSim.
Import ListNotations.
Open Scope list_scope.
Open Scope nat_scope.

(** ** The factor table, block by block *)

Definition arow := (nat * Z * val * val)%type.
Definition a_sim (e : arow) : nat := fst (fst (fst e)).
Definition a_dev (e : arow) : Z := snd (fst (fst e)).

Fixpoint after (prev : option (Z * val)) (l : list arow) : option (Z * val) :=
  match l with [] => prev | (_, d, _, a2) :: r => after (Some (d, a2)) r end.
Definition dead (p : option (Z * val)) : Prop :=
  match p with None => True | Some (_, a2) => veqb a2 (Fin 0%Qc) || isnan a2 = true end.

Lemma ldf_rows_app l2 l1 : forall p, ldf_rows p (l1 ++ l2) = ldf_rows p l1 ++ ldf_rows (after p l1) l2.
Proof.
  induction l1 as [|[[[s d] a1] a2] l1 IH]; intro p; auto. cbn [app ldf_rows after]. rewrite IH, app_assoc. auto.
Qed.
Lemma ldf_rows_dead p l : dead p -> ldf_rows p l = ldf_rows None l.
Proof.
  intro D. destruct l as [|[[[s d] a1] a2] l]; auto. cbn [ldf_rows]. f_equal. destruct p as [[d' a2']|]; auto.
  cbn [dead] in D. rewrite D. auto.
Qed.
Lemma after_dead p l : dead p -> dead (after None l) -> dead (after p l).
Proof. destruct l as [|[[[s d] a1] a2] l]; auto. Qed.
Lemma ldf_rows_blocks (blk : nat -> list arow) k : forall a p, dead p -> (forall s, a <= s < a + k -> dead (after None (blk s))) ->
  ldf_rows p (flat_map blk (seq a k)) = flat_map (fun s => ldf_rows None (blk s)) (seq a k).
Proof.
  induction k as [|k IH]; intros a p D H; auto. cbn [seq flat_map]. rewrite ldf_rows_app, ldf_rows_dead by auto. f_equal.
  apply IH.
  - apply after_dead; auto. apply H. lia.
  - intros s Hs. apply H. lia.
Qed.
Lemma ldf_rows_sim s l : forall p, (forall e, In e l -> a_sim e = s) -> forall r, In r (ldf_rows p l) -> fst (fst r) = s.
Proof.
  induction l as [|[[[s' d] a1] a2] l IH]; intros p H r Hr; [contradiction|]. cbn [ldf_rows] in Hr.
  apply in_app_or in Hr as [Hr|Hr].
  - destruct p as [[d' a2']|]; [|contradiction]. destruct (veqb a2' _ || _ || _); [contradiction|].
    destruct Hr as [<-|[]]. cbn. apply (H _ (or_introl eq_refl)).
  - eapply IH; eauto. intros; apply H; right; auto.
Qed.
Lemma ldf_rows_label l : StronglySorted (fun a b => (a_dev a < a_dev b)%Z) l ->
  forall p, match p with Some (d, _) => Forall (fun e => (d < a_dev e)%Z) l | None => True end ->
  forall r, In r (ldf_rows p l) -> exists e, In e l /\ (snd (fst r) < a_dev e)%Z.
Proof.
  induction 1 as [|[[[s d] a1] a2] l So IH F]; intros p Hp r Hr; [contradiction|]. cbn [ldf_rows] in Hr.
  apply in_app_or in Hr as [Hr|Hr].
  - destruct p as [[d' a2']|]; [|contradiction]. destruct (veqb a2' _ || _ || _); [contradiction|].
    destruct Hr as [<-|[]]. eexists. split; [left; reflexivity|]. cbn. inversion Hp; subst. auto.
  - destruct (IH (Some (d, a2)) F r Hr) as (e & He & Q). exists e. split; auto. right. auto.
Qed.

Lemma find_block s d (f : nat -> list (nat * Z * val)) sims : s < sims ->
  (forall s' r, s' < sims -> In r (f s') -> fst (fst r) = s') ->
  ldf_at (flat_map f (seq 0 sims)) s d = ldf_at (f s) s d.
Proof.
  intros Hs H. unfold ldf_at. set (p := fun r : nat * Z * val => (fst (fst r) =? s) && (snd (fst r) =? d)%Z).
  assert (G : forall l, find p l = match filter p l with [] => None | x :: _ => Some x end).
  { induction l as [|x l IH]; simpl; auto. destruct (p x); auto. }
  rewrite !G, filter_flat_map, (flat_map_one _ sims s); auto.
  intros s' Hs' D. assert (Q : forall l, (forall r, In r l -> fst (fst r) = s') -> filter p l = []).
  { induction l as [|x l IH]; intro Hl; auto. cbn [filter]. unfold p at 1. rewrite (Hl x) by (left; auto).
    destruct (Nat.eqb_spec s' s); [congruence|]. apply IH. intros; apply Hl; right; auto. }
  apply Q. intros. apply H; auto.
Qed.

Lemma last_nth (l : list Z) : last l 0%Z = nth (length l - 1) l 0%Z.
Proof.
  induction l as [|x l IH]; auto. destruct l as [|y l]; auto. 
  change (last (y :: l) 0%Z = nth (S (length (y :: l)) - 1) (x :: y :: l) 0%Z). rewrite IH.
  replace (S (length (y :: l)) - 1) with (S (length (y :: l) - 1)) by (simpl; lia). auto.
Qed.

Section Gen.
  Variables (m : lmat) (cl : list nat).
  Hypothesis So : zsorted (m_idx m).
  Hypothesis Sd : zsorted (m_cols m).
  Hypothesis Nd : m_cols m <> [].
  Let nr := nrows m.
  Let nc := ncols m.
  Let o_ i := nth i (m_idx m) 0%Z.
  Let d_ j := nth j (m_cols m) 0%Z.

  Definition col_rows (g : nat -> list simrow) (j : nat) : list simrow :=
    filter (fun r => (b_d r =? nth j (m_cols m) 0%Z)%Z && negb (isnan (b_cum r))) (concat (map g (seq 0 (nrows m)))).
  Definition blk (g : nat -> list simrow) (s : nat) : list arow :=
    flat_map (fun j => match col_rows g j with
      | [] => []
      | _ => [(s, nth j (m_cols m) 0%Z, skipsum (map b_cum (col_rows g j)),
          skipsum (map (fun r => if (b_o r =? nth (nth j cl 0%nat) (m_idx m) 0)%Z then Fin 0%Qc else b_cum r) (col_rows g j)))]
      end) (seq 0 (ncols m)).

  (** A family of groups: one list of records per simulation and origin. *)
  Definition keyed (g : nat -> nat -> list simrow) (sims : nat) : Prop :=
    forall s i, s < sims -> i < nrows m -> map key (g s i) = map (fun d => (s, nth i (m_idx m) 0%Z, d)) (m_cols m).
  (** The last period is held by one origin, the one of the column's last value. *)
  Definition closed (g : nat -> nat -> list simrow) (sims : nat) : Prop :=
    forall s, s < sims -> exists r, col_rows (g s) (ncols m - 1) = [r] /\ b_o r = nth (nth (ncols m - 1) cl 0%nat) (m_idx m) 0%Z.

  Lemma nc_pos : 0 < nc.
  Proof. unfold nc, ncols. destruct (m_cols m); [congruence|]. simpl. lia. Qed.

  Lemma agg_blocks g sims : keyed g sims -> agg_rows m cl sims (cube sims nr g) = flat_map (fun s => blk (g s) s) (seq 0 sims).
  Proof.
    intro K. unfold agg_rows. apply flat_map_seq_ext. intros s Hs. unfold blk. apply flat_map_seq_ext. intros j Hj.
    assert (E : filter (fun r => (b_sim r =? s) && (b_d r =? nth j (m_cols m) 0)%Z && negb (isnan (b_cum r))) (concat (cube sims nr g))
              = col_rows (g s) j).
    { rewrite concat_flat_map, flat_map_cube, filter_flat_map, (flat_map_one _ sims s); [|lia|].
      2:{ intros s' Hs' D. rewrite filter_flat_map. apply flat_map_none. intros i Hi. apply in_seq in Hi.
        assert (Q := K s' i Hs' ltac:(lia)).
        assert (W : forall l, (forall r, In r l -> b_sim r = s') ->
            filter (fun r => (b_sim r =? s) && (b_d r =? nth j (m_cols m) 0)%Z && negb (isnan (b_cum r))) l = []).
        { induction l as [|r l IH]; intro H; auto. cbn [filter]. rewrite (H r (or_introl eq_refl)).
          destruct (Nat.eqb_spec s' s); [congruence|]. apply IH. intros; apply H; right; auto. }
        apply W. intros r Hr. apply (in_map key) in Hr. rewrite Q in Hr. apply in_map_iff in Hr as (d & Hd & _).
        unfold key in Hd. congruence. }
      unfold col_rows. rewrite <- (flat_map_concat_map (g s)).
      rewrite !filter_flat_map. apply flat_map_seq_ext. intros i Hi. unfold nr in Hi.
      assert (Q := K s i ltac:(lia) ltac:(lia)).
      apply filter_ext_in. intros r Hr. apply (in_map key) in Hr. rewrite Q in Hr. apply in_map_iff in Hr as (d & Hd & _).
      unfold key in Hd. assert (b_sim r = s) by congruence. rewrite H, Nat.eqb_refl. auto. }
    rewrite E. auto.
  Qed.

  Lemma blk_sim g s e : In e (blk g s) -> a_sim e = s.
  Proof.
    unfold blk. intro H. apply in_flat_map in H as (j & _ & H). destruct (col_rows g j); [contradiction|].
    destruct H as [<-|[]]. auto.
  Qed.
  Lemma blk_sorted g s : StronglySorted (fun a b => (a_dev a < a_dev b)%Z) (blk g s) /\
    forall e, In e (blk g s) -> (a_dev e <= d_ (nc - 1))%Z.
  Proof.
    unfold blk.
    assert (G : forall k a, a + k = nc ->
      let l := flat_map (fun j => match col_rows g j with
        | [] => []
        | _ => [(s, nth j (m_cols m) 0%Z, skipsum (map b_cum (col_rows g j)),
          skipsum (map (fun r => if (b_o r =? nth (nth j cl 0%nat) (m_idx m) 0)%Z then Fin 0%Qc else b_cum r) (col_rows g j)))]
        end) (seq a k) in
      StronglySorted (fun a b => (a_dev a < a_dev b)%Z) l /\ forall e, In e l -> exists j, a <= j < nc /\ a_dev e = d_ j).
    { induction k as [|k IH]; intros a L; [split; [constructor|intros e []]|]. cbn [seq flat_map].
      destruct (IH (S a)) as (S1 & B1); [lia|]. destruct (col_rows g a) as [|r0 rs].
      - split; auto. intros e He. destruct (B1 e He) as (j & Hj & E). exists j. split; [lia|auto].
      - split.
        + constructor; auto. apply Forall_forall. intros e He. destruct (B1 e He) as (j & Hj & E). rewrite E. unfold a_dev, d_. cbn.
          apply zsorted_nth; auto; unfold nc, ncols in Hj; lia.
        + intros e [<-|He].
          * exists a. split; [lia|auto].
          * destruct (B1 e He) as (j & Hj & E). exists j. split; [lia|auto]. }
    destruct (G nc 0 eq_refl) as (S1 & B1). split; auto. intros e He. destruct (B1 e He) as (j & Hj & E). rewrite E.
    destruct (Nat.eq_dec j (nc - 1)) as [->|D]; [lia|]. apply Z.lt_le_incl. apply zsorted_nth; auto; unfold nc, ncols in *; lia.
  Qed.
  Lemma blk_dead g s r : col_rows g (nc - 1) = [r] -> b_o r = nth (nth (nc - 1) cl 0%nat) (m_idx m) 0%Z -> dead (after None (blk g s)).
  Proof.
    intros E1 E2. unfold blk. assert (H := nc_pos). replace (ncols m) with ((nc - 1) + 1) by (unfold nc; unfold nc in H; lia).
    rewrite seq_app, flat_map_app. cbn [seq flat_map Nat.add]. rewrite E1, app_nil_r. cbn [map]. rewrite E2, Z.eqb_refl.
    match goal with |- dead (after None (_ ++ [?e])) => assert (Q : forall l p, after p (l ++ [e]) = Some (a_dev e, snd e)) end.
    { induction l as [|[[[s1 d1] x1] x2] l IH]; intro p; auto. cbn [app after]. apply IH. }
    rewrite Q. cbn. reflexivity.
  Qed.

  Definition lfac (g : nat -> list simrow) (s : nat) (d : Z) : val := ldf_at (ldf_rows None (blk g s)) s d.

  Lemma ldf_at_blk g sims s d : keyed g sims -> closed g sims -> s < sims ->
    ldf_at (bs_ldfs m cl sims (cube sims nr g)) s d = lfac (g s) s d.
  Proof.
    intros K Cd Hs. unfold bs_ldfs. rewrite agg_blocks by auto. rewrite ldf_rows_blocks; [|exact I|].
    - rewrite find_block; auto. intros s' r Hs' Hr. eapply ldf_rows_sim; eauto. apply blk_sim.
    - intros s' Hs'. destruct (Cd s') as (r & E1 & E2); [lia|]. eapply blk_dead; eauto.
  Qed.
  Lemma lfac_last g s : lfac g s (d_ (nc - 1)) = NaN.
  Proof.
    unfold lfac, ldf_at. destruct (find _ _) as [r|] eqn:E; auto. exfalso.
    apply find_some in E as (Hr & E). apply andb_prop in E as (_ & E). apply Z.eqb_eq in E.
    destruct (blk_sorted g s) as (S1 & B1).
    destruct (ldf_rows_label _ S1 None Logic.I r Hr) as (e & He & Q). specialize (B1 e He). lia.
  Qed.

  (** ** Forecasts *)

  Variable ladev : Z -> Z.

  Definition fcast' (g : nat -> list simrow) (s : nat) (i : nat) : val * list simrow :=
    let cf := cumprod (map (fun r => lfac g s (b_d r)) (fc_part ladev (g i))) in
    if is_first m (g i) then (NaN, set_cum_inc (g i) (map b_cum (g i)))
    else (l_act_cum ladev (g i), set_cum_inc (act_part ladev (g i) ++ fc_part ladev (g i)) (fc_cums ladev (g i) (removelast (NaN :: cf)))).

  Lemma keyed_in g sims s i r : keyed g sims -> s < sims -> i < nr -> In r (g s i) -> b_sim r = s /\ b_o r = o_ i /\ In (b_d r) (m_cols m).
  Proof.
    intros K Hs Hi Hr. apply (in_map key) in Hr. rewrite (K s i Hs Hi) in Hr. apply in_map_iff in Hr as (d & Hd & Hin).
    unfold key in Hd. unfold o_. repeat split; congruence.
  Qed.
  Lemma last_fc (l : list simrow) o d : gsorted l -> (forall r, In r l -> b_o r = o) -> last (map b_d l) 0%Z = d ->
    fc_part ladev l <> [] -> last (map b_d (fc_part ladev l)) 0%Z = d.
  Proof.
    intros S1 Ho L Ne. rewrite <- (act_fc ladev l S1), map_app in L. 
    destruct (fc_part ladev l) as [|r r'] eqn:E; [congruence|]. 
    clear -L. revert L. generalize (map b_d (act_part ladev l)) as a. cbn [map]. generalize (b_d r) as x, (map b_d r') as t.
    intros x t a. induction a as [|y a IH]; auto. intro L. apply IH. rewrite <- L. cbn [app]. destruct (a ++ x :: t) eqn:Q; auto.
    destruct a; discriminate.
  Qed.

  Lemma cum_ldfs_lfac g sims s i : keyed g sims -> closed g sims -> s < sims -> i < nr ->
    cum_ldfs ladev (bs_ldfs m cl sims (cube sims nr g)) (g s i) = cumprod (map (fun r => lfac (g s) s (b_d r)) (fc_part ladev (g s i))).
  Proof.
    intros K Cd Hs Hi. unfold cum_ldfs. f_equal. apply map_ext_in. intros r Hr. unfold fc_part in Hr. apply filter_In in Hr as (Hr & _).
    destruct (keyed_in g sims s i r K Hs Hi Hr) as (-> & _). apply ldf_at_blk; auto.
  Qed.
  Lemma forecasts_gen g sims : keyed g sims -> closed g sims ->
    forecasts m ladev (bs_ldfs m cl sims (cube sims nr g)) NaN (cube sims nr g) = cube sims nr (fun s => fcast' (g s) s).
  Proof.
    intros K Cd. rewrite forecasts_map.
    - rewrite map_cube. apply cube_ext. intros s i Hs Hi. unfold fcast, fcast'.
      rewrite (cum_ldfs_lfac g sims) by auto. auto.
    - intros x Hx _. apply in_cube in Hx as (s & i & Hs & Hi & ->). rewrite (cum_ldfs_lfac g sims) by auto.
      assert (Ks := K s i Hs Hi). assert (Gs := group_sorted _ _ _ _ Sd Ks).
      destruct (fc_part ladev (g s i)) as [|r0 rs] eqn:E; auto.
      unfold cumprod. apply cumprod_last; [discriminate|]. rewrite <- E.
      assert (Ll := last_fc (g s i) (o_ i) (d_ (nc - 1)) Gs). rewrite E in Ll.
      assert (Q : last (map b_d (r0 :: rs)) 0%Z = d_ (nc - 1)).
      { apply Ll.
        - intros r Hr. apply (keyed_in g sims s i r K Hs Hi Hr).
        - assert (Em : map b_d (g s i) = m_cols m).
          { assert (Eq : map (fun k : nat * Z * Z => snd k) (map key (g s i)) = m_cols m) by (rewrite Ks, map_map; apply map_id).
            rewrite map_map in Eq. exact Eq. }
          rewrite Em. unfold d_, nc, ncols. apply last_nth.
        - discriminate. }
      rewrite E. assert (G : forall l x, last (map b_d (x :: l)) 0%Z = last (map b_d (x :: l)) 0%Z -> 
        last (map (fun r => lfac (g s) s (b_d r)) (x :: l)) (Fin 0%Qc) = lfac (g s) s (last (map b_d (x :: l)) 0%Z)).
      { induction l as [|y l IH]; intros x _; auto. change (last (map (fun r => lfac (g s) s (b_d r)) (y :: l)) (Fin 0%Qc) = lfac (g s) s (last (map b_d (y :: l)) 0%Z)).
        apply IH. auto. }
      rewrite G, Q by auto. apply lfac_last.
  Qed.

  (** ** Records *)

  Lemma fcast_key g sims s i : keyed g sims -> s < sims -> i < nr ->
    map key (snd (fcast' (g s) s i)) = map (fun d => (s, o_ i, d)) (m_cols m).
  Proof.
    intros K Hs Hi. assert (Ks := K s i Hs Hi). assert (Gs := group_sorted _ _ _ _ Sd Ks). unfold fcast'.
    destruct (is_first m (g s i)); cbn [snd].
    - rewrite set_cum_inc_key by apply map_length. exact Ks.
    - rewrite act_fc by auto. rewrite set_cum_inc_key; [exact Ks|]. apply fc_cums_length; auto.
      rewrite removelast_length. unfold cumprod. rewrite cum_from_length, map_length. auto.
  Qed.
  Lemma fcast_length g sims s i : keyed g sims -> s < sims -> i < nr -> length (snd (fcast' (g s) s i)) = nc.
  Proof. intros K Hs Hi. rewrite <- (map_length key), (fcast_key g sims), map_length; auto. Qed.

  Variable scale : val.
  Definition rr' (gd : nat -> val) (g : nat -> list simrow) (s i : nat) : rrec :=
    rec_of s (nth i (m_idx m) 0%Z) (fst (fcast' g s i))
      (last (cumsum (fincs gd ((s * nrows m + i) * ncols m) (snd (fcast' g s i)))) NaN).

  Lemma records_gen g sims gam : keyed g sims -> closed g sims ->
    bs_reserves m (process_error scale gam (forecasts m ladev (bs_ldfs m cl sims (cube sims nr g)) NaN (cube sims nr g)))
    = flat_map (fun i => map (fun s => rr' (gam (gparams scale (cube sims nr (fun s => fcast' (g s) s)))) (g s) s i) (seq 0 sims)) (seq 0 nr).
  Proof.
    intros K Cd. rewrite forecasts_gen by auto. unfold process_error, bs_reserves.
    set (gd := gam _). rewrite (final_groups_map gd nc).
    2:{ intros e He. apply in_cube in He as (s & i & Hs & Hi & ->). apply (fcast_length g sims); auto. }
    rewrite cube_length, combine_seq_cube, map_cube. cbn [fst snd]. unfold reserve_recs. rewrite flat_map_cube.
    assert (E : flat_map (fun s => flat_map (fun i =>
        flat_map (fun p : simrow * val => if (b_d (fst p) =? zmax (m_cols m))%Z
          then [mkR (b_sim (fst p)) (b_o (fst p)) (if isnan (fst (fcast' (g s) s i)) then snd p else fst (fcast' (g s) s i)) (snd p)
                 (nan0 (vsub (snd p) (fst (fcast' (g s) s i))))] else [])
          (combine (snd (fcast' (g s) s i)) (cumsum (fincs gd (0 + (s * nr + i) * nc) (snd (fcast' (g s) s i)))))) (seq 0 nr)) (seq 0 sims)
      = cube sims nr (fun s => rr' gd (g s) s)).
    { apply flat_map_seq_ext. intros s Hs. rewrite <- flat_map_single. apply flat_map_seq_ext. intros i Hi.
      etransitivity; [apply (group_rec m s (o_ i) (fst (fcast' (g s) s i)) (snd (fcast' (g s) s i)))|].
      - exact Sd.
      - exact Nd.
      - apply (fcast_key g sims); auto; lia.
      - unfold fincs. rewrite cumsum_length, map_length, combine_length, seq_length. lia.
      - reflexivity. }
    etransitivity; [exact (f_equal _ E)|]. unfold nr, nrows. apply sort_cube; auto.
  Qed.

  Lemma gparams_gen g sims s i j : keyed g sims -> s < sims -> i < nr -> j < nc ->
    nth ((s * nr + i) * nc + j) (gparams scale (cube sims nr (fun s => fcast' (g s) s))) (NaN, NaN)
    = (vabs (vdiv (b_inc (nth j (snd (fcast' (g s) s i)) (mkS 0 0 0 false NaN NaN))) scale), scale).
  Proof.
    intros K Hs Hi Hj. unfold gparams. rewrite map_cube.
    assert (Q : nth ((s * nr + i) * nc + j) (concat (cube sims nr (fun s i => snd (fcast' (g s) s i)))) (mkS 0 0 0 false NaN NaN)
               = nth j (snd (fcast' (g s) s i)) (mkS 0 0 0 false NaN NaN)).
    { rewrite (nth_concat _ nc).
      - rewrite cube_nth by auto. auto.
      - intros x Hx. apply in_cube in Hx as (s' & i' & Hs' & Hi' & ->). apply (fcast_length g sims); auto.
      - rewrite cube_length. nia.
      - auto. }
    assert (Ll : length (concat (cube sims nr (fun s i => snd (fcast' (g s) s i)))) = sims * nr * nc).
    { rewrite concat_flat_map, flat_map_cube.
      assert (G : forall k a, a + k <= sims -> length (flat_map (fun s => flat_map (fun i => snd (fcast' (g s) s i)) (seq 0 nr)) (seq a k)) = k * nr * nc).
      { induction k as [|k IH]; intros a A; auto. cbn [seq flat_map]. rewrite app_length, IH by lia.
        assert (G2 : forall c b, b + c <= nr -> length (flat_map (fun i => snd (fcast' (g a) a i)) (seq b c)) = c * nc).
        { induction c as [|c IHc]; intros b Hb; auto. cbn [seq flat_map]. rewrite app_length, IHc, (fcast_length g sims) by (auto; lia). lia. }
        rewrite G2 by lia. lia. }
      apply G. lia. }
    rewrite <- Q. rewrite (nth_map_in _ _ _ _ (mkS 0 0 0 false NaN NaN)); auto. rewrite Ll. clear -Hs Hi Hj. clearbody nr nc.
    assert (s * nr + i < sims * nr) by nia. nia.
  Qed.

  (** Two families that agree on simulation [s] have the same records for it. *)
  Lemma indep_gen g g' sims sims' gam gam' (G G' : nat -> val * val -> val) s :
    keyed g sims -> closed g sims -> keyed g' sims' -> closed g' sims' -> s < sims -> s < sims' ->
    (forall i, i < nr -> g s i = g' s i) ->
    (forall ps k, gam ps k = G k (nth k ps (NaN, NaN))) -> (forall ps k, gam' ps k = G' k (nth k ps (NaN, NaN))) ->
    (forall k, s * (nr * nc) <= k < S s * (nr * nc) -> forall p, G k p = G' k p) ->
    forall i, i < nr ->
    rr' (gam (gparams scale (cube sims nr (fun s => fcast' (g s) s)))) (g s) s i
    = rr' (gam' (gparams scale (cube sims' nr (fun s => fcast' (g' s) s)))) (g' s) s i.
  Proof.
    intros K Cd K' Cd' Hs Hs' Ag HG HG' GG i Hi.
    assert (Ec : forall j, col_rows (g s) j = col_rows (g' s) j).
    { intro j. unfold col_rows. f_equal. f_equal. apply map_ext_in. intros k Hk. apply in_seq in Hk. apply Ag. unfold nr. lia. }
    assert (Eb : blk (g s) s = blk (g' s) s).
    { unfold blk. apply flat_map_ext. intro j. rewrite Ec. auto. }
    assert (Ef : fcast' (g s) s i = fcast' (g' s) s i).
    { unfold fcast', lfac. rewrite Eb, Ag by auto. auto. }
    unfold rr'. rewrite Ef. f_equal. f_equal. f_equal. unfold fincs.
    assert (Lg := fcast_length g' sims' s i K' Hs' Hi). rewrite Lg.
    apply map_ext_in. intros [pos r] Hin. apply in_combine_l in Hin. apply in_seq in Hin. cbn [fst snd].
    unfold final_incr. destruct (b_fc r); auto. f_equal. rewrite HG, HG'. fold nr nc in Hin.
    assert (A : i * nc + nc <= nr * nc) by nia.
    assert (W : pos = (s * nr + i) * nc + (pos - (s * nr + i) * nc)) by lia.
    rewrite W. rewrite (gparams_gen g sims), (gparams_gen g' sims') by (auto; lia). rewrite Ef. apply GG. nia.
  Qed.
End Gen.

(** ** The simulated groups *)

Lemma cum_from_fin l : (forall v, In v l -> v = NaN \/ exists q, v = Fin q) -> forall a j q,
  nth j l NaN = Fin q -> exists r, nth j (cum_from vadd (Fin a) l) NaN = Fin r.
Proof.
  induction l as [|v l IH]; intros H a j q E; [destruct j; discriminate|].
  assert (H' : forall v, In v l -> v = NaN \/ exists q, v = Fin q) by (intros; apply H; right; auto).
  destruct (H v (or_introl eq_refl)) as [->|(x & ->)]; cbn [cum_from isnan vadd].
  - destruct j as [|j]; [discriminate|]. cbn [nth] in *. eapply IH; eauto.
  - destruct j as [|j]; cbn [nth] in *; [eauto|]. eapply IH; eauto.
Qed.
Lemma cum_from_nan l : forall a j, nth j l NaN = NaN -> nth j (cum_from vadd a l) NaN = NaN.
Proof.
  induction l as [|v l IH]; intros a j E; [destruct j; auto|]. cbn [cum_from].
  destruct (isnan v) eqn:N; destruct j as [|j]; cbn [nth] in *; auto. subst v. discriminate.
Qed.

Section Samples.
  Variables (m fit : lmat) (cl : list nat) (rt : val -> val).
  Hypothesis So : zsorted (m_idx m).
  Hypothesis Sd : zsorted (m_cols m).
  Hypothesis Nd : m_cols m <> [].
  Hypothesis Rt : root_like rt.
  Let nr := nrows m.
  Let nc := ncols m.

  Lemma sample_keyed resid sims : keyed m (sample_group rt m fit resid) sims.
  Proof. intros s i _ _. apply group_key. Qed.

  Lemma sample_ext resid resid' s i : i < nr ->
    (forall k, s * (nr * nc) <= k < S s * (nr * nc) -> resid k = resid' k) ->
    sample_group rt m fit resid s i = sample_group rt m fit resid' s i.
  Proof.
    intros Hi Ag. unfold sample_group. fold nr nc.
    match goal with |- context [map (fun j => if isnan (at1 ?inc j) then NaN else vadd (at1 ?inc j) (vmul (resid _) _)) _] => set (I := inc) end.
    assert (E : map (fun j => if isnan (at1 I j) then NaN
                 else vadd (at1 I j) (vmul (resid (s * (nr * nc) + i * nc + j)) (rt (at1 I j)))) (seq 0 nc)
      = map (fun j => if isnan (at1 I j) then NaN
                 else vadd (at1 I j) (vmul (resid' (s * (nr * nc) + i * nc + j)) (rt (at1 I j)))) (seq 0 nc)).
    { apply map_seq_ext. intros j Hj. rewrite Ag; auto. clear -Hi Hj. clearbody nr nc. assert (i * nc + j < nr * nc) by nia. nia. }
    rewrite E. auto.
  Qed.

  Definition fcell i j := cell (m_cells fit) i j.

  (** Oldest origin: numbers or missing, the last one a number not below 0; no other
      origin at the last period. *)
  Hypothesis F0 : forall j, j < nc -> fcell 0 j = NaN \/ exists q, fcell 0 j = Fin q.
  Hypothesis Fl : exists q, fcell 0 (nc - 1) = Fin q /\ (0 <= q)%Qc.
  Hypothesis Fo : forall i, 0 < i < nr -> fcell i (nc - 1) = NaN.
  Hypothesis Cl : nth (nc - 1) cl 0 = 0.
  Hypothesis Nr : 0 < nr.

  Lemma nc_pos' : 0 < nc.
  Proof. unfold nc, ncols. destruct (m_cols m); [congruence|]. simpl. lia. Qed.
  Lemma root_fin q : (0 <= q)%Qc -> exists r, rt (Fin q) = Fin r.
  Proof.
    intro Q. destruct Rt as (_ & R0 & Rp & _). destruct (qc_lt_le_dec 0 q) as [A|A].
    - destruct (Rp q A) as (r & _ & E). eauto.
    - assert (q = 0)%Qc by (apply Qcle_antisym; auto). subst. eauto.
  Qed.
  Lemma root_cases q : rt (Fin q) = NaN \/ exists r, rt (Fin q) = Fin r.
  Proof.
    destruct (qc_lt_le_dec q 0) as [A|A]; [left; apply Rt; auto|right; apply root_fin; auto].
  Qed.

  Lemma col_one resid s i : i < nr ->
    filter (fun r => (b_d r =? nth (nc - 1) (m_cols m) 0)%Z && negb (isnan (b_cum r))) (sample_group rt m fit resid s i)
    = match nth (nc - 1) (map b_cum (sample_group rt m fit resid s i)) NaN with
      | NaN => [] | _ => [nth (nc - 1) (sample_group rt m fit resid s i) (mkS 0 0 0 false NaN NaN)] end.
  Proof.
    intro Hi. assert (H := nc_pos'). unfold sample_group. fold nr nc.
    match goal with |- context [map (fun j => mkS s _ _ (@?a j) (@?b j) (@?c j)) (seq 0 nc)] =>
      set (f := fun j => mkS s (nth i (m_idx m) 0%Z) (nth j (m_cols m) 0%Z) (a j) (b j) (c j)) end.
    change (filter (fun r => (b_d r =? nth (nc - 1) (m_cols m) 0)%Z && negb (isnan (b_cum r))) (map f (seq 0 nc))
      = match nth (nc - 1) (map b_cum (map f (seq 0 nc))) NaN with NaN => [] | _ => [nth (nc - 1) (map f (seq 0 nc)) (mkS 0 0 0 false NaN NaN)] end).
    rewrite map_map, !nth_map_seq by lia. cbn [Nat.add].
    rewrite filter_map_seq. 
    assert (Es : seq 0 nc = seq 0 (nc - 1) ++ [nc - 1]).
    { replace nc with ((nc - 1) + 1) at 1 by lia. rewrite seq_app. auto. }
    rewrite Es, filter_app. cbn [filter].
    assert (E : filter (fun j => (b_d (f j) =? nth (nc - 1) (m_cols m) 0)%Z && negb (isnan (b_cum (f j)))) (seq 0 (nc - 1)) = []).
    { assert (G : forall l, (forall x, In x l -> x < nc - 1) ->
        filter (fun j => (b_d (f j) =? nth (nc - 1) (m_cols m) 0)%Z && negb (isnan (b_cum (f j)))) l = []).
      { induction l as [|x l IH]; intro B; auto. cbn [filter]. rewrite IH by (intros; apply B; right; auto).
        assert (Q : (b_d (f x) =? nth (nc - 1) (m_cols m) 0)%Z = false).
        { apply Z.eqb_neq. unfold f. cbn [b_d]. assert (W := zsorted_nth (m_cols m) x (nc - 1) 0%Z Sd).
          assert (B1 := B x (or_introl eq_refl)). unfold nc, ncols in *. lia. }
        rewrite Q. auto. }
      apply G. intros x Hx. apply in_seq in Hx. lia. }
    rewrite E. unfold f at 1. cbn [b_d app]. rewrite Z.eqb_refl. cbn [andb].
    destruct (b_cum (f (nc - 1))); auto.
  Qed.

  Lemma last_cum resid s i : i < nr -> (forall k, k < nr * nc -> exists q, resid (s * (nr * nc) + k) = Fin q) ->
    if i =? 0 then exists q, nth (nc - 1) (map b_cum (sample_group rt m fit resid s i)) NaN = Fin q
    else nth (nc - 1) (map b_cum (sample_group rt m fit resid s i)) NaN = NaN.
  Proof.
    intros Hi Rf. assert (H := nc_pos'). unfold sample_group. fold nr nc. rewrite map_map, nth_map_seq by lia. cbn [Nat.add b_cum].
    match goal with |- context [map (fun j => if isnan (at1 ?inc j) then NaN else vadd (at1 ?inc j) (vmul (resid _) _)) _] => set (I := inc) end.
    assert (At : forall j, j < nc -> at1 I j = first_fix j (fcell i j)).
    { intros j Hj. unfold at1, I. rewrite nth_map_seq by auto. auto. }
    match goal with |- context [cumsum ?l] => set (X := l) end.
    assert (Xn : forall j, j < nc -> nth j X NaN = if isnan (at1 I j) then NaN else
        vadd (at1 I j) (vmul (resid (s * (nr * nc) + i * nc + j)) (rt (at1 I j)))).
    { intros j Hj. unfold X. rewrite nth_map_seq by auto. auto. }
    destruct (Nat.eqb_spec i 0) as [->|D].
    - destruct Fl as (q & Eq & Q0).
      assert (El : exists q', at1 I (nc - 1) = Fin q' /\ (0 <= q')%Qc).
      { rewrite At by lia. rewrite Eq. unfold first_fix. destruct (_ && _); [|eauto]. exists 1%Qc. split; auto. discriminate. }
      destruct El as (q' & El & Q'). destruct (root_fin q' Q') as (r & Er).
      destruct (Rf (nc - 1)) as (u & Eu); [clear -H Nr; clearbody nr nc; nia|].
      assert (Ex : nth (nc - 1) X NaN = Fin (q' + u * r)%Qc).
      { rewrite Xn by lia. rewrite El, Er. cbn [isnan]. rewrite Nat.mul_0_l, Nat.add_0_r, Eu. auto. }
      unfold at1, cumsum. eapply cum_from_fin; eauto. intros v Hv. unfold X in Hv. apply in_map_iff in Hv as (j & <- & Hj).
      apply in_seq in Hj. destruct (Rf j) as (u' & Eu'); [clear -Hj Nr; clearbody nr nc; nia|].
      rewrite Nat.mul_0_l, Nat.add_0_r, Eu'. rewrite At by lia.
      assert (C : first_fix j (fcell 0 j) = NaN \/ exists q, first_fix j (fcell 0 j) = Fin q).
      { destruct (F0 j ltac:(lia)) as [->|(y & ->)]; unfold first_fix; destruct (_ && _); eauto. }
      destruct C as [->|(y & ->)]; auto. cbn [isnan]. destruct (root_cases y) as [->|(z & ->)]; cbn; eauto.
    - unfold at1. apply cum_from_nan. rewrite Xn by lia. rewrite At by lia. rewrite Fo by lia. unfold first_fix. cbn.
      rewrite andb_false_r. auto.
  Qed.

  Lemma sample_closed resid sims : (forall k, k < sims * (nr * nc) -> exists q, resid k = Fin q) ->
    closed m cl (sample_group rt m fit resid) sims.
  Proof.
    intros Rf s Hs. exists (nth (nc - 1) (sample_group rt m fit resid s 0) (mkS 0 0 0 false NaN NaN)).
    assert (Rs : forall k, k < nr * nc -> exists q, resid (s * (nr * nc) + k) = Fin q).
    { intros k Hk. apply Rf. nia. }
    split.
    - unfold col_rows. rewrite <- flat_map_concat_map, filter_flat_map. fold nr nc.
      rewrite (flat_map_one _ nr 0 Nr).
      + rewrite col_one by auto. assert (L := last_cum resid s 0 Nr Rs). cbn [Nat.eqb] in L. destruct L as (q & ->). auto.
      + intros i Hi D. rewrite col_one by auto. assert (L := last_cum resid s i Hi Rs).
        destruct (Nat.eqb_spec i 0); [lia|]. rewrite L. auto.
    - fold nc. rewrite Cl. assert (H := nc_pos'). unfold sample_group. fold nr nc. rewrite nth_map_seq by lia. auto.
  Qed.

  (** Simulation [s] of two runs. *)
  Lemma simulate_indep rl scale sims sims' resid resid' gam gam' (G G' : nat -> val * val -> val) s :
    (forall k, k < sims * (nr * nc) -> exists q, resid k = Fin q) ->
    (forall k, k < sims' * (nr * nc) -> exists q, resid' k = Fin q) ->
    (forall ps k, gam ps k = G k (nth k ps (NaN, NaN))) -> (forall ps k, gam' ps k = G' k (nth k ps (NaN, NaN))) ->
    s < sims -> s < sims' ->
    (forall k, s * (nr * nc) <= k < S s * (nr * nc) -> resid k = resid' k /\ forall p, G k p = G' k p) ->
    filter (fun r => v_sim r =? s) (simulate rt m cl rl fit scale sims resid gam)
    = filter (fun r => v_sim r =? s) (simulate rt m cl rl fit scale sims' resid' gam').
  Proof.
    intros Rf Rf' HG HG' Hs Hs' Ag. unfold simulate.
    set (ladev := fun o : Z => match zfind o (m_idx m) with Some i => nth (nth i rl 0) (m_cols m) 0%Z | None => 0%Z end).
    change (samples rt m fit sims resid) with (cube sims nr (sample_group rt m fit resid)).
    change (samples rt m fit sims' resid') with (cube sims' nr (sample_group rt m fit resid')).
    assert (K := sample_keyed resid sims). assert (K' := sample_keyed resid' sims').
    assert (Cd := sample_closed resid sims Rf). assert (Cd' := sample_closed resid' sims' Rf').
    cbv zeta. fold ladev. unfold nr.
    rewrite (records_gen m cl So Sd Nd ladev scale _ sims gam K Cd).
    rewrite (records_gen m cl So Sd Nd ladev scale _ sims' gam' K' Cd').
    assert (By : forall sims (R : nat -> nat -> rrec), s < sims -> (forall s k, v_sim (R s k) = s) ->
      filter (fun r => v_sim r =? s) (flat_map (fun i => map (fun s => R s i) (seq 0 sims)) (seq 0 nr)) = map (R s) (seq 0 nr)).
    { clear. intros sims R Hs H. rewrite filter_flat_map, <- flat_map_single. apply flat_map_seq_ext. intros i Hi.
      assert (G : forall k a, s < a -> filter (fun r => v_sim r =? s) (map (fun s => R s i) (seq a k)) = []).
      { induction k as [|k IH]; intros a A; auto. cbn [seq map filter]. rewrite H. destruct (Nat.eqb_spec a s); [lia|]. apply IH. lia. }
      assert (G2 : forall k a, a <= s < a + k -> filter (fun r => v_sim r =? s) (map (fun s => R s i) (seq a k)) = [R s i]).
      { induction k as [|k IH]; intros a A; [lia|]. cbn [seq map filter]. rewrite H. destruct (Nat.eqb_spec a s) as [->|D].
        - rewrite G by lia. auto.
        - apply IH; lia. }
      apply G2. lia. }
    set (gd1 := gam _). set (gd2 := gam' _). unfold nr in By.
    rewrite (By sims (fun s => rr' m cl ladev gd1 (sample_group rt m fit resid s) s) Hs ltac:(reflexivity)).
    rewrite (By sims' (fun s => rr' m cl ladev gd2 (sample_group rt m fit resid' s) s) Hs' ltac:(reflexivity)). apply map_seq_ext. intros i Hi.
    unfold gd1, gd2.
    apply (indep_gen m cl Sd ladev scale _ _ sims sims' gam gam' G G' s K Cd K' Cd' Hs Hs'); auto.
    - intros k Hk. apply sample_ext; auto. intros p Hp. apply Ag. auto.
    - intros k Hk. apply Ag. auto.
    - unfold nr in *. lia.
  Qed.
End Samples.
