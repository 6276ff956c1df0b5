(** A bootstrap of a triangle with a development factor below 1 (C97). *)

From Coq Require Import String QArith Qcanon ZArith List Bool Lia Permutation Sorting.Sorted.
From Verif Require Import Val Frame Triangle A2A Base Mack Boot ListLib QcLib Spec Spec2 SpecSim TblFacts ConvFacts FillFacts
  TriClaims4 RegFacts AvgFacts MackFacts BuildFacts BaseClaims BootFit BootLib BootSim BootClaims BootNoise BootClaims2
  BootForm BootFormL BootIndep SimClaims.
Import ListNotations.
Open Scope list_scope.
Open Scope nat_scope.

Notation r0 := (mkS 0 0 0 false NaN NaN).

(** ** Records of any table of forecasts *)

Lemma forecasts_at m ladev lt tab : forall prev k, k < length tab -> exists pre,
  nth k (forecasts m ladev lt prev tab) (NaN, []) =
  let g := nth k tab [] in
  if is_first m g then (NaN, set_cum_inc g (map b_cum g))
  else (l_act_cum ladev g, set_cum_inc (act_part ladev g ++ fc_part ladev g)
          (fc_cums ladev g (removelast (pre :: cum_ldfs ladev lt g)))).
Proof.
  induction tab as [|g tab IH]; intros prev k Hk; [simpl in Hk; lia|]. cbn [forecasts].
  destruct k as [|k].
  - exists prev. cbn [nth]. cbv zeta. destruct (is_first m g); reflexivity.
  - cbn [length] in Hk. destruct (is_first m g); cbn [nth]; apply IH; lia.
Qed.

Section Any.
  Variables (m : lmat) (scale : val) (sims : nat) (fcs : list (val * list simrow)).
  Hypothesis So : zsorted (m_idx m).
  Hypothesis Sd : zsorted (m_cols m).
  Hypothesis Nd : m_cols m <> [].
  Let nr := nrows m.
  Let nc := ncols m.
  Hypothesis Lf : length fcs = sims * nr.
  Let e s i := nth (s * nr + i) fcs (NaN, []).
  Hypothesis Kf : forall s i, s < sims -> i < nr -> map key (snd (e s i)) = map (fun d => (s, nth i (m_idx m) 0%Z, d)) (m_cols m).

  Lemma any_cube : fcs = cube sims nr e.
  Proof. apply cube_of_list. exact Lf. Qed.
  Lemma any_width x : In x fcs -> length (snd x) = nc.
  Proof.
    rewrite any_cube. intro H. apply in_cube in H as (s & i & Hs & Hi & ->).
    rewrite <- (map_length key), Kf, map_length by auto. reflexivity.
  Qed.

  Lemma records_any gam : bs_reserves m (process_error scale gam fcs)
    = flat_map (fun i => map (fun s => rec_of s (nth i (m_idx m) 0%Z) (fst (e s i))
        (last (cumsum (fincs (gam (gparams scale fcs)) ((s * nr + i) * nc) (snd (e s i)))) NaN)) (seq 0 sims)) (seq 0 nr).
  Proof.
    unfold process_error, bs_reserves. set (gd := gam _). rewrite (final_groups_map gd nc) by apply any_width.
    rewrite Lf. rewrite any_cube at 1. rewrite combine_seq_cube, map_cube. cbn [fst snd]. unfold reserve_recs. rewrite flat_map_cube.
    assert (E : flat_map (fun s => flat_map (fun i =>
        flat_map (fun p : simrow * val => if (b_d (fst p) =? zmax (m_cols m))%Z
          then [mkR (b_sim (fst p)) (b_o (fst p)) (if isnan (fst (e s i)) then snd p else fst (e s i)) (snd p)
                 (nan0 (vsub (snd p) (fst (e s i))))] else [])
          (combine (snd (e s i)) (cumsum (fincs gd (0 + (s * nr + i) * nc) (snd (e s i)))))) (seq 0 nr)) (seq 0 sims)
      = cube sims nr (fun s i => rec_of s (nth i (m_idx m) 0%Z) (fst (e s i)) (last (cumsum (fincs gd ((s * nr + i) * nc) (snd (e s i)))) NaN))).
    { apply flat_map_seq_ext. intros s Hs. rewrite <- flat_map_single. apply flat_map_seq_ext. intros i Hi.
      etransitivity; [apply (group_rec m s (nth i (m_idx m) 0%Z) (fst (e s i)) (snd (e s i)))|].
      - exact Sd.
      - exact Nd.
      - apply Kf; lia.
      - unfold fincs. rewrite cumsum_length, map_length, combine_length, seq_length. lia.
      - reflexivity. }
    etransitivity; [exact (f_equal _ E)|]. unfold nr, nrows. apply sort_cube; auto.
  Qed.

  Lemma gparams_any s i j : s < sims -> i < nr -> j < nc ->
    nth ((s * nr + i) * nc + j) (gparams scale fcs) (NaN, NaN)
    = (vabs (vdiv (b_inc (nth j (snd (e s i)) r0)) scale), scale).
  Proof.
    intros Hs Hi Hj. unfold gparams.
    assert (W : forall g, In g (map snd fcs) -> length g = nc).
    { intros g Hg. apply in_map_iff in Hg as (x & <- & Hx). apply any_width. auto. }
    assert (Q : nth ((s * nr + i) * nc + j) (concat (map snd fcs)) r0 = nth j (snd (e s i)) r0).
    { rewrite (nth_concat _ nc); auto.
      - unfold e. change (@nil simrow) with (snd (NaN, @nil simrow)). rewrite map_nth. reflexivity.
      - rewrite map_length, Lf. nia. }
    assert (Ll : length (concat (map snd fcs)) = sims * nr * nc).
    { rewrite <- Lf, <- (map_length snd). clear -W. induction (map snd fcs) as [|g l IH]; auto. cbn [concat length].
      rewrite app_length, IH by (intros; apply W; right; auto). rewrite (W g) by (left; auto). lia. }
    rewrite <- Q. rewrite (nth_map_in _ _ _ _ r0); auto. rewrite Ll. clear -Hs Hi Hj. clearbody nr nc.
    assert (s * nr + i < sims * nr) by nia. nia.
  Qed.
End Any.

(** ** A group whose latest value is missing *)

Lemma lost_cums ladev g sh : gsorted g -> length sh = length (fc_part ladev g) ->
  (forall r, In r g -> (ladev (b_o r) <=? b_d r)%Z = true -> b_cum r = NaN) ->
  l_act_cum ladev g = NaN /\
  fc_cums ladev g sh = map (fun r => if (ladev (b_o r) <=? b_d r)%Z then Fin 0%Qc else b_cum r) g.
Proof.
  intros Sg Ls H.
  assert (A : forall r, In r (fc_part ladev g) -> b_cum r = NaN /\ (ladev (b_o r) <=? b_d r)%Z = true).
  { intros r Hr. unfold fc_part in Hr. apply filter_In in Hr as (Hr & Q). auto. }
  assert (La : l_act_cum ladev g = NaN).
  { unfold l_act_cum. destruct (fc_part ladev g) as [|r l]; auto. apply A. left. auto. }
  split; auto. unfold fc_cums. rewrite La. rewrite <- (act_fc ladev g Sg) at 3. rewrite map_app. f_equal.
  - apply map_ext_in. intros r Hr. unfold act_part in Hr. apply filter_In in Hr as (_ & Q).
    destruct (ladev (b_o r) <=? b_d r)%Z; [discriminate|]. auto.
  - clear -A Ls. revert sh A Ls. generalize (fc_part ladev g) as l. induction l as [|r l IH]; intros [|x sh] A Ls; try discriminate; auto.
    cbn [combine map]. destruct (A r (or_introl eq_refl)) as (Q1 & Q2). rewrite Q2. f_equal.
    + unfold cum_final. cbn [fst snd]. rewrite Q1. reflexivity.
    + apply IH; [intros; apply A; right; auto|]. injection Ls. auto.
Qed.

Lemma rt_fin' rt q : root_like rt -> (0 <= q)%Qc -> rt (Fin q) = Fin (fq (rt (Fin q))).
Proof.
  intros (_ & R0 & Rp & _) Q. destruct (qc_lt_le_dec 0 q) as [P|P].
  - destruct (Rp q P) as (r & _ & ->). auto.
  - assert (q = 0)%Qc by (apply Qcle_antisym; auto). subst. rewrite R0. auto.
Qed.

Section Wipe.
  Variables (os ds : list Z) (n : nat) (C fi : nat -> nat -> Qc).
  Hypothesis So : zsorted os.
  Hypothesis Sd : zsorted ds.
  Hypothesis Lo : length os = n.
  Hypothesis Ld : length ds = n.
  Variable rt : val -> val.
  Hypothesis Rt : root_like rt.
  Variable sims : nat.
  Variable resid : nat -> val.
  Hypothesis Rf : forall k, k < sims * (n * n) -> exists q, resid k = Fin q.
  Variable j : nat.
  Hypothesis Hj : 0 < j < n - 1.
  Let i0 := n - 1 - j.
  Hypothesis Fpos : forall k, k < j -> (0 <= fi i0 k)%Qc.
  Hypothesis Fneg : (fi i0 j < 0)%Qc.

  Let m := rmat os ds n C.
  Let fit := rmat os ds n fi.
  Definition Xw (s k : nat) : Qc :=
    (fi i0 k + fq (resid (s * (n * n) + i0 * n + k)) * fq (rt (Fin (fi i0 k))))%Qc.
  Definition Kw (s k : nat) : Qc := sumf 0 (S k) (Xw s).
  Definition row_w (s k : nat) : simrow :=
    mkS s (nth i0 os 0%Z) (nth k ds 0%Z) (negb (k <=? j)) (if k <? j then Fin (Xw s k) else NaN)
        (if k <? j then Fin (Kw s k) else NaN).

  Lemma wipe_group s : s < sims -> sample_group rt m fit resid s i0 = map (row_w s) (seq 0 n).
  Proof.
    intros Hs. assert (Hi : i0 < n) by (unfold i0; lia). assert (Ei : i0 + j = n - 1) by (unfold i0; lia).
    unfold sample_group. change (nrows m) with (length os). change (ncols m) with (length ds).
    rewrite Lo, Ld. change (m_idx m) with os. change (m_cols m) with ds. change (m_cells fit) with (mk n n (rc n fi)).
    set (inc := map (fun k => first_fix k (cell (mk n n (rc n fi)) i0 k)) (seq 0 n)).
    assert (At : forall k, k < n -> at1 inc k = if k <=? j then Fin (fi i0 k) else NaN).
    { intros k Hk. unfold at1, inc. rewrite nth_map_seq by auto. cbn [Nat.add]. rewrite cell_mk by lia. unfold rc, first_fix.
      destruct (Nat.leb_spec k j) as [A|A].
      - rewrite ltb_if by lia. destruct (Nat.eqb_spec k 0) as [->|D]; auto. cbn [andb vltb].
        destruct (qcltb_spec (fi i0 0) 0) as [B|B]; auto. exfalso. apply (Qclt_not_le _ _ B). apply Fpos. lia.
      - rewrite nltb_if by lia. cbn [vltb]. rewrite andb_false_r. auto. }
    assert (E2 : map (fun k => if isnan (at1 inc k) then NaN
                 else vadd (at1 inc k) (vmul (resid (s * (n * n) + i0 * n + k)) (rt (at1 inc k)))) (seq 0 n) = rcol n j (Xw s)).
    { apply map_seq_ext. intros k Hk. rewrite At by lia. destruct (Nat.leb_spec k j) as [A|A].
      - cbn [isnan]. destruct (Rf (s * (n * n) + i0 * n + k)) as (q & Q).
        { assert (i0 * n + k < n * n) by nia. nia. }
        destruct (Nat.eq_dec k j) as [->|D].
        + rewrite nltb_if by lia. destruct Rt as (_ & _ & _ & Rn). rewrite Rn by auto. rewrite Q. reflexivity.
        + rewrite ltb_if by lia. rewrite (rt_fin' rt (fi i0 k) Rt) by (apply Fpos; lia). unfold Xw. rewrite Q. reflexivity.
      - rewrite nltb_if by lia. auto. }
    rewrite E2, cumsum_rcol. apply map_seq_ext. intros k Hk. rewrite At by lia. unfold row_w.
    unfold at1, rcol. rewrite !nth_map_seq by lia. cbn [Nat.add]. f_equal.
    destruct (k <=? j); auto.
  Qed.

  Let rl := map (fun i => n - 1 - i) (seq 0 n).
  Let lad := ladev os ds n.
  Definition cw (s k : nat) : Qc := if k <? j then Kw s k else 0%Qc.
  Definition rec_w (s k : nat) : simrow :=
    mkS s (nth i0 os 0%Z) (nth k ds 0%Z) (negb (k <=? j)) (Fin (linc ds (cw s) k)) (Fin (cw s k)).

  Lemma wipe_forecast s sh : s < sims ->
    let g := sample_group rt m fit resid s i0 in
    length sh = length (fc_part lad g) ->
    l_act_cum lad g = NaN /\ set_cum_inc (act_part lad g ++ fc_part lad g) (fc_cums lad g sh) = map (rec_w s) (seq 0 n).
  Proof.
    intros Hs g Ls. assert (Eg : g = map (row_w s) (seq 0 n)) by (apply wipe_group; auto).
    assert (Gs : gsorted g).
    { apply (group_sorted _ s (nth i0 os 0%Z) ds Sd). unfold g. rewrite group_key. reflexivity. }
    assert (Le : forall k, k < n -> (lad (nth i0 os 0%Z) <=? nth k ds 0%Z)%Z = (j <=? k)).
    { intros k Hk. unfold lad. rewrite (ladev_eq os ds n) by (auto; unfold i0; lia).
      replace (n - 1 - i0) with j by (unfold i0; lia). apply (leb_d os ds n); auto; lia. }
    destruct (lost_cums lad g sh Gs Ls) as (La & Fc).
    { intros r Hr Q. rewrite Eg in Hr. apply in_map_iff in Hr as (k & <- & Hk). apply in_seq in Hk.
      cbn [row_w b_o b_d b_cum] in *. rewrite Le in Q by lia. apply Nat.leb_le in Q. apply nltb_if. lia. }
    split; auto. rewrite Fc, (act_fc lad g Gs). rewrite Eg. rewrite map_map.
    assert (Ec : map (fun x => if (lad (b_o (row_w s x)) <=? b_d (row_w s x))%Z then Fin 0%Qc else b_cum (row_w s x)) (seq 0 n)
                 = map (fun k => Fin (cw s k)) (seq 0 n)).
    { apply map_seq_ext. intros k Hk. cbn [row_w b_o b_d b_cum]. rewrite Le by lia. unfold cw.
      destruct (Nat.leb_spec j k) as [A|A]; [rewrite nltb_if by lia|rewrite !ltb_if by lia]; auto. }
    rewrite Ec. unfold set_cum_inc. rewrite map_map.
    change (map (fun x => b_d (row_w s x)) (seq 0 n)) with (map (fun k => nth k ds 0%Z) (seq 0 n)).
    rewrite (lincrs_eq os ds n Lo Ld ltac:(lia) (cw s)).
    assert (G : forall l, map (fun p => let r := fst p in mkS (b_sim r) (b_o r) (b_d r) (b_fc r) (snd (snd p)) (fst (snd p)))
       (combine (map (row_w s) l) (combine (map (fun k => Fin (cw s k)) l) (map (fun k => Fin (linc ds (cw s) k)) l)))
       = map (rec_w s) l).
    { induction l as [|k l IH]; auto. cbn [map combine]. apply (f_equal2 cons); [|exact IH]. auto. }
    apply G.
  Qed.

  Variable c : Qc.
  Hypothesis Cp : (0 < c)%Qc.
  Variable cl : list nat.
  Variable gam : list (val * val) -> nat -> val.
  Hypothesis Gz : forall ps k, nth k ps (NaN, NaN) = (Fin 0%Qc, Fin c) -> gam ps k = Fin 0%Qc.

  Lemma linc_zero s k : j < k -> linc ds (cw s) k = 0%Qc.
  Proof.
    intro L. unfold linc. destruct k as [|k]; [lia|]. unfold cw. rewrite !nltb_if by lia.
    destruct (_ =? _)%Z; ring.
  Qed.

  Lemma wipe_records : exists R, simulate rt m cl rl fit (Fin c) sims resid gam
      = flat_map (fun i => map (fun s => R s i) (seq 0 sims)) (seq 0 n) /\
    (forall s i, s < sims -> i < n -> v_sim (R s i) = s /\ v_o (R s i) = nth i os 0%Z) /\
    forall s, s < sims -> let u := Fin (sumf 0 n (linc ds (cw s))) in R s i0 = mkR s (nth i0 os 0%Z) u u (Fin 0%Qc).
  Proof.
    unfold simulate. set (tab := samples rt m fit sims resid). set (lt := bs_ldfs m cl sims tab).
    change (fun o : Z => match zfind o (m_idx m) with Some i => nth (nth i rl 0) (m_cols m) 0%Z | None => 0%Z end) with lad.
    assert (Tab : tab = cube sims n (sample_group rt m fit resid)).
    { unfold tab, samples, cube. change (nrows m) with (length os). rewrite Lo. reflexivity. }
    assert (Nd : m_cols m <> []). { change (ds <> []). intro Q. rewrite Q in Ld. simpl in Ld. lia. }
    assert (Sg : forall g, In g tab -> gsorted g).
    { intros g Hg. rewrite Tab in Hg. apply in_cube in Hg as (s & i & Hs & Hi & ->).
      apply (group_sorted _ s (nth i os 0%Z) ds Sd). rewrite group_key. reflexivity. }
    assert (Fk := forecasts_keys m lad lt tab Sg NaN). set (fcs := forecasts m lad lt NaN tab) in *.
    assert (Lt : length tab = sims * n) by (rewrite Tab; apply cube_length).
    assert (Lf : length fcs = sims * nrows m).
    { change (nrows m) with (length os). rewrite Lo, <- Lt. symmetry. clear -Fk. induction Fk; simpl; auto. }
    assert (En : nrows m = n) by (change (nrows m) with (length os); auto).
    assert (Ec : ncols m = n) by (change (ncols m) with (length ds); auto).
    assert (Kf : forall s i, s < sims -> i < nrows m ->
      map key (snd (nth (s * nrows m + i) fcs (NaN, []))) = map (fun d => (s, nth i (m_idx m) 0%Z, d)) (m_cols m)).
    { intros s i Hs Hi. rewrite En in *. assert (Q := forall2_nth _ _ _ [] (NaN, []) (s * n + i) Fk).
      rewrite Lt in Q. destruct Q as (Q & _); [nia|]. rewrite Q, Tab, cube_nth by auto. apply group_key. }
    assert (Ra := records_any m (Fin c) sims fcs So Sd Nd Lf Kf gam). rewrite En in Ra.
    eexists. split; [exact Ra|]. split; [intros; split; reflexivity|].
    intros s Hs.
    assert (Hi : i0 < n) by (unfold i0; lia).
    assert (Gp := fun k => gparams_any m (Fin c) sims fcs Lf Kf s i0 k Hs). rewrite En, Ec in Gp.
    destruct (forecasts_at m lad lt tab NaN (s * n + i0)) as (pre & Q); [rewrite Lt; nia|]. fold fcs in Q. cbv zeta in Q.
    assert (Eg : nth (s * n + i0) tab [] = sample_group rt m fit resid s i0) by (rewrite Tab; apply cube_nth; auto).
    rewrite Eg in Q.
    assert (Nf : is_first m (sample_group rt m fit resid s i0) = false).
    { rewrite wipe_group by auto. rewrite (seq_first n) by lia. cbn [map is_first row_w b_o]. apply Z.eqb_neq.
      change (m_idx m) with os. assert (W := zsorted_nth os 0 i0 0%Z So).
      assert (In (nth 0 os 0%Z) os) by (apply nth_In; lia).
      assert (zmin os <= nth 0 os 0%Z)%Z.
      { clear -H. destruct os as [|a l]; [contradiction|]. cbn [nth]. destruct l; simpl; lia. }
      unfold i0 in *. lia. }
    rewrite Nf in Q.
    destruct (wipe_forecast s (removelast (pre :: cum_ldfs lad lt (sample_group rt m fit resid s i0))) Hs) as (La & Fc).
    { rewrite removelast_length. unfold cum_ldfs, cumprod. rewrite cum_from_length, map_length. auto. }
    rewrite La, Fc in Q. rewrite Q in *. cbn [fst snd] in *. rewrite Ec.
    assert (Fi : fincs (gam (gparams (Fin c) fcs)) ((s * n + i0) * n) (map (rec_w s) (seq 0 n))
                 = map (fun k => Fin (linc ds (cw s) k)) (seq 0 n)).
    { unfold fincs. rewrite map_length, seq_length.
      assert (G : forall k a, a + k <= n -> map (fun p => final_incr (gam (gparams (Fin c) fcs)) (fst p) (snd p))
          (combine (seq ((s * n + i0) * n + a) k) (map (rec_w s) (seq a k))) = map (fun k => Fin (linc ds (cw s) k)) (seq a k)).
      { induction k as [|k IH]; intros a A; auto. cbn [seq map combine]. f_equal.
        - cbn [fst snd]. unfold final_incr. cbn [rec_w b_fc b_inc]. destruct (Nat.leb_spec a j) as [B|B]; auto. cbn [negb].
          assert (Ga := Gp a Hi ltac:(lia)). rewrite nth_map_seq in Ga by lia. cbn [Nat.add rec_w b_inc] in Ga.
          rewrite linc_zero in * by auto.
          assert (Z0 : vabs (vdiv (Fin 0%Qc) (Fin c)) = Fin 0%Qc).
          { rewrite vdiv_fin by (apply qc_pos_neq; auto). replace (0 / c)%Qc with 0%Qc by (field; apply qc_pos_neq; auto). reflexivity. }
          rewrite Z0 in Ga. rewrite (Gz _ _ Ga). reflexivity.
        - rewrite <- Nat.add_succ_r. apply IH. lia. }
      assert (G0 := G n 0 ltac:(lia)). rewrite Nat.add_0_r in G0. exact G0. }
    rewrite Fi, sum_last by lia. reflexivity.
  Qed.

  (** First period labelled 1: nothing is left. *)
  Lemma wipe_sum s : nth 0 ds 0%Z = 1%Z -> sumf 0 n (linc ds (cw s)) = 0%Qc.
  Proof.
    intro D1. assert (G : forall k, S k <= n -> sumf 0 (S k) (linc ds (cw s)) = cw s k).
    { induction k as [|k IH]; intro L.
      - rewrite sumf_Sr, sumf_0. unfold linc. cbn [Nat.add]. rewrite D1. cbn [Z.eqb Pos.eqb]. ring.
      - rewrite sumf_Sr, IH by lia. cbn [Nat.add]. unfold linc.
        assert (W := zsorted_nth ds 0 (S k) 0%Z Sd). destruct (Z.eqb_spec (nth (S k) ds 0%Z) 1); [lia|]. ring. }
    assert (E := G (n - 1) ltac:(lia)). replace (S (n - 1)) with n in E by lia. rewrite E. unfold cw. apply nltb_if. lia.
  Qed.
End Wipe.

(** ** The call *)

Section Call.
  Variables (gm : list val -> val) (rt : val -> val) (m : lmat) (n : nat) (C : nat -> nat -> Qc)
         (cl rl : list nat) (ind : list (list val)) (w : nat -> nat -> bool) (sims : nat) (par : bool)
         (rng : list val -> (nat -> val) * (list (val * val) -> nat -> val)) (b : boot_result) (c : Qc) (p : nat).
  Hypothesis R : regular m n C.
  Hypothesis P : positive n C.
  Hypothesis Ev : tail_fits (m_cols m).
  Hypothesis Hi : forall i j, i + j < n - 1 -> cell ind i j = Fin (if w i j then 1 else 0)%Qc.
  Hypothesis Hl : forall j, j < n - 1 -> w (n - 2 - j) j = true.
  Hypothesis Rl : rlvi m = Ok rl.
  Hypothesis Rt : root_like rt.
  Hypothesis Hp : p + 2 < n.
  Hypothesis F1 : forall k, k < p -> (1 <= vol_factor n C k)%Qc.
  Hypothesis F2 : (vol_factor n C p < 1)%Qc.
  Hypothesis B : boot_cl gm rt (mkTri m "origin" "dev" "value") cl rl ind sims par rng = Ok b.
  Hypothesis Sc : o_scale b = Fin c.
  Hypothesis Cp : (0 < c)%Qc.
  Hypothesis Rf : forall k, k < sims * (n * n) -> exists q, fst (rng (o_dist b)) k = Fin q.
  Hypothesis Gz : forall ps k, nth k ps (NaN, NaN) = (Fin 0%Qc, Fin c) -> snd (rng (o_dist b)) ps k = Fin 0%Qc.
  Let o := nth (n - 2 - p) (m_idx m) 0%Z.
  Let i0 := n - 2 - p.

  Lemma c97 : exists u : nat -> Qc,
    filter (fun r => (v_o r =? o)%Z) (o_reserves b) = map (fun s => mkR s o (Fin (u s)) (Fin (u s)) (Fin 0%Qc)) (seq 0 sims) /\
    (nth 0 (m_cols m) 0%Z = 1%Z -> (forall s, u s = 0%Qc) /\
      (0 < sims -> In (o, Fin (C i0 (p + 1)), Fin 0%Qc, Fin (- C i0 (p + 1)%nat)%Qc) (o_summary b))).
  Proof.
    assert (R' := R). apply regular_rmat in R' as (Em & So & Sd & Lo & Ld).
    assert (Hn : 2 < n) by lia.
    assert (Er : rl = map (fun i => n - 1 - i) (seq 0 n)).
    { assert (Rl' := Rl). rewrite Em in Rl'. rewrite r_rlvi in Rl' by (auto; lia). congruence. }
    assert (B' := B). rewrite (boot_eq m n C R P Hn Ev ind w Hi Hl) in B'. cbv zeta in B'.
    destruct (negb par && _ && _); [discriminate|]. injection B' as Eb.
    set (fi := incr_of (fitc n C (vol_factor n C))) in *.
    assert (Ed : o_dist b = sampling_dist (ra m n C rt)) by (rewrite <- Eb; reflexivity).
    assert (Es : scale_param m (ru m n C rt) = Fin c) by (rewrite <- Sc, <- Eb; reflexivity).
    rewrite Ed in Rf, Gz. rewrite Es in Eb.
    set (resid := fst (rng (sampling_dist (ra m n C rt)))) in *. set (gam := snd (rng (sampling_dist (ra m n C rt)))) in *.
    assert (Vp : forall k, k < n - 1 -> (0 < vol_factor n C k)%Qc) by (intros k Hk; apply vol_pos; auto; lia).
    assert (Hj : 0 < p + 1 < n - 1) by lia.
    assert (I0 : n - 1 - (p + 1) = i0) by (unfold i0; lia).
    assert (St : forall k, i0 + S k < n -> fi i0 (S k) = (fitc n C (vol_factor n C) i0 k * (vol_factor n C k - 1))%Qc).
    { intros k Hk. unfold fi. cbn [incr_of]. rewrite fitc_step by auto. ring. }
    assert (Fc : forall k, i0 + k < n -> (0 < fitc n C (vol_factor n C) i0 k)%Qc) by (intros; apply fitc_pos; auto).
    assert (Fpos : forall k, k < p + 1 -> (0 <= fi (n - 1 - (p + 1))%nat k)%Qc).
    { intros k Hk. rewrite I0. destruct k as [|k].
      - apply Qclt_le_weak. apply Fc. unfold i0. lia.
      - rewrite St by (unfold i0; lia). apply qc_mul_nonneg; [apply Qclt_le_weak, Fc; unfold i0; lia|].
        assert (A := F1 k ltac:(lia)). qlra. }
    assert (Fneg : (fi (n - 1 - (p + 1))%nat (p + 1)%nat < 0)%Qc).
    { rewrite I0. replace (p + 1) with (S p) by lia. rewrite St by (unfold i0; lia).
      assert (A := Fc p ltac:(unfold i0; lia)).
      assert (Q : (0 < fitc n C (vol_factor n C) i0 p * (1 - vol_factor n C p))%Qc) by (apply qc_mul_pos; auto; qlra).
      assert (Q2 : (fitc n C (vol_factor n C) i0 p * (vol_factor n C p - 1) = - (fitc n C (vol_factor n C) i0 p * (1 - vol_factor n C p)))%Qc) by ring.
      rewrite Q2. qlra. }
    destruct (wipe_records (m_idx m) (m_cols m) n C fi So Sd Lo Ld rt Rt sims resid Rf (p + 1) Hj Fpos Fneg c Cp cl gam Gz)
      as (Rr & E1 & E2 & E3).
    rewrite I0 in E3. fold o in E3. rewrite <- Em, <- Er in E1.
    assert (Or : o_reserves b = flat_map (fun i => map (fun s => Rr s i) (seq 0 sims)) (seq 0 n)) by (rewrite <- Eb; exact E1).
    assert (Fo : filter (fun r => (v_o r =? o)%Z) (o_reserves b) = map (fun s => Rr s i0) (seq 0 sims)).
    { rewrite Or. assert (Q := by_origin (m_idx m) sims Rr i0 So). rewrite Lo in Q. apply Q; [unfold i0; lia|].
      intros s k Hs Hk. apply E2; auto. }
    set (u := fun s => sumf 0 n (linc (m_cols m) (cw n fi rt resid (p + 1) s))).
    exists u. split.
    { rewrite Fo. apply map_seq_ext. intros s Hs. apply E3. lia. }
    intro D1. assert (U0 : forall s, u s = 0%Qc) by (intro s; apply (wipe_sum (m_idx m)); auto).
    split; auto. intro Sp.
    assert (Os : o_summary b = let lt := map (fun i => (nth i (m_idx m) 0%Z, Fin (C i (n - 1 - i)%nat))) (seq 0 n) in
      let ult x := if (x =? zmin (map fst lt))%Z then slookup lt x else mean_by v_ultimate (o_reserves b) x in
      map (fun q => (fst q, snd q, ult (fst q), vsub (ult (fst q)) (snd q))) lt).
    { rewrite <- Eb. reflexivity. }
    rewrite Os. cbv zeta. rewrite map_map. apply in_map_iff. exists i0. split; [|apply in_seq; unfold i0; lia].
    cbn [fst snd].
    assert (Nf : (nth i0 (m_idx m) 0 =? zmin (map fst (map (fun i => (nth i (m_idx m) 0%Z, Fin (C i (n - 1 - i)%nat))) (seq 0 n))))%Z = false).
    { rewrite map_map. cbn [fst]. rewrite <- Lo, map_nth_seq. apply Z.eqb_neq.
      assert (W := zsorted_nth (m_idx m) 0 i0 0%Z So).
      assert (H0 : 0 < length (m_idx m)) by lia.
      assert (zmin (m_idx m) <= nth 0 (m_idx m) 0%Z)%Z.
      { clear -H0. destruct (m_idx m) as [|a l]; [simpl in H0; lia|]. cbn [nth]. destruct l; simpl; lia. }
      unfold i0 in *. lia. }
    rewrite Nf. change (nth i0 (m_idx m) 0%Z) with o. replace (n - 1 - i0) with (p + 1) by (unfold i0; lia).
    assert (Mu : mean_by v_ultimate (o_reserves b) o = Fin 0%Qc).
    { unfold mean_by. rewrite Fo. rewrite map_map. rewrite (map_seq_ext _ (fun s => Fin 0%Qc)).
      2:{ intros s Hs. rewrite E3 by lia. cbn [v_ultimate]. f_equal. exact (U0 s). }
      rewrite <- (map_map (fun _ => 0%Qc) Fin). rewrite vmean_fin.
      - f_equal. assert (Q : forall k a, qsum (map (fun _ : nat => 0%Qc) (seq a k)) = 0%Qc).
        { induction k as [|k IH]; intro a; [reflexivity|]. cbn [seq map qsum fold_right]. change (0 + qsum (map (fun _ : nat => 0%Qc) (seq (S a) k)) = 0)%Qc. rewrite IH. ring. }
        rewrite Q. field. apply qc_pos_neq, qn_pos. rewrite map_length, seq_length. auto.
      - destruct sims; [lia|]. discriminate. }
    rewrite Mu. replace (vsub (Fin 0%Qc) (Fin (C i0 (p + 1)))) with (Fin (- C i0 (p + 1)%nat)%Qc); [reflexivity|]. cbn. f_equal. ring.
  Qed.
End Call.

Lemma c97_kept :
  forall (gm : list val -> val) (rt : val -> val) (root : Qc -> Qc) (m : lmat) (n : nat) (C M : nat -> nat -> Qc)
         (cl rl : list nat) (ind : list (list val)) (w : nat -> nat -> bool) (sims : nat) (par : bool)
         (rng : list val -> (nat -> val) * (list (val * val) -> nat -> val)) (b : boot_result) (c : Qc)
         (E : nat -> nat -> nat -> Qc) (V : nat -> nat -> nat -> Qc -> Qc),
  regular m n C -> positive n C -> 2 < n -> tail_fits (m_cols m) ->
  (forall i j, i + j < n - 1 -> cell ind i j = Fin (if w i j then 1 else 0)%Qc) ->
  (forall j, j < n - 1 -> w (n - 2 - j) j = true) ->
  clvi m = Ok cl -> rlvi m = Ok rl -> root_like rt -> (forall q, (0 <= q)%Qc -> rt (Fin q) = Fin (root q)) ->
  (forall j, j < n - 1 -> (1 <= vol_factor n C j)%Qc) ->
  nth 0 (m_cols m) 0%Z = 1%Z ->
  boot_cl gm rt (mkTri m "origin" "dev" "value") cl rl ind sims par rng = Ok b ->
  o_scale b = Fin c -> (0 < c)%Qc -> regular (o_fit_incr b) n M ->
  (forall s i j, s < sims -> i < n -> j < n -> fst (rng (o_dist b)) (s * (n * n) + i * n + j) = Fin (E s i j)) ->
  (forall ps s i j a, s < sims -> i < n -> j < n -> (0 <= a)%Qc ->
     nth (s * (n * n) + i * n + j) ps (NaN, NaN) = (Fin a, Fin c) ->
     snd (rng (o_dist b)) ps (s * (n * n) + i * n + j) = Fin (V s i j a)) ->
  let T s := resampled M (E s) root in
  (forall s j, s < sims -> j < n - 1 -> sumf 0 (n - 1 - j) (fun i => T s i j) <> 0%Qc) ->
  forall r, In r (o_reserves b) -> exists s i, s < sims /\ i < n /\ v_sim r = s /\ v_o r = nth i (m_idx m) 0%Z /\
    v_latest r = Fin (T s i (n - 1 - i)).
Proof.
  intros gm rt root m n C M cl rl ind w sims par rng b c E V R P Hn Ev Hi Hl Cl Rl Rt Ro F1 D1 B Sc Cp Rm He Hv T Nz r Hr.
  assert (Q := c74 gm rt root m n C M cl rl ind w sims par rng b c E V R P Hn Ev Hi Hl Cl Rl Rt Ro F1 D1 B Sc Cp Rm He Hv Nz).
  cbv zeta in Q. rewrite Q in Hr. apply in_flat_map in Hr as (i & Hi' & Hr). apply in_map_iff in Hr as (s & <- & Hs).
  apply in_seq in Hi', Hs. exists s, i. cbn [v_sim v_o v_latest]. repeat split; auto; lia.
Qed.

Section Final.
  Variables (gm : list val -> val) (rt : val -> val) (m : lmat) (n : nat) (C : nat -> nat -> Qc)
         (cl rl : list nat) (ind : list (list val)) (w : nat -> nat -> bool) (sims : nat) (par : bool)
         (rng : list val -> (nat -> val) * (list (val * val) -> nat -> val)) (b : boot_result) (c : Qc) (p : nat).

  Lemma c97_wiped :
    regular m n C -> positive n C -> tail_fits (m_cols m) ->
    (forall i j, i + j < n - 1 -> cell ind i j = Fin (if w i j then 1 else 0)%Qc) ->
    (forall j, j < n - 1 -> w (n - 2 - j) j = true) ->
    rlvi m = Ok rl -> root_like rt -> p + 2 < n ->
    (forall k, k < p -> (1 <= vol_factor n C k)%Qc) -> (vol_factor n C p < 1)%Qc ->
    nth 0 (m_cols m) 0%Z = 1%Z -> 0 < sims ->
    boot_cl gm rt (mkTri m "origin" "dev" "value") cl rl ind sims par rng = Ok b ->
    o_scale b = Fin c -> (0 < c)%Qc ->
    (forall k, k < sims * (n * n) -> exists q, fst (rng (o_dist b)) k = Fin q) ->
    (forall ps k, nth k ps (NaN, NaN) = (Fin 0%Qc, Fin c) -> snd (rng (o_dist b)) ps k = Fin 0%Qc) ->
    let o := nth (n - 2 - p) (m_idx m) 0%Z in
    let latest := C (n - 2 - p) (p + 1) in
    filter (fun r => (v_o r =? o)%Z) (o_reserves b)
      = map (fun s => mkR s o (Fin 0%Qc) (Fin 0%Qc) (Fin 0%Qc)) (seq 0 sims) /\
    In (o, Fin latest, Fin 0%Qc, Fin (- latest)%Qc) (o_summary b) /\ (0 < latest)%Qc.
  Proof.
    intros R P Ev Hi Hl Rl Rt Hp F1 F2 D1 Sp B Sc Cp Rf Gz o latest.
    destruct (c97 gm rt m n C cl rl ind w sims par rng b c p R P Ev Hi Hl Rl Rt Hp F1 F2 B Sc Cp Rf Gz) as (u & E & Q).
    destruct (Q D1) as (U & Q2). split; [|split].
    - etransitivity; [exact E|]. apply map_seq_ext. intros s _. rewrite U. reflexivity.
    - apply Q2. auto.
    - apply P. lia.
  Qed.

  Lemma c97_flat :
    regular m n C -> positive n C -> tail_fits (m_cols m) ->
    (forall i j, i + j < n - 1 -> cell ind i j = Fin (if w i j then 1 else 0)%Qc) ->
    (forall j, j < n - 1 -> w (n - 2 - j) j = true) ->
    rlvi m = Ok rl -> root_like rt -> p + 2 < n ->
    (forall k, k < p -> (1 <= vol_factor n C k)%Qc) -> (vol_factor n C p < 1)%Qc ->
    boot_cl gm rt (mkTri m "origin" "dev" "value") cl rl ind sims par rng = Ok b ->
    o_scale b = Fin c -> (0 < c)%Qc ->
    (forall k, k < sims * (n * n) -> exists q, fst (rng (o_dist b)) k = Fin q) ->
    (forall ps k, nth k ps (NaN, NaN) = (Fin 0%Qc, Fin c) -> snd (rng (o_dist b)) ps k = Fin 0%Qc) ->
    forall r, In r (o_reserves b) -> v_o r = nth (n - 2 - p) (m_idx m) 0%Z ->
      v_reserve r = Fin 0%Qc /\ v_latest r = v_ultimate r.
  Proof.
    intros R P Ev Hi Hl Rl Rt Hp F1 F2 B Sc Cp Rf Gz r Hr Ho.
    destruct (c97 gm rt m n C cl rl ind w sims par rng b c p R P Ev Hi Hl Rl Rt Hp F1 F2 B Sc Cp Rf Gz) as (u & E & _).
    assert (I : In r (filter (fun r => (v_o r =? nth (n - 2 - p) (m_idx m) 0)%Z) (o_reserves b))).
    { apply filter_In. split; auto. apply Z.eqb_eq. auto. }
    rewrite E in I. apply in_map_iff in I as (s & <- & _). split; reflexivity.
  Qed.
End Final.
