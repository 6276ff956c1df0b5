(** Simulated triangles on regular run-off triangles whose fitted increments are not
    negative: every simulation is a function of its own draws. *)

From Coq Require Import String QArith Qcanon ZArith List Bool Lia Permutation Sorting.Sorted.
From Verif Require Import Val Frame Triangle A2A Base Mack Boot ListLib QcLib Spec Spec2 TblFacts ConvFacts FillFacts
  TriClaims4 RegFacts AvgFacts MackFacts BaseClaims BootFit BootLib.
Import ListNotations.
Open Scope list_scope.
Open Scope nat_scope.

Lemma cum_add_seq N (x : nat -> Qc) k : forall b a,
  cum_from vadd (Fin a) (map (fun j => if j <? N then Fin (x j) else NaN) (seq b k))
  = map (fun j => if j <? N then Fin (a + sumf b (S j - b) x)%Qc else NaN) (seq b k).
Proof.
  induction k as [|k IH]; intros b a; auto. cbn [seq map cum_from].
  destruct (Nat.ltb_spec b N) as [L|L].
  - cbn [isnan vadd]. rewrite IH. f_equal.
    + f_equal. replace (S b - b) with 1 by lia. rewrite sumf_Sl, sumf_0. ring.
    + apply map_seq_ext. intros j Hj. destruct (j <? N); auto. f_equal.
      replace (S j - b) with (S (S j - S b)) by lia. rewrite sumf_Sl. ring.
  - cbn [isnan]. f_equal. rewrite IH. apply map_seq_ext. intros j Hj. rewrite !nltb_if by lia. auto.
Qed.
Lemma cumsum_rcol n N x : cumsum (rcol n N x) = rcol n N (fun j => sumf 0 (S j) x).
Proof.
  unfold cumsum, rcol. rewrite cum_add_seq. apply map_seq_ext. intros j Hj. destruct (j <? N); auto.
  f_equal. rewrite Nat.sub_0_r. ring.
Qed.

Definition fq (v : val) : Qc := match v with Fin q => q | _ => 0%Qc end.

Lemma filter_flat_map {A B} (p : B -> bool) (f : A -> list B) l : filter p (flat_map f l) = flat_map (fun x => filter p (f x)) l.
Proof. induction l; simpl; auto. rewrite filter_app, IHl. auto. Qed.
Lemma concat_flat_map {A} (l : list (list A)) : concat l = flat_map (fun x => x) l.
Proof. rewrite flat_map_concat_map, map_id. auto. Qed.
Lemma flat_map_none {A B} (f : A -> list B) l : (forall x, In x l -> f x = []) -> flat_map f l = [].
Proof. induction l; simpl; intro H; auto. rewrite H by auto. apply IHl. auto. Qed.
Lemma flat_map_one {B} (f : nat -> list B) n k : k < n -> (forall i, i < n -> i <> k -> f i = []) ->
  flat_map f (seq 0 n) = f k.
Proof.
  intros L H. replace n with (k + S (n - k - 1)) by lia. rewrite seq_app, flat_map_app. cbn [seq flat_map Nat.add].
  rewrite (flat_map_none f (seq 0 k)), (flat_map_none f (seq (S k) (n - k - 1))).
  - rewrite app_nil_r. auto.
  - intros x Hx. apply in_seq in Hx. apply H; lia.
  - intros x Hx. apply in_seq in Hx. apply H; lia.
Qed.
Lemma flat_map_prefix {B} (f : nat -> list B) (g : nat -> B) n k : k <= n ->
  (forall i, i < n -> f i = if i <? k then [g i] else []) -> flat_map f (seq 0 n) = map g (seq 0 k).
Proof.
  intros L H. replace n with (k + (n - k)) by lia. rewrite seq_app, flat_map_app.
  rewrite (flat_map_none f (seq (0 + k) (n - k))).
  - rewrite app_nil_r. rewrite <- flat_map_single. apply flat_map_seq_ext. intros i Hi. rewrite H by lia. apply ltb_if. lia.
  - intros x Hx. apply in_seq in Hx. rewrite H by lia. apply nltb_if. lia.
Qed.

Definition fcast (m : lmat) (ladev : Z -> Z) (lt : list (nat * Z * val)) (g : list simrow) : val * list simrow :=
  if is_first m g then (NaN, set_cum_inc g (map b_cum g))
  else (l_act_cum ladev g, set_cum_inc (act_part ladev g ++ fc_part ladev g)
                             (fc_cums ladev g (removelast (NaN :: cum_ldfs ladev lt g)))).
Lemma forecasts_map m ladev lt l :
  (forall g, In g l -> is_first m g = false -> last (NaN :: cum_ldfs ladev lt g) NaN = NaN) ->
  forecasts m ladev lt NaN l = map (fcast m ladev lt) l.
Proof.
  induction l as [|g l IH]; intro H; auto. cbn [forecasts map]. unfold fcast at 1.
  destruct (is_first m g) eqn:E.
  - f_equal. apply IH. intros; apply H; auto. right; auto.
  - rewrite (H g) by (auto; left; auto). f_equal. apply IH. intros; apply H; auto. right; auto.
Qed.
Definition fincs (gd : nat -> val) (pos : nat) (g : list simrow) : list val :=
  map (fun p => final_incr gd (fst p) (snd p)) (combine (seq pos (length g)) g).
Lemma final_groups_map gd w l : forall pos, (forall e, In e l -> length (snd e) = w) ->
  final_groups gd pos l = map (fun p => (fst (snd p), snd (snd p), cumsum (fincs gd (pos + fst p * w) (snd (snd p)))))
                              (combine (seq 0 (length l)) l).
Proof.
  induction l as [|[la g] l IH]; intros pos H; auto. cbn [final_groups length seq combine map fst snd].
  f_equal.
  - unfold fincs. replace (pos + 0 * w) with pos by lia. auto.
  - rewrite IH by (intros; apply H; right; auto).
    assert (Lg : length g = w) by (apply (H (la, g)); left; auto). rewrite Lg.
    rewrite <- (seq_shift (length l) 0).
    assert (E : combine (map S (seq 0 (length l))) l = map (fun p => (S (fst p), snd p)) (combine (seq 0 (length l)) l)).
    { generalize (seq 0 (length l)) as q. clear. induction l as [|x l IH]; intros [|a q]; simpl; auto. f_equal. apply IH. }
    rewrite E, map_map. apply map_ext. intros [k e]. cbn [fst snd]. do 3 f_equal. lia.
Qed.
Lemma nth_concat {A} (l : list (list A)) w k j d : (forall g, In g l -> length g = w) -> k < length l -> j < w ->
  nth (k * w + j) (concat l) d = nth j (nth k l []) d.
Proof.
  revert k. induction l as [|g l IH]; intros k H Hk Hj; [simpl in Hk; lia|].
  assert (Lg : length g = w) by (apply H; left; auto). cbn [concat]. destruct k as [|k].
  - simpl. rewrite app_nth1 by lia. auto.
  - rewrite app_nth2 by nia. replace (S k * w + j - length g) with (k * w + j) by nia. apply IH; auto.
    + intros; apply H; right; auto.
    + simpl in Hk. lia.
Qed.

Section Sim.
  Variables (os ds : list Z) (n : nat) (C fi : nat -> nat -> Qc).
  Hypothesis So : zsorted os.
  Hypothesis Sd : zsorted ds.
  Hypothesis Lo : length os = n.
  Hypothesis Ld : length ds = n.
  Hypothesis Hn : 0 < n.
  Hypothesis Fnn : forall i j, i + j < n -> (0 <= fi i j)%Qc.
  Variable rt : val -> val.
  Hypothesis Rt : root_like rt.
  Variable sims : nat.
  Variable resid : nat -> val.
  Hypothesis Rf : forall k, k < sims * (n * n) -> exists q, resid k = Fin q.

  Let m := rmat os ds n C.
  Let fit := rmat os ds n fi.
  Let o_ i := nth i os 0%Z.
  Let d_ j := nth j ds 0%Z.
  Let cl := map (fun j => n - 1 - j) (seq 0 n).

  Definition X (s i j : nat) : Qc :=
    (fi i j + fq (resid (s * (n * n) + i * n + j)) * fq (rt (Fin (fi i j))))%Qc.
  Definition K (s i j : nat) : Qc := sumf 0 (S j) (X s i).

  Lemma rt_fin q : (0 <= q)%Qc -> rt (Fin q) = Fin (fq (rt (Fin q))).
  Proof.
    intro Q. destruct Rt as (_ & R0 & Rp & _). destruct (qc_lt_le_dec 0 q) as [P|P].
    - destruct (Rp q P) as (r & _ & ->). auto.
    - assert (q = 0)%Qc by (apply Qcle_antisym; auto). subst. rewrite R0. auto.
  Qed.

  Definition row_of (s i j : nat) : simrow :=
    mkS s (o_ i) (d_ j) (negb (i + j <? n)) (if i + j <? n then Fin (X s i j) else NaN)
        (if i + j <? n then Fin (K s i j) else NaN).

  Lemma group_eq s i : s < sims -> i < n -> sample_group rt m fit resid s i = map (row_of s i) (seq 0 n).
  Proof.
    intros Hs Hi. unfold sample_group. change (nrows m) with (length os). change (ncols m) with (length ds).
    rewrite Lo, Ld. change (m_idx m) with os. change (m_cols m) with ds. change (m_cells fit) with (mk n n (rc n fi)).
    assert (E1 : map (fun j => first_fix j (cell (mk n n (rc n fi)) i j)) (seq 0 n) = rcol n (n - i) (fi i)).
    { apply map_seq_ext. intros j Hj. rewrite cell_mk by lia. unfold rc, first_fix.
      destruct (Nat.ltb_spec (i + j) n) as [A|A].
      - rewrite ltb_if by lia. assert (B : vltb (Fin (fi i j)) (Fin 0%Qc) = false).
        { simpl. destruct (qcltb_spec (fi i j) 0); auto. exfalso. apply (Qclt_not_le _ _ q). apply Fnn. auto. }
        rewrite B, andb_false_r. auto.
      - rewrite (nltb_if j) by lia. rewrite andb_false_r. auto. }
    rewrite E1.
    assert (At : forall j, j < n -> at1 (rcol n (n - i) (fi i)) j = if i + j <? n then Fin (fi i j) else NaN).
    { intros j Hj. unfold at1, rcol. rewrite nth_map_seq by auto.
      destruct (Nat.ltb_spec (i + j) n), (Nat.ltb_spec j (n - i)); auto; lia. }
    assert (E2 : map (fun j => if isnan (at1 (rcol n (n - i) (fi i)) j) then NaN
                 else vadd (at1 (rcol n (n - i) (fi i)) j) (vmul (resid (s * (n * n) + i * n + j)) (rt (at1 (rcol n (n - i) (fi i)) j)))) (seq 0 n)
               = rcol n (n - i) (X s i)).
    { apply map_seq_ext. intros j Hj. rewrite At by lia. destruct (Nat.ltb_spec (i + j) n) as [A|A].
      - rewrite ltb_if by lia. cbn [isnan]. rewrite rt_fin by (apply Fnn; auto).
        destruct (Rf (s * (n * n) + i * n + j)) as (q & Q).
        { assert (i * n + j < n * n) by nia. nia. }
        unfold X. rewrite Q. reflexivity.
      - rewrite nltb_if by lia. auto. }
    rewrite E2, cumsum_rcol. apply map_seq_ext. intros j Hj. rewrite At by lia. unfold row_of.
    fold (o_ i) (d_ j). unfold at1, rcol. rewrite !nth_map_seq by lia.
    destruct (Nat.ltb_spec (i + j) n) as [A|A].
    - rewrite !(ltb_if j) by lia. auto.
    - rewrite !(nltb_if j) by lia. auto.
  Qed.

  Lemma tab_eq : samples rt m fit sims resid = cube sims n (fun s i => map (row_of s i) (seq 0 n)).
  Proof.
    unfold samples. change (nrows m) with (length os). rewrite Lo. apply cube_ext. intros s i Hs Hi. apply group_eq; auto.
  Qed.

  (** ** Development factors *)

  Definition N1 (s j : nat) : Qc := sumf 0 (n - j) (fun i => K s i j).
  Definition N2 (s j : nat) : Qc := sumf 0 (n - 1 - j) (fun i => K s i j).

  Lemma d_inj j k : j < n -> k < n -> (d_ j =? d_ k)%Z = (j =? k).
  Proof.
    intros Hj Hk. destruct (Nat.eqb_spec j k) as [->|D]; [apply Z.eqb_refl|]. apply Z.eqb_neq. unfold d_.
    destruct (Nat.lt_total j k) as [L|[L|L]]; [|lia|].
    - assert (W := zsorted_nth ds j k 0%Z Sd). lia.
    - assert (W := zsorted_nth ds k j 0%Z Sd). lia.
  Qed.
  Lemma o_inj j k : j < n -> k < n -> (o_ j =? o_ k)%Z = (j =? k).
  Proof.
    intros Hj Hk. destruct (Nat.eqb_spec j k) as [->|D]; [apply Z.eqb_refl|]. apply Z.eqb_neq. unfold o_.
    destruct (Nat.lt_total j k) as [L|[L|L]]; [|lia|].
    - assert (W := zsorted_nth os j k 0%Z So). lia.
    - assert (W := zsorted_nth os k j 0%Z So). lia.
  Qed.

  Lemma sel_rows s j : s < sims -> j < n ->
    filter (fun r => (b_sim r =? s) && (b_d r =? d_ j)%Z && negb (isnan (b_cum r)))
      (concat (cube sims n (fun s i => map (row_of s i) (seq 0 n))))
    = map (fun i => row_of s i j) (seq 0 (n - j)).
  Proof.
    intros Hs Hj. rewrite concat_flat_map, flat_map_cube, filter_flat_map.
    rewrite (flat_map_one _ sims s); auto.
    - rewrite filter_flat_map. apply flat_map_prefix; [lia|]. intros i Hi.
      assert (E : forall l : list nat, (forall k, In k l -> k < n) ->
        filter (fun r => (b_sim r =? s) && (b_d r =? d_ j)%Z && negb (isnan (b_cum r))) (map (row_of s i) l)
        = map (row_of s i) (filter (fun k => (k =? j) && (i + k <? n)) l)).
      { induction l as [|k l IH]; intro B; auto. cbn [map filter]. rewrite IH by (intros; apply B; right; auto).
        cbn [row_of b_sim b_d b_cum]. rewrite Nat.eqb_refl, d_inj by (auto; apply B; left; auto). cbn [andb].
        destruct (k =? j); auto. destruct (i + k <? n); auto. }
      rewrite E by (intros k Hk; apply in_seq in Hk; lia). clear E.
      assert (E : filter (fun k => (k =? j) && (i + k <? n)) (seq 0 n) = if i <? n - j then [j] else []).
      { assert (Q : forall l : list nat, filter (fun k => (k =? j) && (i + k <? n)) l = if i + j <? n then filter (fun k => k =? j) l else []).
        { induction l as [|k l IH]; simpl; [destruct (i + j <? n); auto|]. rewrite IH.
          destruct (Nat.eqb_spec k j) as [->|D]; simpl; destruct (i + j <? n); auto. }
        rewrite Q. destruct (Nat.ltb_spec (i + j) n), (Nat.ltb_spec i (n - j)); try lia; auto.
        clear -Hj. rewrite <- (flat_map_single (fun x => x)) at 1 || idtac.
        assert (G : forall a k, a <= j < a + k -> filter (fun x => x =? j) (seq a k) = [j]).
        { intros a k. revert a. induction k as [|k IH]; intros a L; [lia|]. cbn [seq filter].
          destruct (Nat.eqb_spec a j) as [->|D]; [|apply IH; lia].
          assert (G0 : forall k a, j < a -> filter (fun x => x =? j) (seq a k) = []).
          { clear. induction k as [|k IH]; intros a L; auto. cbn [seq filter].
            destruct (Nat.eqb_spec a j); [lia|]. apply IH. lia. }
          rewrite G0 by lia. auto. }
        apply G. lia. }
      rewrite E. destruct (i <? n - j); auto.
    - intros s' Hs' D. rewrite filter_flat_map. apply flat_map_none. intros i _.
      generalize (seq 0 n) as l. induction l as [|k l IH]; auto. cbn [map filter row_of b_sim].
      destruct (Nat.eqb_spec s' s); [congruence|]. auto.
  Qed.

  Lemma agg_eq : agg_rows m cl sims (samples rt m fit sims resid)
    = flat_map (fun s => map (fun j => (s, d_ j, Fin (N1 s j), Fin (N2 s j))) (seq 0 n)) (seq 0 sims).
  Proof.
    unfold agg_rows. rewrite tab_eq. change (ncols m) with (length ds). rewrite Ld.
    apply flat_map_seq_ext. intros s Hs. rewrite <- flat_map_single. apply flat_map_seq_ext. intros j Hj.
    change (m_cols m) with ds. change (m_idx m) with os. fold (d_ j).
    rewrite sel_rows by lia.
    assert (Ec : nth j cl 0 = n - 1 - j) by (unfold cl; apply nth_map_seq; lia). rewrite Ec. fold (o_ (n - 1 - j)).
    assert (E1 : skipsum (map b_cum (map (fun i => row_of s i j) (seq 0 (n - j)))) = Fin (N1 s j)).
    { rewrite map_map. apply skipsum_gen. intros i Hi. apply in_seq in Hi. left. cbn [row_of b_cum]. apply ltb_if. lia. }
    assert (E2 : skipsum (map (fun r => if (b_o r =? o_ (n - 1 - j))%Z then Fin 0%Qc else b_cum r)
                   (map (fun i => row_of s i j) (seq 0 (n - j)))) = Fin (N2 s j)).
    { rewrite map_map. rewrite (skipsum_gen _ _ (fun i => if i <? n - 1 - j then K s i j else 0%Qc)).
      - f_equal. change (sumf 0 (n - j) (fun i => if i <? n - 1 - j then K s i j else 0%Qc) = N2 s j).
        rewrite (sumf_prefix (n - j) (n - 1 - j)); [|lia|].
        + apply sumf_ext. intros i Hi. apply ltb_if. lia.
        + intros i Hi. apply nltb_if. lia.
      - intros i Hi. apply in_seq in Hi. left. cbn [row_of b_o b_cum]. rewrite o_inj by lia.
        destruct (Nat.eqb_spec i (n - 1 - j)) as [->|D].
        + rewrite nltb_if by lia. auto.
        + rewrite !ltb_if by lia. auto. }
    rewrite E1, E2. destruct (n - j) eqn:Q; [lia|]. reflexivity.
  Qed.

  Definition lrow (s j : nat) : list (nat * Z * val) :=
    if qceqb (N2 s j) 0 then [] else [(s, d_ j, Fin (N1 s (S j) / N2 s j)%Qc)].

  Lemma ldf_block s r : forall c j, j + c = n - 1 ->
    ldf_rows (Some (d_ j, Fin (N2 s j))) (map (fun j => (s, d_ j, Fin (N1 s j), Fin (N2 s j))) (seq (S j) c) ++ r)
    = flat_map (lrow s) (seq j c) ++ ldf_rows (Some (d_ (n - 1), Fin (N2 s (n - 1)))) r.
  Proof.
    induction c as [|c IH]; intros j L.
    - replace (n - 1) with j by lia. auto.
    - cbn [seq map app ldf_rows flat_map]. rewrite IH by lia. rewrite <- app_assoc. f_equal.
      unfold lrow. cbn [veqb isnan]. rewrite !orb_false_r.
      destruct (qceqb_spec (N2 s j) 0) as [Q|Q]; auto. rewrite vdiv_fin by auto. auto.
  Qed.
  Lemma N2_last s : N2 s (n - 1) = 0%Qc.
  Proof. unfold N2. replace (n - 1 - (n - 1)) with 0 by lia. apply sumf_0. Qed.

  Lemma ldf_blocks k : forall prev a, (prev = None \/ exists d, prev = Some (d, Fin 0%Qc)) ->
    ldf_rows prev (flat_map (fun s => map (fun j => (s, d_ j, Fin (N1 s j), Fin (N2 s j))) (seq 0 n)) (seq a k))
    = flat_map (fun s => flat_map (lrow s) (seq 0 (n - 1))) (seq a k).
  Proof.
    induction k as [|k IH]; intros prev a P; auto. cbn [seq flat_map].
    assert (Es : seq 0 n = 0 :: seq 1 (n - 1)) by (destruct n; [lia|]; simpl; rewrite Nat.sub_0_r; auto).
    remember (flat_map (fun s => map (fun j => (s, d_ j, Fin (N1 s j), Fin (N2 s j))) (seq 0 n)) (seq (S a) k)) as rest eqn:Er.
    rewrite Es. cbn [map app ldf_rows].
    rewrite ldf_block by lia. rewrite N2_last. rewrite Er, IH by (right; eauto).
    assert (Q : match prev with
      | None => []
      | Some (d', a2') => if veqb a2' (Fin 0%Qc) || isnan a2' || isnan (Fin (N1 a 0)) then [] else [(a, d', vdiv (Fin (N1 a 0)) a2')]
      end = []).
    { destruct P as [->|(d & ->)]; auto. }
    rewrite Q. auto.
  Qed.

  Lemma ldfs_eq : bs_ldfs m cl sims (samples rt m fit sims resid)
    = flat_map (fun s => flat_map (lrow s) (seq 0 (n - 1))) (seq 0 sims).
  Proof. unfold bs_ldfs. rewrite agg_eq. apply ldf_blocks. auto. Qed.

  Definition L (s j : nat) : val :=
    if (S j <? n) && negb (qceqb (N2 s j) 0) then Fin (N1 s (S j) / N2 s j)%Qc else NaN.

  Lemma find_flat {A} (p : A -> bool) (f : nat -> list A) a k :
    find p (flat_map f (seq a k)) = match filter p (flat_map f (seq a k)) with [] => None | x :: _ => Some x end.
  Proof.
    generalize (flat_map f (seq a k)) as l. induction l as [|x l IH]; simpl; auto. destruct (p x); auto.
  Qed.
  Lemma ldf_at_eq s j : s < sims -> j < n ->
    ldf_at (bs_ldfs m cl sims (samples rt m fit sims resid)) s (d_ j) = L s j.
  Proof.
    intros Hs Hj. rewrite ldfs_eq. unfold ldf_at. rewrite find_flat, filter_flat_map.
    rewrite (flat_map_one _ sims s); auto.
    2:{ intros s' Hs' D. rewrite filter_flat_map. apply flat_map_none. intros k _. unfold lrow.
        destruct (qceqb _ _); auto. simpl. destruct (Nat.eqb_spec s' s); [congruence|]. auto. }
    rewrite filter_flat_map.
    assert (E : forall k, k < n - 1 -> filter (fun r => (fst (fst r) =? s) && (snd (fst r) =? d_ j)%Z) (lrow s k)
              = if k =? j then lrow s k else []).
    { intros k Hk. unfold lrow. destruct (qceqb _ _); [destruct (k =? j); auto|].
      simpl. rewrite Nat.eqb_refl, d_inj by lia. simpl. destruct (k =? j); auto. }
    unfold L. destruct (Nat.ltb_spec (S j) n) as [A|A].
    - rewrite (flat_map_one _ (n - 1) j); [|lia|].
      + rewrite E, Nat.eqb_refl by lia. unfold lrow. destruct (qceqb _ _); auto.
      + intros i Hi D. rewrite E by auto. destruct (Nat.eqb_spec i j); [lia|auto].
    - rewrite flat_map_none; auto. intros k Hk. apply in_seq in Hk. rewrite E by lia.
      destruct (Nat.eqb_spec k j); [lia|auto].
  Qed.

  (** ** Forecasts *)

  Let rl := map (fun i => n - 1 - i) (seq 0 n).
  Definition ladev (o : Z) : Z :=
    match zfind o os with Some i => nth (nth i rl 0) ds 0%Z | None => 0%Z end.
  Lemma ladev_eq i : i < n -> ladev (o_ i) = d_ (n - 1 - i).
  Proof.
    intro Hi. unfold ladev, o_. rewrite zfind_nth by (auto using zsorted_nodup; lia).
    unfold rl. rewrite nth_map_seq by auto. auto.
  Qed.

  Lemma leb_d j k : j < n -> k < n -> (d_ j <=? d_ k)%Z = (j <=? k).
  Proof.
    intros Hj Hk. destruct (Nat.leb_spec j k) as [Q|Q].
    - apply Z.leb_le. destruct (Nat.eq_dec j k) as [->|D]; [lia|].
      assert (W := zsorted_nth ds j k 0%Z Sd). unfold d_. lia.
    - apply Z.leb_gt. assert (W := zsorted_nth ds k j 0%Z Sd). unfold d_. lia.
  Qed.
  Lemma filter_from (p : nat -> bool) (k N : nat) : k <= N -> (forall j, j < N -> p j = (k <=? j)) ->
    filter p (seq 0 N) = seq k (N - k).
  Proof.
    intros Q H. replace N with (k + (N - k)) at 1 by lia. rewrite seq_app, filter_app.
    assert (A : filter p (seq 0 k) = []).
    { assert (G : forall l, (forall x, In x l -> p x = false) -> filter p l = []).
      { induction l; simpl; intro B; auto. rewrite B by auto. apply IHl. auto. }
      apply G. intros x Hx. apply in_seq in Hx. rewrite H by lia. apply Nat.leb_gt. lia. }
    rewrite A. simpl. 
    assert (G : forall l, (forall x, In x l -> p x = true) -> filter p l = l).
    { induction l; simpl; intro B; auto. rewrite B by auto. f_equal. apply IHl. auto. }
    apply G. intros x Hx. apply in_seq in Hx. rewrite H by lia. apply Nat.leb_le. lia.
  Qed.
  Lemma filter_map_seq {A} (p : A -> bool) (g : nat -> A) l : filter p (map g l) = map g (filter (fun j => p (g j)) l).
  Proof. induction l; simpl; auto. destruct (p (g a)); simpl; rewrite IHl; auto. Qed.

  Lemma fc_eq s i : i < n -> fc_part ladev (map (row_of s i) (seq 0 n)) = map (row_of s i) (seq (n - 1 - i) (S i)).
  Proof.
    intro Hi. unfold fc_part. rewrite filter_map_seq. f_equal. cbn [row_of b_o b_d].
    rewrite (filter_from _ (n - 1 - i)); [f_equal; lia|lia|].
    intros j Hj. rewrite ladev_eq by auto. apply leb_d; lia.
  Qed.
  Lemma act_eq s i : i < n -> act_part ladev (map (row_of s i) (seq 0 n)) = map (row_of s i) (seq 0 (n - 1 - i)).
  Proof.
    intro Hi. unfold act_part. rewrite filter_map_seq. f_equal. cbn [row_of b_o b_d].
    apply filter_seq_prefix; [lia|]. intros j Hj. rewrite ladev_eq by auto. rewrite leb_d by lia.
    destruct (Nat.leb_spec (n - 1 - i) j), (Nat.ltb_spec j (n - 1 - i)); auto; lia.
  Qed.
  Lemma zmin_first : zmin os = o_ 0.
  Proof.
    unfold o_. destruct os as [|o0 l]; [simpl in Lo; lia|]. cbn [nth].
    assert (Q := zmin_in (o0 :: l) ltac:(discriminate)). destruct Q as [Q|Q]; auto.
    inversion So as [|? ? S' F]; subst. rewrite Forall_forall in F. specialize (F _ Q).
    assert (W : forall x, In x (o0 :: l) -> (zmin (o0 :: l) <= x)%Z).
    { clear. revert o0. induction l as [|d l IH]; intros o0 x Hx.
      - destruct Hx as [->|[]]. simpl. lia.
      - change (Z.min o0 (zmin (d :: l)) <= x)%Z. destruct Hx as [->|Hx]; [lia|].
        specialize (IH d x Hx). lia. }
    specialize (W o0 (or_introl eq_refl)). lia.
  Qed.
  Lemma first_eq s i : i < n -> is_first m (map (row_of s i) (seq 0 n)) = (i =? 0).
  Proof.
    intro Hi. unfold is_first.
    assert (Es : seq 0 n = 0 :: seq 1 (n - 1)) by (clear -Hn; destruct n; [lia|]; simpl; rewrite Nat.sub_0_r; auto).
    rewrite Es. cbn [map]. cbn [row_of b_o].
    change (m_idx m) with os. rewrite zmin_first. apply o_inj; lia.
  Qed.

  Lemma cumprod_last l : l <> [] -> last l (Fin 0%Qc) = NaN -> forall acc x, last (x :: cum_from vmul acc l) NaN = NaN.
  Proof.
    induction l as [|v l IH]; intros Nl E acc x; [congruence|]. destruct l as [|w l].
    - simpl in E. subst v. auto.
    - assert (Q : forall a, last (NaN :: cum_from vmul a (w :: l)) NaN = NaN) by (intro; apply IH; [discriminate|exact E]).
      cbn [cum_from]. destruct (isnan v).
      + specialize (IH ltac:(discriminate) E acc NaN). cbn [cum_from] in IH. destruct (isnan w); exact IH.
      + specialize (IH ltac:(discriminate) E (vmul acc v) (vmul acc v)). cbn [cum_from] in IH. destruct (isnan w); exact IH.
  Qed.

  Definition tab := samples rt m fit sims resid.
  Definition lt := bs_ldfs m cl sims tab.
  Definition Ls (s i : nat) : list val := cumprod (map (L s) (seq (n - 1 - i) (S i))).

  Lemma cum_ldfs_eq s i : s < sims -> i < n -> cum_ldfs ladev lt (map (row_of s i) (seq 0 n)) = Ls s i.
  Proof.
    intros Hs Hi. unfold cum_ldfs, Ls. f_equal. rewrite fc_eq, map_map by auto. apply map_ext_in.
    intros j Hj. apply in_seq in Hj. cbn [row_of b_sim b_d]. apply ldf_at_eq; auto. lia.
  Qed.
  Lemma Ls_last s i : i < n -> last (NaN :: Ls s i) NaN = NaN.
  Proof.
    intro Hi. unfold Ls, cumprod. apply cumprod_last.
    - discriminate.
    - rewrite seq_S, map_app. cbn [map]. rewrite last_last. unfold L. replace (S (n - 1 - i + i)) with n by lia. rewrite Nat.ltb_irrefl. auto.
  Qed.

  Definition la (s i : nat) : val := if i =? 0 then NaN else Fin (K s i (n - 1 - i)).
  Definition fcums (s i : nat) : list val :=
    if i =? 0 then map (fun j => b_cum (row_of s 0 j)) (seq 0 n)
    else map (fun j => b_cum (row_of s i j)) (seq 0 (n - 1 - i)) ++
         map (cum_final (la s i)) (combine (map (row_of s i) (seq (n - 1 - i) (S i))) (removelast (NaN :: Ls s i))).
  Definition FG (s i : nat) : val * list simrow := (la s i, set_cum_inc (map (row_of s i) (seq 0 n)) (fcums s i)).

  Lemma fcast_eq s i : s < sims -> i < n -> fcast m ladev lt (map (row_of s i) (seq 0 n)) = FG s i.
  Proof.
    intros Hs Hi. unfold fcast. rewrite first_eq by auto. unfold FG, la, fcums. destruct (Nat.eqb_spec i 0) as [->|D].
    - rewrite map_map. auto.
    - assert (El : l_act_cum ladev (map (row_of s i) (seq 0 n)) = Fin (K s i (n - 1 - i))).
      { unfold l_act_cum. rewrite fc_eq by auto. cbn [seq map]. cbn [row_of b_cum]. apply ltb_if. lia. }
      rewrite El. unfold fc_cums. rewrite El, cum_ldfs_eq, fc_eq, act_eq, map_map by auto.
      rewrite <- map_app, <- seq_app. replace (n - 1 - i + S i) with n by lia.
      unfold la. destruct (Nat.eqb_spec i 0); [congruence|]. auto.
  Qed.
  Lemma forecasts_eq : forecasts m ladev lt NaN tab = cube sims n FG.
  Proof.
    rewrite forecasts_map.
    - unfold tab. rewrite tab_eq, map_cube. apply cube_ext. intros s i Hs Hi.
      etransitivity; [|apply fcast_eq; auto]. unfold lt, tab. auto.
    - intros g Hg _. unfold tab in Hg. rewrite tab_eq in Hg. apply in_cube in Hg as (s & i & Hs & Hi & ->).
      rewrite cum_ldfs_eq by auto. apply Ls_last. auto.
  Qed.
  Lemma fcums_length s i : i < n -> length (fcums s i) = n.
  Proof.
    intro Hi. unfold fcums. destruct (Nat.eqb_spec i 0) as [->|D].
    - rewrite map_length, seq_length. auto.
    - rewrite app_length, !map_length, combine_length, removelast_length, map_length, !seq_length.
      unfold Ls, cumprod. rewrite cum_from_length, map_length, seq_length. lia.
  Qed.
  Lemma FG_key s i : i < n -> map key (snd (FG s i)) = map (fun d => (s, o_ i, d)) ds.
  Proof.
    intro Hi. unfold FG. cbn [snd]. rewrite set_cum_inc_key.
    - rewrite map_map. unfold key. cbn [row_of b_sim b_o b_d]. unfold d_. rewrite <- Ld.
      etransitivity; [|apply (f_equal (map _) (list_map_nth ds 0%Z))]. rewrite map_map. auto.
    - rewrite fcums_length, map_length, seq_length; auto.
  Qed.
  Lemma FG_length s i : i < n -> length (snd (FG s i)) = n.
  Proof.
    intro Hi. rewrite <- (map_length key), FG_key, map_length; auto.
  Qed.

  (** ** The records *)

  Variable scale : val.
  Variable gam : list (val * val) -> nat -> val.
  Definition gd : nat -> val := gam (gparams scale (cube sims n FG)).
  Definition RR (s i : nat) : rrec :=
    rec_of s (o_ i) (la s i) (last (cumsum (fincs gd ((s * n + i) * n) (snd (FG s i)))) NaN).

  Lemma simulate_eq : simulate rt m cl rl fit scale sims resid gam
    = flat_map (fun i => map (fun s => RR s i) (seq 0 sims)) (seq 0 n).
  Proof.
    unfold simulate. change (bs_reserves m (process_error scale gam (forecasts m ladev lt NaN tab))
      = flat_map (fun i => map (fun s => RR s i) (seq 0 sims)) (seq 0 n)).
    unfold process_error. rewrite forecasts_eq. fold gd. unfold bs_reserves.
    rewrite (final_groups_map gd n).
    2:{ intros e He. apply in_cube in He as (s & i & Hs & Hi & ->). apply FG_length. auto. }
    rewrite cube_length, combine_seq_cube, map_cube. cbn [fst snd]. unfold reserve_recs. rewrite flat_map_cube.
    assert (E : flat_map (fun s => flat_map (fun i =>
        flat_map (fun p : simrow * val => if (b_d (fst p) =? zmax (m_cols m))%Z
          then [mkR (b_sim (fst p)) (b_o (fst p)) (if isnan (fst (FG s i)) then snd p else fst (FG s i)) (snd p)
                 (nan0 (vsub (snd p) (fst (FG s i))))] else [])
          (combine (snd (FG s i)) (cumsum (fincs gd (0 + (s * n + i) * n) (snd (FG s i)))))) (seq 0 n)) (seq 0 sims)
      = cube sims n RR).
    { apply flat_map_seq_ext. intros s Hs. rewrite <- flat_map_single. apply flat_map_seq_ext. intros i Hi.
      etransitivity; [apply (group_rec m s (o_ i) (la s i) (snd (FG s i)))|].
      - exact Sd.
      - change (m_cols m) with ds. clear -Ld Hn. destruct ds; [simpl in Ld; lia|discriminate].
      - apply FG_key. lia.
      - unfold fincs. rewrite cumsum_length, map_length, combine_length, seq_length. lia.
      - reflexivity. }
    etransitivity; [exact (f_equal _ E)|]. rewrite <- Lo. apply sort_cube; auto.
  Qed.

  Lemma gparams_nth s i j : s < sims -> i < n -> j < n ->
    nth ((s * n + i) * n + j) (gparams scale (cube sims n FG)) (NaN, NaN)
    = (vabs (vdiv (b_inc (nth j (snd (FG s i)) (mkS 0 0 0 false NaN NaN))) scale), scale).
  Proof.
    intros Hs Hi Hj. unfold gparams. rewrite map_cube.
    assert (Q : nth ((s * n + i) * n + j) (concat (cube sims n (fun s i => snd (FG s i)))) (mkS 0 0 0 false NaN NaN)
               = nth j (snd (FG s i)) (mkS 0 0 0 false NaN NaN)).
    { rewrite (nth_concat _ n).
      - rewrite cube_nth by auto. auto.
      - intros g Hg. apply in_cube in Hg as (s' & i' & Hs' & Hi' & ->). apply FG_length. auto.
      - rewrite cube_length. nia.
      - auto. }
    assert (Ll : length (concat (cube sims n (fun s i => snd (FG s i)))) = sims * n * n).
    { rewrite concat_flat_map, flat_map_cube.
      assert (G : forall k a, length (flat_map (fun s => flat_map (fun i => snd (FG s i)) (seq 0 n)) (seq a k)) = k * n * n).
      { induction k as [|k IH]; intro a; auto. cbn [seq flat_map]. rewrite app_length, IH.
        assert (G2 : forall c b, b + c <= n -> length (flat_map (fun i => snd (FG a i)) (seq b c)) = c * n).
        { induction c as [|c IHc]; intros b Hb; auto. cbn [seq flat_map]. rewrite app_length, IHc, FG_length by lia. lia. }
        rewrite G2 by lia. lia. }
      apply G. }
    rewrite <- Q. rewrite (nth_map_in _ _ _ _ (mkS 0 0 0 false NaN NaN)); auto. rewrite Ll. nia.
  Qed.
End Sim.

(** ** Independence of simulations *)

Section Indep.
  Variables (os ds : list Z) (n : nat) (fi : nat -> nat -> Qc) (rt : val -> val) (sims : nat).
  Variables (resid resid' : nat -> val).
  Hypothesis Hn : 0 < n.
  Variable s : nat.
  Hypothesis Agree : forall k, s * (n * n) <= k < S s * (n * n) -> resid k = resid' k.

  Lemma X_ext i j : i < n -> j < n -> X n fi rt resid s i j = X n fi rt resid' s i j.
  Proof. intros Hi Hj. unfold X. rewrite Agree; auto. assert (i * n + j < n * n) by nia. nia. Qed.
  Lemma K_ext i j : i < n -> j < n -> K n fi rt resid s i j = K n fi rt resid' s i j.
  Proof. intros Hi Hj. unfold K. apply sumf_ext. intros k Hk. apply X_ext; lia. Qed.
  Lemma row_ext i j : i < n -> j < n -> row_of os ds n fi rt resid s i j = row_of os ds n fi rt resid' s i j.
  Proof. intros Hi Hj. unfold row_of. rewrite X_ext, K_ext by auto. auto. Qed.
  Lemma L_ext j : j < n -> L n fi rt resid s j = L n fi rt resid' s j.
  Proof.
    intro Hj. unfold L. assert (E : N2 n fi rt resid s j = N2 n fi rt resid' s j).
    { unfold N2. apply sumf_ext. intros i Hi. apply K_ext; lia. }
    rewrite E. destruct (Nat.ltb_spec (S j) n) as [A|A]; auto.
    assert (E1 : N1 n fi rt resid s (S j) = N1 n fi rt resid' s (S j)).
    { unfold N1. apply sumf_ext. intros i Hi. apply K_ext; lia. }
    rewrite E1. auto.
  Qed.
  Lemma Ls_ext i : i < n -> Ls n fi rt resid s i = Ls n fi rt resid' s i.
  Proof. intro Hi. unfold Ls. f_equal. apply map_ext_in. intros j Hj. apply in_seq in Hj. apply L_ext. lia. Qed.
  Lemma la_ext i : i < n -> la n fi rt resid s i = la n fi rt resid' s i.
  Proof. intro Hi. unfold la. destruct (i =? 0); auto. rewrite K_ext; auto. lia. Qed.
  Lemma FG_ext i : i < n -> FG os ds n fi rt resid s i = FG os ds n fi rt resid' s i.
  Proof.
    intro Hi. unfold FG, fcums. rewrite la_ext, Ls_ext by auto. f_equal. f_equal.
    - apply map_seq_ext. intros j Hj. apply row_ext; lia.
    - destruct (i =? 0).
      + apply map_seq_ext. intros j Hj. rewrite row_ext by lia. auto.
      + f_equal.
        * apply map_seq_ext. intros j Hj. rewrite row_ext by lia. auto.
        * do 2 f_equal. apply map_seq_ext. intros j Hj. apply row_ext; lia.
  Qed.
End Indep.
