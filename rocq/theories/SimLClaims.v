(** Proofs of C74 and C41 under any development labels. *)

From Coq Require Import String QArith Qcanon ZArith List Bool Lia Permutation Sorting.Sorted.
From Verif Require Import Val Frame Triangle A2A Base Mack Boot ListLib QcLib Spec Spec2 SpecSim SpecSimL TblFacts ConvFacts FillFacts
  TriClaims4 RegFacts AvgFacts MackFacts BuildFacts BaseClaims BootFit BootLib BootSim BootClaims BootNoise BootClaims2 BootForm SimClaims BootFormL.
Import ListNotations.
Open Scope string_scope.
Open Scope list_scope.
Open Scope nat_scope.

(** The share of the ultimate that is booked. *)
Section Share.
  Variables (ds : list Z) (n : nat) (f : nat -> Qc).
  Hypothesis Sd : increasing ds.
  Hypothesis Ld : length ds = n.
  Hypothesis Hn : 0 < n.
  Hypothesis F1 : forall j, j < n - 1 -> (1 < f j)%Qc.

  Let Fp : forall a l, a + l <= n - 1 -> (0 < prodf a l f)%Qc.
  Proof.
    intros a l L. apply prodf_pos'. intros k Hk. apply Qclt_trans with 1%Qc; [reflexivity|]. apply F1. lia.
  Qed.
  Lemma emerged_pos j : j < n -> (0 < emerged n f j)%Qc.
  Proof. intro Hj. unfold emerged. apply qc_div_pos; [reflexivity|apply Fp; lia]. Qed.
  Lemma emerged_later j : 0 < j < n -> (emerged n f 0 < emerged n f j)%Qc.
  Proof.
    intro Hj. induction j as [|j IH]; [lia|].
    assert (St : (emerged n f j < emerged n f (S j))%Qc).
    { assert (E : emerged n f (S j) = (emerged n f j * f j)%Qc).
      { unfold emerged. replace (n - 1 - j) with (S (n - 1 - S j)) by lia. rewrite prodf_Sl.
        assert (A := Fp (S j) (n - 1 - S j) ltac:(lia)). assert (B := F1 j ltac:(lia)).
        field. split; apply qc_pos_neq; auto. apply Qclt_trans with 1%Qc; [reflexivity|auto]. }
      rewrite E. assert (A := emerged_pos j ltac:(lia)). assert (B := F1 j ltac:(lia)).
      assert (W : (0 < emerged n f j * (f j - 1))%Qc) by (apply qc_mul_pos; auto; qlra).
      replace (emerged n f j * f j)%Qc with (emerged n f j + emerged n f j * (f j - 1))%Qc by ring. qlra. }
    destruct (Nat.eq_dec j 0) as [->|D]; auto. apply Qclt_trans with (emerged n f j); auto. apply IH. lia.
  Qed.

  Lemma one_label p : p < n -> nth p ds 0%Z = 1%Z ->
    sumf 0 n (fun j => if (nth j ds 0 =? 1)%Z then emerged n f j else 0)%Qc = emerged n f p.
  Proof.
    intros Hp E. replace n with (p + S (n - 1 - p)) at 1 by lia. rewrite sumf_split, sumf_Sl. cbn [Nat.add].
    assert (Q : forall j, j < n -> j <> p -> (nth j ds 0 =? 1)%Z = false).
    { intros j Hj D. apply Z.eqb_neq. intro K. rewrite <- E in K.
      assert (NoDup ds) by (apply zsorted_nodup; auto).
      apply D. apply (proj1 (NoDup_nth ds 0%Z) H); auto; lia. }
    rewrite (sumf_eq0_zero 0 p), (sumf_eq0_zero (S p)).
    - rewrite E. cbn [Z.eqb Pos.eqb]. ring.
    - intros j Hj. rewrite Q by lia. auto.
    - intros j Hj. rewrite Q by lia. auto.
  Qed.
  Lemma no_label : ~ In 1%Z ds -> sumf 0 n (fun j => if (nth j ds 0 =? 1)%Z then emerged n f j else 0)%Qc = 0%Qc.
  Proof.
    intro N. apply sumf_eq0_zero. intros j Hj. destruct (Z.eqb_spec (nth j ds 0%Z) 1) as [E|E]; auto.
    exfalso. apply N. rewrite <- E. apply nth_In. lia.
  Qed.

  Lemma share_cases :
    (nth 0 ds 0%Z = 1%Z -> booked_share ds n f = 1%Qc) /\
    (In 1%Z (tl ds) -> (1 < booked_share ds n f)%Qc) /\
    (~ In 1%Z ds -> (booked_share ds n f < 1)%Qc).
  Proof.
    unfold booked_share. split; [|split].
    - intro E. rewrite (one_label 0) by auto. ring.
    - intro H. destruct ds as [|d r] eqn:Ed; [contradiction|]. rewrite <- Ed in *. rewrite Ed in H. cbn [tl] in H.
      destruct (In_nth _ _ 0%Z H) as (k & Hk & Ek).
      assert (Lk : S k < n) by (rewrite <- Ld, Ed; simpl; lia).
      rewrite (one_label (S k)); [|auto|rewrite Ed; auto]. assert (W := emerged_later (S k) ltac:(lia)). qlra.
    - intro N. rewrite no_label by auto. assert (W := emerged_pos 0 ltac:(lia)). qlra.
  Qed.
End Share.

Definition mean_ultimate (ds : list Z) (n : nat) (T : nat -> nat -> Qc) (i : nat) : Qc :=
  (developed n T i (n - 1) - developed n T i 0 + sumf 0 n (fun j => if (nth j ds 0 =? 1)%Z then developed n T i j else 0))%Qc.

Lemma booked_mean ds n T c V i : (0 < c)%Qc -> 0 < n -> (forall j a, n - i <= j < n -> V j a = (a * c)%Qc) ->
  booked_ultimate ds n T c V i = mean_ultimate ds n T i.
Proof.
  intros Cp Hn H. assert (Z0 : c <> 0%Qc) by (apply qc_pos_neq; auto). unfold booked_ultimate, mean_ultimate.
  rewrite (sumf_ext _ _ _ (fun j => (if (nth j ds 0 =? 1)%Z then developed n T i j else 0) + match j with O => 0 | S k => developed n T i j - developed n T i k end)%Qc).
  - rewrite sumf_add.
    assert (G : forall k, sumf 0 (S k) (fun j => match j with O => 0 | S k => developed n T i j - developed n T i k end)%Qc = (developed n T i k - developed n T i 0)%Qc).
    { induction k as [|k IH]; [rewrite sumf_Sl, sumf_0; ring|]. rewrite sumf_Sr, IH. cbn [Nat.add]. ring. }
    assert (G2 := G (n - 1)). replace (S (n - 1)) with n in G2 by lia. rewrite G2. ring.
  - intros j Hj. cbv zeta. unfold booked_incr. set (x := (_ + _)%Qc). destruct (Nat.ltb_spec (i + j) n) as [A|A]; auto.
    rewrite H by lia. replace (abs_ x / c * c)%Qc with (abs_ x) by (field; auto). apply abs_sign.
Qed.

Section Call.
  Variables (m : lmat) (n : nat) (C : nat -> nat -> Qc).
  Hypothesis R : regular m n C.
  Hypothesis P : positive n C.
  Hypothesis Hn : 2 < n.
  Hypothesis Ev : tail_fits (m_cols m).
  Variables (ind : list (list val)) (w : nat -> nat -> bool).
  Hypothesis Hi : forall i j, i + j < n - 1 -> cell ind i j = Fin (if w i j then 1 else 0)%Qc.
  Hypothesis Hl : forall j, j < n - 1 -> w (n - 2 - j) j = true.
  Variables (gm : list val -> val) (rt : val -> val) (root : Qc -> Qc).
  Variables (cl rl : list nat).
  Hypothesis Cl : clvi m = Ok cl.
  Hypothesis Rl : rlvi m = Ok rl.
  Hypothesis Rt : root_like rt.
  Hypothesis Ro : forall q, (0 <= q)%Qc -> rt (Fin q) = Fin (root q).
  Hypothesis F1 : forall j, j < n - 1 -> (1 <= vol_factor n C j)%Qc.

  Lemma c74L sims par rng b c M E V :
    boot_cl gm rt (mkTri m "origin" "dev" "value") cl rl ind sims par rng = Ok b ->
    o_scale b = Fin c -> (0 < c)%Qc -> regular (o_fit_incr b) n M ->
    (forall s i j, s < sims -> i < n -> j < n -> fst (rng (o_dist b)) (s * (n * n) + i * n + j) = Fin (E s i j)) ->
    (forall ps s i j a, s < sims -> i < n -> j < n -> (0 <= a)%Qc ->
       nth (s * (n * n) + i * n + j) ps (NaN, NaN) = (Fin a, Fin c) ->
       snd (rng (o_dist b)) ps (s * (n * n) + i * n + j) = Fin (V s i j a)) ->
    let T s := resampled M (E s) root in
    (forall s j, s < sims -> j < n - 1 -> sumf 0 (n - 1 - j) (fun i => T s i j) <> 0%Qc) ->
    let latest s i := T s i (n - 1 - i) in
    let ultimate s i := booked_ultimate (m_cols m) n (T s) c (V s i) i in
    o_reserves b = flat_map (fun i => map (fun s =>
        mkR s (nth i (m_idx m) 0%Z) (Fin (if i =? 0 then ultimate s i else latest s i)) (Fin (ultimate s i))
            (Fin (if i =? 0 then 0 else ultimate s i - latest s i)%Qc)) (seq 0 sims)) (seq 0 n).
  Proof.
    intros B Sc Cp Rm He Hv T Nz latest ultimate.
    assert (R' := R). apply regular_rmat in R' as (Em & So & Sd & Lo & Ld).
    assert (El : cl = map (fun j => n - 1 - j) (seq 0 n) /\ rl = map (fun i => n - 1 - i) (seq 0 n)).
    { rewrite Em in Cl, Rl. rewrite r_clvi in Cl by (auto; lia). rewrite r_rlvi in Rl by (auto; lia). split; congruence. }
    destruct El as (El & Er).
    rewrite (boot_eq m n C R P Hn Ev ind w Hi Hl) in B. cbv zeta in B.
    destruct (negb par && _ && _); [discriminate|]. injection B as <-.
    cbn [o_scale o_ldfs o_reserves o_summary o_total o_dist o_fit_incr] in *.
    set (fi := incr_of (fitc n C (vol_factor n C))) in *.
    set (resid := fst (rng (sampling_dist (ra m n C rt)))) in *.
    assert (Mf : forall i j, i + j < n -> M i j = fi i j).
    { apply (regular_inj n Hn (rmat (m_idx m) (m_cols m) n fi)); auto.
      apply rmat_regular; auto. }
    assert (Nn : forall i j, i + j < n -> (0 <= fi i j)%Qc) by (apply (fi_nn (m_idx m) (m_cols m)); auto; lia).
    assert (Kt : forall s i j, s < sims -> i + j < n -> K n fi rt resid s i j = T s i j).
    { intros s i j Hs L. unfold K, T, resampled. apply sumf_ext. intros k Hk. unfold X.
      rewrite He by lia. cbn [fq]. rewrite Ro by (apply Nn; lia). cbn [fq]. rewrite Mf by lia. ring. }
    assert (Rf : forall k, k < sims * (n * n) -> exists q, resid k = Fin q).
    { intros k Hk. set (q := k / (n * n)). set (r := k mod (n * n)). set (i := r / n). set (j := r mod n).
      assert (N0 : n * n <> 0) by nia. assert (n <> 0) by lia.
      assert (k = n * n * q + r) by (apply Nat.div_mod; auto).
      assert (r < n * n) by (apply Nat.mod_upper_bound; auto).
      assert (r = n * i + j) by (apply Nat.div_mod; auto).
      assert (j < n) by (apply Nat.mod_upper_bound; auto).
      assert (q < sims) by (apply Nat.div_lt_upper_bound; auto; lia).
      assert (i < n) by (apply Nat.div_lt_upper_bound; auto; lia).
      exists (E q i j). rewrite <- He by auto. f_equal. lia. }
    rewrite Sc, El, Er. rewrite Em at 1.
    assert (Vx : forall s j, s < sims -> j < n - 1 -> vol_factor n (K n fi rt resid s) j = vol_factor n (T s) j).
    { intros s j Hs Hj. unfold vol_factor. apply (f_equal2 Qcdiv); apply sumf_ext; intros i Hi'; apply Kt; auto; lia. }
    rewrite (formL_simulate (m_idx m) (m_cols m) n C So Sd Lo Ld ltac:(lia) P F1 rt Rt sims resid Rf) with (V := V); auto.
    - apply flat_map_seq_ext. intros i Hi'. apply map_seq_ext. intros s Hs. unfold formL_rec.
      assert (S2 : ultL (m_cols m) n C rt resid c V s i = ultimate s i).
      { unfold ultL, ultimate, booked_ultimate. fold fi. apply sumf_ext. intros j Hj.
        assert (De : forall j', j' < n -> developed n (K n fi rt resid s) i j' = developed n (T s) i j').
        { intros j' Hj'. unfold developed. destruct (Nat.ltb_spec (i + j') n) as [A|A].
          - apply Kt; lia.
          - rewrite Kt by lia. f_equal. apply prodf_ext. intros k Hk. apply Vx; lia. }
        assert (Fe : booked_incr (m_cols m) n (K n fi rt resid s) i j = booked_incr (m_cols m) n (T s) i j).
        { unfold booked_incr. rewrite De by lia. destruct j as [|j]; auto. rewrite (De j) by lia. auto. }
        rewrite Fe. auto. }
      rewrite S2. fold fi. rewrite Kt by lia. reflexivity.
    - intros s j Hs Hj. fold fi. rewrite (sumf_ext _ _ _ (fun i => T s i j)); [apply Nz; auto|].
      intros i Hi'. apply Kt; auto. lia.
  Qed.

  Lemma c74L_mean sims par rng b c M E :
    boot_cl gm rt (mkTri m "origin" "dev" "value") cl rl ind sims par rng = Ok b ->
    o_scale b = Fin c -> (0 < c)%Qc -> regular (o_fit_incr b) n M ->
    (forall s i j, s < sims -> i < n -> j < n -> fst (rng (o_dist b)) (s * (n * n) + i * n + j) = Fin (E s i j)) ->
    (forall ps k a, nth k ps (NaN, NaN) = (Fin a, Fin c) -> snd (rng (o_dist b)) ps k = Fin (a * c)%Qc) ->
    let T s := resampled M (E s) root in
    (forall s j, s < sims -> j < n - 1 -> sumf 0 (n - 1 - j) (fun i => T s i j) <> 0%Qc) ->
    let latest s i := T s i (n - 1 - i) in
    let ultimate s i := mean_ultimate (m_cols m) n (T s) i in
    o_reserves b = flat_map (fun i => map (fun s =>
        mkR s (nth i (m_idx m) 0%Z) (Fin (if i =? 0 then ultimate s i else latest s i)) (Fin (ultimate s i))
            (Fin (if i =? 0 then 0 else ultimate s i - latest s i)%Qc)) (seq 0 sims)) (seq 0 n).
  Proof.
    intros B Sc Cp Rm He Hv T Nz latest ultimate.
    rewrite (c74L sims par rng b c M E (fun _ _ _ a => (a * c)%Qc) B Sc Cp Rm He (fun ps s i j a _ _ _ _ H => Hv ps _ a H) Nz).
    apply flat_map_seq_ext. intros i Hi'. apply map_ext. intro s. fold (T s).
    rewrite (booked_mean (m_cols m) n (T s) c) by (auto; lia). reflexivity.
  Qed.

  (** Without noise. *)
  Let f := vol_factor n C.
  Let U i := ultc n C i.
  Let D := fitc n C f.

  Lemma dev_share i j : i < n -> j < n -> developed n D i j = (U i / prodf j (n - 1 - j) f)%Qc.
  Proof.
    intros Hi' Hj.
    assert (Fp : forall a l, a + l <= n - 1 -> (0 < prodf a l f)%Qc).
    { intros a l L. apply prodf_pos'. intros k Hk. apply vol_pos; auto; lia. }
    assert (Vf : forall k, k < n - 1 -> vol_factor n D k = f k).
    { intros k Hk. unfold vol_factor. apply (fit_factor n C) ; auto; lia. }
    unfold developed, U, ultc. fold f. destruct (Nat.ltb_spec (i + j) n) as [A|A].
    - unfold D, fitc. replace (prodf j (n - 1 - j) f) with (prodf j (n - 1 - i - j) f * prodf (n - 1 - i) i f)%Qc.
      + assert (B1 := Fp j (n - 1 - i - j) ltac:(lia)). assert (B2 := Fp (n - 1 - i) i ltac:(lia)).
        field. split; apply qc_pos_neq; auto.
      + replace (n - 1 - j) with (n - 1 - i - j + i) by lia. rewrite prodf_split. f_equal. f_equal. lia.
    - unfold D. rewrite fitc_last. rewrite (prodf_ext _ _ (vol_factor n (fitc n C f)) f) by (intros k Hk; apply Vf; lia).
      assert (Es : prodf (n - 1 - i) i f = (prodf (n - 1 - i) (j - (n - 1 - i)) f * prodf j (n - 1 - j) f)%Qc).
      { replace i with (j - (n - 1 - i) + (n - 1 - j)) at 2 by lia. rewrite prodf_split. f_equal. f_equal. lia. }
      rewrite Es. assert (B1 := Fp j (n - 1 - j) ltac:(lia)). field. apply qc_pos_neq; auto.
  Qed.

  Let share : Qc := booked_share (m_cols m) n f.

  Lemma mean_share i : i < n -> mean_ultimate (m_cols m) n D i = (U i * share)%Qc.
  Proof.
    intro Hi'. unfold mean_ultimate, share, booked_share, emerged. rewrite !dev_share by lia.
    rewrite (sumf_ext _ _ _ (fun j => U i * (if (nth j (m_cols m) 0 =? 1)%Z then 1 / prodf j (n - 1 - j) f else 0))%Qc).
    - rewrite sumf_mulc. rewrite !Nat.sub_0_r. replace (n - 1 - (n - 1)) with 0 by lia. rewrite prodf_0. unfold Qcdiv.
      replace (/ 1)%Qc with 1%Qc by reflexivity. ring.
    - intros j Hj. rewrite dev_share by lia. destruct (nth j (m_cols m) 0 =? 1)%Z; unfold Qcdiv; ring.
  Qed.

  Lemma c41L sims par rng b c :
    (forall l k, fst (rng l) k = Fin 0%Qc) ->
    (forall l ps k, snd (rng l) ps k = vmul (fst (nth k ps (NaN, NaN))) (snd (nth k ps (NaN, NaN)))) ->
    boot_cl gm rt (mkTri m "origin" "dev" "value") cl rl ind sims par rng = Ok b -> o_scale b = Fin c -> (0 < c)%Qc ->
    exists r A, base_cl gm (mkTri m "origin" "dev" "value") cl ind (SelLabel "all-weighted") (Fin 1%Qc) = (SelLabel "all-weighted", Ok r) /\
      o_ldfs b = c_ldfs r /\
      map s_origin (c_rows r) = m_idx m /\
      map s_latest (c_rows r) = map (fun i => Fin (A i)) (seq 0 n) /\
      map s_ultimate (c_rows r) = map (fun i => Fin (U i)) (seq 0 n) /\
      o_reserves b = flat_map (fun i => map (fun s =>
        mkR s (nth i (m_idx m) 0%Z) (Fin (if i =? 0 then U i * share else A i)%Qc) (Fin (U i * share)%Qc)
            (Fin (if i =? 0 then 0 else U i * share - A i)%Qc)) (seq 0 sims)) (seq 0 n).
  Proof.
    intros R0 Gm B Sc Cp.
    set (g := fun j => if S j <? n then vol_factor n C j else 1%Qc).
    destruct (base_cl_label gm m n C ind w "value" cl Weighted 0 1 g R P Hn Ev Cl Hi Hl) as (r & Eb & Ec).
    { apply in_avg_specs; auto. }
    { intros j Hj. unfold g. rewrite ltb_if by lia. reflexivity. }
    { unfold g. destruct (Nat.ltb_spec (S (n - 1)) n); [lia|auto]. }
    change (avg_label Weighted 0) with "all-weighted" in Eb.
    assert (Rows := c23_rows gm m n C "value" cl ind _ _ _ r g R ltac:(lia) Cl Eb Ec). cbv zeta in Rows.
    assert (Ug : forall i, i < n -> (C i (n - 1 - i)%nat * prodf (n - 1 - i) (n - (n - 1 - i)) g)%Qc = ultc n C i).
    { intros i Li. unfold ultc. replace (n - (n - 1 - i)) with (S i) by lia. rewrite prodf_Sr.
      replace (n - 1 - i + i) with (n - 1) by lia. unfold g at 2. destruct (Nat.ltb_spec (S (n - 1)) n); [lia|].
      rewrite (prodf_ext _ _ g (vol_factor n C)); [ring|]. intros k Hk. unfold g. apply ltb_if. lia. }
    exists r, (fun i => C i (n - 1 - i)). split; [exact Eb|].
    assert (Ol : o_ldfs b = c_ldfs r /\ o_fit_incr b = rmat (m_idx m) (m_cols m) n (incr_of D)).
    { clear Sc. rewrite (boot_eq m n C R P Hn Ev ind w Hi Hl) in B. cbv zeta in B.
      destruct (negb par && _ && _); [discriminate|]. injection B as <-. cbn [o_ldfs o_fit_incr]. auto. }
    destruct Ol as (Ol & Of). split; [exact Ol|].
    assert (R' := R). apply regular_rmat in R' as (Em & So & Sd & Lo & Ld).
    split; [|split; [|split]].
    - rewrite Rows, map_map. cbn [s_origin]. rewrite <- Lo. apply map_nth_seq.
    - rewrite Rows, map_map. cbn [s_latest]. reflexivity.
    - rewrite Rows, map_map. cbn [s_ultimate]. apply map_seq_ext. intros i Hi'. rewrite Ug by lia. reflexivity.
    - assert (Rm : regular (o_fit_incr b) n (incr_of D)) by (rewrite Of; apply rmat_regular; auto).
      assert (Tq : forall i j, resampled (incr_of D) (fun _ _ => 0%Qc) root i j = D i j).
      { intros i j. unfold resampled. rewrite <- (incr_row_gen D i j). apply sumf_ext. intros k Hk. ring. }
      rewrite (c74L_mean sims par rng b c (incr_of D) (fun _ _ _ => 0%Qc) B Sc Cp Rm).
      + apply flat_map_seq_ext. intros i Hi'. apply map_ext. intro s.
        assert (Em2 : mean_ultimate (m_cols m) n (resampled (incr_of D) (fun _ _ => 0%Qc) root) i = (U i * share)%Qc).
        { rewrite <- mean_share by lia. unfold mean_ultimate.
          assert (De : forall j, developed n (resampled (incr_of D) (fun _ _ => 0%Qc) root) i j = developed n D i j).
          { intro j. unfold developed. rewrite !Tq. destruct (i + j <? n); auto. f_equal. apply prodf_ext. intros k Hk.
            unfold vol_factor. apply (f_equal2 Qcdiv); apply sumf_ext; intros; apply Tq. }
          rewrite !De. f_equal. apply sumf_ext. intros j Hj. rewrite De. auto. }
        rewrite Em2. rewrite Tq. unfold D. rewrite fitc_last. reflexivity.
      + intros. apply R0.
      + intros ps k a Hk. rewrite Gm, Hk. reflexivity.
      + intros s j Hs Hj. rewrite (sumf_ext _ _ _ (fun i => D i j)) by (intros; apply Tq).
        apply qc_pos_neq, sumf_pos; [lia|]. intros i Hi'. apply fitc_pos; auto; [|lia]. intros k Hk. apply vol_pos; auto; lia.
  Qed.
End Call.

Lemma root_fin rt q : root_like rt -> (0 <= q)%Qc -> rt (Fin q) = Fin (fq (rt (Fin q))).
Proof.
  intros (_ & R0 & Rp & _) Q. destruct (qc_lt_le_dec 0 q) as [P|P].
  - destruct (Rp q P) as (r & _ & ->). auto.
  - assert (q = 0)%Qc by (apply Qcle_antisym; auto). subst. rewrite R0. auto.
Qed.

Section Noise.
  Variables (gm : list val -> val) (rt : val -> val) (m : lmat) (n : nat) (C : nat -> nat -> Qc) (cl rl : list nat)
         (ind : list (list val)) (w : nat -> nat -> bool) (sims : nat) (par : bool)
         (rng : list val -> (nat -> val) * (list (val * val) -> nat -> val)) (b : boot_result) (c : Qc).
  Hypothesis R : regular m n C.
  Hypothesis P : positive n C.
  Hypothesis Hn : 2 < n.
  Hypothesis Ev : tail_fits (m_cols m).
  Hypothesis Hi : forall i j, i + j < n - 1 -> cell ind i j = Fin (if w i j then 1 else 0)%Qc.
  Hypothesis Hl : forall j, j < n - 1 -> w (n - 2 - j) j = true.
  Hypothesis Cl : clvi m = Ok cl.
  Hypothesis Rl : rlvi m = Ok rl.
  Hypothesis Rt : root_like rt.
  Let t := mkTri m "origin" "dev" "value".

  Lemma c41_labels :
    (forall j, j < n - 1 -> (1 <= vol_factor n C j)%Qc) ->
    (forall l k, fst (rng l) k = Fin 0%Qc) ->
    (forall l ps k, snd (rng l) ps k = vmul (fst (nth k ps (NaN, NaN))) (snd (nth k ps (NaN, NaN)))) ->
    boot_cl gm rt t cl rl ind sims par rng = Ok b -> o_scale b = Fin c -> (0 < c)%Qc ->
    exists r A U, base_cl gm t cl ind (SelLabel "all-weighted") (Fin 1%Qc) = (SelLabel "all-weighted", Ok r) /\
      o_ldfs b = c_ldfs r /\
      map s_origin (c_rows r) = m_idx m /\
      map s_latest (c_rows r) = map (fun i => Fin (A i)) (seq 0 n) /\
      map s_ultimate (c_rows r) = map (fun i => Fin (U i)) (seq 0 n) /\
      let u i := (U i * booked_share (m_cols m) n (vol_factor n C))%Qc in
      o_reserves b = flat_map (fun i => map (fun s =>
        mkR s (nth i (m_idx m) 0%Z) (Fin (if i =? 0 then u i else A i)) (Fin (u i))
            (Fin (if i =? 0 then 0 else u i - A i)%Qc)) (seq 0 sims)) (seq 0 n).
  Proof.
    intros F1 R0 Gm B Sc Cp.
    assert (Ro : forall q, (0 <= q)%Qc -> rt (Fin q) = Fin (fq (rt (Fin q)))) by (intros q Hq; apply root_fin; auto).
    destruct (c41L m n C R P Hn Ev ind w Hi Hl gm rt (fun q => fq (rt (Fin q))) cl rl Cl Rl Rt Ro F1 sims par rng b c R0 Gm B Sc Cp)
      as (r & A & H1 & H2 & H3 & H4 & H5 & H6).
    exists r, A, (ultc n C). repeat (split; [assumption|]). exact H6.
  Qed.

  Lemma c41_cases :
    (forall j, j < n - 1 -> (1 < vol_factor n C j)%Qc) ->
    (forall l k, fst (rng l) k = Fin 0%Qc) ->
    (forall l ps k, snd (rng l) ps k = vmul (fst (nth k ps (NaN, NaN))) (snd (nth k ps (NaN, NaN)))) ->
    boot_cl gm rt t cl rl ind sims par rng = Ok b -> o_scale b = Fin c -> (0 < c)%Qc ->
    exists r, base_cl gm t cl ind (SelLabel "all-weighted") (Fin 1%Qc) = (SelLabel "all-weighted", Ok r) /\
      forall row x, In row (c_rows r) -> In x (o_reserves b) -> v_o x = s_origin row ->
        exists u y, s_ultimate row = Fin u /\ v_ultimate x = Fin y /\
          (nth 0 (m_cols m) 0%Z = 1%Z -> y = u) /\
          (In 1%Z (tl (m_cols m)) -> (u < y)%Qc) /\
          (~ In 1%Z (m_cols m) -> (y < u)%Qc).
  Proof.
    intros F1 R0 Gm B Sc Cp.
    assert (R' := R). apply regular_rmat in R' as (Em & So & Sd & Lo & Ld).
    assert (F1' : forall j, j < n - 1 -> (1 <= vol_factor n C j)%Qc) by (intros j Hj; apply Qclt_le_weak; auto).
    assert (Ro : forall q, (0 <= q)%Qc -> rt (Fin q) = Fin (fq (rt (Fin q)))) by (intros q Hq; apply root_fin; auto).
    destruct (c41L m n C R P Hn Ev ind w Hi Hl gm rt (fun q => fq (rt (Fin q))) cl rl Cl Rl Rt Ro F1' sims par rng b c R0 Gm B Sc Cp)
      as (r & A & H1 & H2 & H3 & H4 & H5 & H6).
    exists r. split; [exact H1|]. intros row x Hr Hx Eo.
    rewrite H6 in Hx. apply in_flat_map in Hx as (i & Hi' & Hx). apply in_map_iff in Hx as (s & <- & _). apply in_seq in Hi'.
    cbn [v_o v_ultimate] in *.
    destruct (In_nth _ _ row Hr) as (k & Hk & Ek).
    assert (Lr : length (c_rows r) = n) by (rewrite <- (map_length s_origin), H3; auto).
    assert (k = i).
    { assert (E : nth k (map s_origin (c_rows r)) 0%Z = nth i (m_idx m) 0%Z).
      { rewrite (nth_indep _ 0%Z (s_origin row)) by (rewrite map_length; auto). rewrite map_nth, Ek. auto. }
      rewrite H3 in E. assert (N : NoDup (m_idx m)) by (apply zsorted_nodup; auto).
      apply (proj1 (NoDup_nth (m_idx m) 0%Z) N); auto; lia. }
    subst k.
    assert (Eu : s_ultimate row = Fin (ultc n C i)).
    { assert (E : nth i (map s_ultimate (c_rows r)) (s_ultimate row) = s_ultimate row) by (rewrite map_nth, Ek; auto).
      rewrite <- E, H5. rewrite (nth_indep _ _ NaN) by (rewrite map_length, seq_length; lia).
      rewrite (nth_map_seq (fun i => Fin (ultc n C i))) by lia. reflexivity. }
    exists (ultc n C i), (ultc n C i * booked_share (m_cols m) n (vol_factor n C))%Qc. split; [exact Eu|]. split; [reflexivity|].
    assert (Up : (0 < ultc n C i)%Qc).
    { unfold ultc. apply qc_mul_pos; [apply P; lia|]. apply prodf_pos'. intros j Hj. apply vol_pos; auto; lia. }
    destruct (share_cases (m_cols m) n (vol_factor n C) Sd Ld ltac:(lia) F1) as (S1 & S2 & S3).
    set (u := ultc n C i) in *. set (q := booked_share _ _ _) in *. split; [|split].
    - intro E. rewrite S1 by auto. ring.
    - intro E. assert (W : (0 < u * (q - 1))%Qc) by (apply qc_mul_pos; auto; specialize (S2 E); qlra).
      replace (u * q)%Qc with (u + u * (q - 1))%Qc by ring. qlra.
    - intro E. assert (W : (0 < u * (1 - q))%Qc) by (apply qc_mul_pos; auto; specialize (S3 E); qlra).
      replace (u * q)%Qc with (u - u * (1 - q))%Qc by ring. qlra.
  Qed.
End Noise.
