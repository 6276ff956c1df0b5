(** The table of simulated records and the summary of every run-off triangle, whatever
    its factors and labels (C75, C98). *)

From Coq Require Import String QArith Qcanon ZArith List Bool Lia Permutation Sorting.Sorted.
From Verif Require Import Val Frame Triangle A2A Base Mack Boot Sims ListLib QcLib Spec Spec2 SpecSim SpecAny TblFacts ConvFacts FillFacts
  TriClaims4 RegFacts AvgFacts MackFacts BuildFacts BaseClaims BootFit BootLib BootSim BootClaims BootNoise BootClaims2
  BootForm BootFormL BootIndep SimClaims SimsFacts SimsForm SpecBootSum BootSumClaims BelowOne LeakClaims AnyClaims.
Import ListNotations.
Open Scope string_scope.
Open Scope list_scope.
Open Scope nat_scope.

Definition sd_any (os ds : list Z) (n : nat) (keep : nat -> bool) (T : nat -> nat -> nat -> Qc) (c : Qc)
    (V : nat -> nat -> nat -> Qc -> Qc) (s i j : nat) : sdrec :=
  let p := path n keep (factor n keep T s) (T s) i in
  let u := running n ds p c (V s i) i j in
  let l := T s i (n - 1 - i)%nat in
  let has := (0 <? i) && (n - 1 - i <=? j) && keep (n - 1 - i) in
  mkD s (nth i os 0%Z) (nth j ds 0%Z) (n <=? i + j)
      (known (step ds p j)) (known (p j))
      (match step ds p j with Some x => Fin (abs_ x / c)%Qc | None => NaN end)
      (if has then Fin l else NaN)
      (match p j with Some _ => Fin u | None => NaN end)
      (if has then Fin (u - l)%Qc else NaN).

Lemma cum_add_known (f : nat -> option Qc) k : forall b a,
  cum_from vadd (Fin a) (map (fun j => known (f j)) (seq b k))
  = map (fun j => match f j with None => NaN | Some _ => Fin (a + sumf b (S j - b) (fun h => or_ 0 (f h)))%Qc end) (seq b k).
Proof.
  induction k as [|k IH]; intros b a; auto. cbn [seq map cum_from].
  destruct (f b) as [x|] eqn:Q; cbn [known isnan vadd]; rewrite IH; f_equal.
  - f_equal. replace (S b - b) with 1 by lia. rewrite sumf_Sl, sumf_0, Q. cbn [or_]. ring.
  - apply map_seq_ext. intros j Hj. destruct (f j); auto. f_equal.
    replace (S j - b) with (S (S j - S b)) by lia. rewrite sumf_Sl, Q. cbn [or_]. ring.
  - apply map_seq_ext. intros j Hj. destruct (f j); auto. f_equal.
    replace (S j - b) with (S (S j - S b)) by lia. rewrite sumf_Sl, Q. cbn [or_]. ring.
Qed.
Lemma step_ext ds p p' j : (forall k, k <= j -> p k = p' k) -> step ds p j = step ds p' j.
Proof. intro H. unfold step. rewrite H by lia. destruct (p' j); auto. destruct j as [|h]; auto. rewrite H by lia. auto. Qed.
Lemma running_ext n ds p p' c V i j : (forall k, k <= j -> p k = p' k) -> running n ds p c V i j = running n ds p' c V i j.
Proof.
  intro H. unfold running. apply sumf_ext. intros k Hk. unfold booked. rewrite (step_ext ds p p') by (intros; apply H; lia). auto.
Qed.

Section Table.
  Variables (os ds : list Z) (n : nat) (C fi : nat -> nat -> Qc) (keep : nat -> bool).
  Hypothesis So : zsorted os.
  Hypothesis Sd : zsorted ds.
  Hypothesis Lo : length os = n.
  Hypothesis Ld : length ds = n.
  Hypothesis Hn : 0 < n.
  Hypothesis Kp0 : keep 0 = true.
  Hypothesis Fpos : forall i j, i + j < n -> keep j = true -> (0 <= fi i j)%Qc.
  Hypothesis Fneg : forall i j, i + j < n -> keep j = false -> (fi i j < 0)%Qc.
  Variable rt : val -> val.
  Hypothesis Rt : root_like rt.
  Variable sims : nat.
  Variable resid : nat -> val.
  Hypothesis Rf : forall k, k < sims * (n * n) -> exists q, resid k = Fin q.
  Variable Lk : nat.
  Hypothesis HL : Lk < n.
  Hypothesis KL : keep Lk = true.
  Hypothesis GL : forall x, Lk < x < n -> keep x = false.
  Variable c : Qc.
  Hypothesis Cp : (0 < c)%Qc.
  Variable gam : list (val * val) -> nat -> val.
  Variable V : nat -> nat -> nat -> Qc -> Qc.
  Hypothesis Gm : forall ps s i j a, s < sims -> 0 < i < n -> j < n -> (0 <= a)%Qc ->
    nth (s * (n * n) + i * n + j) ps (NaN, NaN) = (Fin a, Fin c) -> gam ps (s * (n * n) + i * n + j) = Fin (V s i j a).
  Let T := Ka n fi keep rt resid.
  Let P s i := path n keep (factor n keep T s) (T s) i.

  Lemma fin_a_eq s i j : fin_a ds n fi keep rt resid c V s i j
    = if i + j <? n then step ds (P s i) j else Some (let x := or_ 0 (step ds (P s i) j) in sign_ x * V s i j (abs_ x / c))%Qc.
  Proof. reflexivity. Qed.
  Lemma rec_a_eq s i j : rec_a os ds n fi keep rt resid s i j
    = mkS s (nth i os 0%Z) (nth j ds 0%Z) (negb (i + j <? n)) (known (step ds (P s i) j)) (known (P s i j)).
  Proof. reflexivity. Qed.

  Lemma any_sd_group s i : s < sims -> i < n ->
    sims_group (rmat os ds n C) (map (fun i => n - 1 - i) (seq 0 n)) (Fin c)
      (known (la_a n fi keep rt resid s i), map (rec_a os ds n fi keep rt resid s i) (seq 0 n),
       cumsum (map (fun k => known (fin_a ds n fi keep rt resid c V s i k)) (seq 0 n)))
    = map (sd_any os ds n keep T c V s i) (seq 0 n).
  Proof.
    intros Hs Hi. unfold sims_group. cbn [fst snd]. unfold cumsum. rewrite cum_add_known.
    assert (Ps : forall j, j < n -> n <= i + j -> exists y, step ds (P s i) j = Some y).
    { intros j Hj L. exact (step_some os ds n fi keep Lo Ld Hn rt resid Lk HL s i j ltac:(lia) ltac:(lia) ltac:(lia)). }
    assert (G : forall l, (forall j, In j l -> j < n) -> forall l1 l2,
       l1 = map (rec_a os ds n fi keep rt resid s i) l ->
       l2 = map (fun j => match fin_a ds n fi keep rt resid c V s i j with
                          | None => NaN
                          | Some _ => Fin (0 + sumf 0 (S j - 0) (fun h => or_ 0 (fin_a ds n fi keep rt resid c V s i h)))%Qc end) l ->
       map (fun p => let r := fst p in let u := snd p in
         let la := if (last_dev (rmat os ds n C) (map (fun i => n - 1 - i)%nat (seq 0 n)) (b_o r) <=? b_d r)%Z
                   then known (la_a n fi keep rt resid s i) else NaN in
         mkD (b_sim r) (b_o r) (b_d r) (b_fc r) (b_inc r) (b_cum r) (vabs (vdiv (b_inc r) (Fin c))) la u (vsub u la))
         (combine l1 l2) = map (sd_any os ds n keep T c V s i) l).
    { induction l as [|j l IH]; intros Hl l1 l2 -> ->; auto. cbn [map combine]. apply (f_equal2 cons).
      2:{ apply IH; auto. intros; apply Hl; right; auto. }
      rewrite rec_a_eq. cbn [fst snd b_sim b_o b_d b_fc b_inc b_cum]. assert (Hj := Hl j (or_introl eq_refl)).
      rewrite (last_dev_eq os ds n C So Lo Ld Hn) by auto.
      unfold sd_any. cbv zeta. fold (P s i).
      assert (E1 : negb (i + j <? n) = (n <=? i + j)) by (rewrite Nat.ltb_antisym, negb_involutive; auto). rewrite E1.
      assert (E2 : (nth (n - 1 - i) ds 0 <=? nth j ds 0)%Z = (n - 1 - i <=? j)).
      { destruct (Nat.leb_spec (n - 1 - i) j) as [A|A].
        - apply Z.leb_le. destruct (Nat.eq_dec (n - 1 - i) j) as [->|D]; [lia|].
          assert (W := zsorted_nth ds (n - 1 - i) j 0%Z Sd). lia.
        - apply Z.leb_gt. apply zsorted_nth; auto. lia. }
      rewrite E2.
      assert (E3 : match fin_a ds n fi keep rt resid c V s i j with
                   | None => NaN
                   | Some _ => Fin (0 + sumf 0 (S j - 0) (fun h => or_ 0 (fin_a ds n fi keep rt resid c V s i h)))%Qc end
                   = match P s i j with Some _ => Fin (running n ds (P s i) c (V s i) i j) | None => NaN end).
      { assert (Su : (0 + sumf 0 (S j - 0) (fun h => or_ 0 (fin_a ds n fi keep rt resid c V s i h)))%Qc = running n ds (P s i) c (V s i) i j).
        { rewrite Qcplus_0_l, Nat.sub_0_r. unfold running. apply sumf_ext. intros k Hk. rewrite fin_a_eq. unfold booked.
          destruct (i + k <? n); reflexivity. }
        rewrite Su, fin_a_eq. destruct (Nat.ltb_spec (i + j) n) as [A|A].
        - unfold step. destruct (P s i j); reflexivity.
        - destruct (Ps j Hj A) as (y & Ey). unfold step in Ey. destruct (P s i j); [reflexivity|discriminate]. }
      rewrite E3.
      assert (E4 : vabs (vdiv (known (step ds (P s i) j)) (Fin c)) = match step ds (P s i) j with Some x => Fin (abs_ x / c)%Qc | None => NaN end).
      { destruct (step ds (P s i) j) as [x|]; [|reflexivity]. cbn [known].
        rewrite vdiv_fin by (apply qc_pos_neq; auto). rewrite vabs_fin, abs_div by auto. reflexivity. }
      rewrite E4.
      assert (E5 : (if n - 1 - i <=? j then known (la_a n fi keep rt resid s i) else NaN)
         = if (0 <? i) && (n - 1 - i <=? j) && keep (n - 1 - i) then Fin (T s i (n - 1 - i)) else NaN).
      { unfold la_a. fold T. destruct i as [|i']; cbn [Nat.eqb Nat.ltb Nat.leb andb].
        - destruct (n - 1 - 0 <=? j); reflexivity.
        - destruct (n - 1 - S i' <=? j); [|reflexivity]. destruct (keep (n - 1 - S i')); reflexivity. }
      rewrite E5. f_equal.
      destruct ((0 <? i) && (n - 1 - i <=? j) && keep (n - 1 - i)) eqn:H.
      - apply andb_prop in H as (H & _). apply andb_prop in H as (H1 & H2). apply Nat.ltb_lt in H1. apply Nat.leb_le in H2.
        destruct (step_some os ds n fi keep Lo Ld Hn rt resid Lk HL s i j H1 Hi H2) as (y & Ey). change (step ds (P s i) j = Some y) in Ey.
        unfold step in Ey. destruct (P s i j); [reflexivity|discriminate].
      - destruct (P s i j); reflexivity. }
    apply G; auto. intros j Hj. apply in_seq in Hj. lia.
  Qed.

  Lemma any_table :
    sims_table rt (rmat os ds n C) (map (fun j => n - 1 - j) (seq 0 n)) (map (fun i => n - 1 - i) (seq 0 n))
      (rmat os ds n fi) (Fin c) sims resid gam
    = flat_map (fun s => flat_map (fun i => map (sd_any os ds n keep T c V s i) (seq 0 n)) (seq 0 n)) (seq 0 sims).
  Proof.
    unfold sims_table.
    assert (Fe := any_fcs os ds n C fi keep So Sd Lo Ld Hn Kp0 Fpos Fneg rt Rt sims resid Rf Lk HL KL GL).
    assert (Ff := any_fincs os ds n C fi keep So Sd Lo Ld Hn Kp0 Fpos Fneg rt Rt sims resid Rf Lk HL KL GL c Cp gam V Gm).
    change (last_dev (rmat os ds n C) (map (fun i => n - 1 - i) (seq 0 n))) with (ladev os ds n) in *.
    unfold process_error. set (gd := gam _) in Ff |- *. rewrite Fe.
    rewrite (final_groups_map _ n).
    2:{ intros e He. apply in_cube in He as (s & i & Hs & Hi & ->). cbn [snd]. rewrite map_length, seq_length. auto. }
    rewrite cube_length, combine_seq_cube, map_cube, flat_map_cube. cbn [fst snd Nat.add].
    apply flat_map_seq_ext. intros s Hs. apply flat_map_seq_ext. intros i Hi.
    rewrite Ff by lia. apply any_sd_group; lia.
  Qed.
End Table.

Section Call.
  Variables (gm : list val -> val) (rt : val -> val) (root : Qc -> Qc) (m : lmat) (n : nat) (C M : nat -> nat -> Qc)
         (cl rl : list nat) (ind : list (list val)) (w : nat -> nat -> bool) (sims : nat) (par : bool)
         (rng : list val -> (nat -> val) * (list (val * val) -> nat -> val)) (b : boot_result) (c : Qc)
         (E : nat -> nat -> nat -> Qc) (V : nat -> nat -> nat -> Qc -> Qc).
  Hypothesis R : regular m n C.
  Hypothesis P : positive n C.
  Hypothesis Hn : 2 < n.
  Hypothesis Ev : tail_fits (m_cols m).
  Hypothesis Hi : forall i j, i + j < n - 1 -> cell ind i j = Fin (if w i j then 1 else 0)%Qc.
  Hypothesis Hl : forall j, j < n - 1 -> w (n - 2 - j) j = true.
  Hypothesis Cl : clvi m = Ok cl.
  Hypothesis Rl : rlvi m = Ok rl.
  Hypothesis Rt : root_like rt.
  Hypothesis Ro : forall q, (0 <= q)%Qc -> rt (Fin q) = Fin (root q).
  Hypothesis B : boot_cl gm rt (mkTri m "origin" "dev" "value") cl rl ind sims par rng = Ok b.
  Hypothesis Sc : o_scale b = Fin c.
  Hypothesis Cp : (0 < c)%Qc.
  Hypothesis Rm : regular (o_fit_incr b) n M.
  Hypothesis He : forall s i j, s < sims -> i < n -> j < n -> fst (rng (o_dist b)) (s * (n * n) + i * n + j) = Fin (E s i j).
  Hypothesis Hv : forall ps s i j a, s < sims -> i < n -> j < n -> (0 <= a)%Qc ->
    nth (s * (n * n) + i * n + j) ps (NaN, NaN) = (Fin a, Fin c) ->
    snd (rng (o_dist b)) ps (s * (n * n) + i * n + j) = Fin (V s i j a).
  Let keep := alive n C.
  Let T s := resampled_at keep M (E s) root.
  Let losses s i := path n keep (factor n keep T s) (T s) i.
  Let u s i := total n (m_cols m) (losses s i) c (V s i) i.

  Lemma c75_any : sims_data rt (mkTri m "origin" "dev" "value") cl rl sims rng b
    = flat_map (fun s => flat_map (fun i => map (fun j =>
        let x := step (m_cols m) (losses s i) j in
        let u := running n (m_cols m) (losses s i) c (V s i) i j in
        let l := T s i (n - 1 - i) in
        let has_latest := (0 <? i) && (n - 1 - i <=? j) && keep (n - 1 - i) in
        mkD s (nth i (m_idx m) 0%Z) (nth j (m_cols m) 0%Z) (n <=? i + j)
            (known x) (known (losses s i j)) (match x with Some y => Fin (abs_ y / c)%Qc | None => NaN end)
            (if has_latest then Fin l else NaN)
            (match losses s i j with Some _ => Fin u | None => NaN end)
            (if has_latest then Fin (u - l)%Qc else NaN))
      (seq 0 n)) (seq 0 n)) (seq 0 sims).
  Proof.
    destruct (any_setup gm rt root m n C M cl rl ind w sims par rng b c E R P Hn Ev Hi Hl Cl Rl Ro B Sc Rm He)
      as (fi & Em & El & Er & Efi & Fpos & Fneg & Kt & Rf & _).
    assert (R' := R). apply regular_rmat in R' as (_ & So & Sd & Lo & Ld).
    fold keep in Fpos, Fneg, Kt. change (resampled_at keep M) with (fun e => resampled_at keep M e) in Kt.
    set (resid := fst (rng (o_dist b))) in *. set (gam := snd (rng (o_dist b))) in *.
    assert (Kp0 : keep 0 = true) by reflexivity.
    destruct (find_last_kept keep n ltac:(lia) Kp0) as (Lk & HL & KL & GL).
    assert (Ar := any_table (m_idx m) (m_cols m) n C fi keep So Sd Lo Ld ltac:(lia) Kp0 Fpos Fneg rt Rt sims resid Rf Lk HL KL GL c Cp gam V).
    unfold sims_data. cbn [t_mat]. fold resid gam. rewrite Efi, Sc, El, Er. rewrite Em at 1. rewrite Ar.
    2:{ intros ps s i j a Hs Hi' Hj A Q. apply Hv; auto. lia. }
    apply flat_map_seq_ext. intros s Hs. apply flat_map_seq_ext. intros i Hi'. apply map_seq_ext. intros j Hj.
    set (K := Ka n fi keep rt resid) in *.
    assert (Ep : forall k, k < n -> path n keep (factor n keep K s) (K s) i k = losses s i k).
    { intros k Hk. unfold losses. apply path_ext; auto; try lia.
      - intros h Hh. apply factor_ext; auto. intros q x y Hq Hxy. apply Kt; lia.
      - intros x y Hxy. apply Kt; lia. }
    unfold sd_any. cbv zeta. rewrite Ep by lia.
    rewrite (step_ext _ _ (losses s i)) by (intros; apply Ep; lia).
    rewrite (running_ext _ _ _ (losses s i)) by (intros; apply Ep; lia).
    replace (K s i (n - 1 - i)) with (T s i (n - 1 - i)) by (symmetry; apply Kt; lia). reflexivity.
  Qed.

  Lemma c98_summary : 0 < sims ->
    let latest i := C i (n - 1 - i)%nat in
    let ultimate i := if i =? 0 then latest 0 else sample_mean sims (fun s => u s i) in
    o_summary b = map (fun i => (nth i (m_idx m) 0%Z, Fin (latest i), Fin (ultimate i), Fin (ultimate i - latest i)%Qc)) (seq 0 n) /\
    o_total b = (Fin (sumf 0 n latest), Fin (sumf 0 n ultimate), Fin (sumf 0 n (fun i => ultimate i - latest i))%Qc).
  Proof.
    intros Hs0 latest ultimate.
    assert (R' := R). apply regular_rmat in R' as (_ & So & _ & Lo & _).
    destruct (boot_records gm rt m n C cl rl ind sims par rng b R ltac:(lia) B) as (Q & Eq & Qo & Es & Et).
    assert (A := c98_any gm rt root m n C M cl rl ind w sims par rng b c E V R P Hn Ev Hi Hl Cl Rl Rt Ro B Sc Cp Rm He Hv).
    assert (Um : forall i, i < n -> 0 < i -> map (fun s => v_ultimate (Q s i)) (seq 0 sims) = map (fun s => Fin (u s i)) (seq 0 sims)).
    { intros i Hi' H0.
      assert (W1 := by_origin (m_idx m) sims Q i So ltac:(lia)). rewrite Lo in W1. rewrite <- Eq in W1.
      rewrite <- (map_map (fun s => Q s i) v_ultimate), <- W1 by (intros; apply Qo; auto).
      rewrite A. cbv zeta.
      match goal with |- context [flat_map (fun i => map (fun s => @?F i s) (seq 0 sims)) (seq 0 n)] =>
        assert (W2 := by_origin (m_idx m) sims (fun s i => F i s) i So ltac:(lia)) end.
      rewrite Lo in W2. cbv beta in W2. rewrite W2 by auto. rewrite map_map. apply map_ext. intro s. cbn [v_ultimate].
      rewrite (proj2 (Nat.eqb_neq i 0)) by lia. reflexivity. }
    assert (Es' : o_summary b = map (fun i => (nth i (m_idx m) 0%Z, Fin (latest i), Fin (ultimate i), Fin (ultimate i - latest i)%Qc)) (seq 0 n)).
    { rewrite Es. apply map_seq_ext. intros i Hi'. cbv zeta. unfold latest, ultimate. destruct (Nat.eqb_spec i 0) as [->|D].
      - cbn [Nat.eqb]. replace (latest 0) with (C 0 (n - 1)) by (unfold latest; rewrite Nat.sub_0_r; reflexivity).
        rewrite Nat.sub_0_r, vsub_fin. reflexivity.
      - rewrite Um by lia. rewrite <- (map_map (fun s => u s i) Fin), vmean_fin by (destruct sims; [lia|discriminate]).
        rewrite map_length, seq_length. fold (sumf 0 sims (fun s => u s i)). fold (sample_mean sims (fun s => u s i)).
        rewrite vsub_fin. auto. }
    split; [exact Es'|]. rewrite Et, Es', !map_map. cbn [fst snd].
    rewrite <- (map_map latest Fin), <- (map_map ultimate Fin), <- (map_map (fun i => ultimate i - latest i)%Qc Fin), !skipsum_fin. reflexivity.
  Qed.
End Call.
