(** C99: the process stage of the bootstrap over all its variates.  Proofs. *)

From Coq Require Import String QArith Qcanon ZArith List Bool Lia.
From Verif Require Import Val Frame Triangle A2A Base Mack Boot Sims ListLib QcLib Spec Spec2 SpecSim SpecAny SpecBootSum SpecProc RegFacts BaseClaims
  BootClaims SimClaims AnyClaims AnySims BootSumClaims.
Import ListNotations.
Open Scope string_scope.
Open Scope list_scope.
Open Scope nat_scope.

Lemma filter_one {A} (t : A -> bool) n (F : nat -> A) k : k < n -> (forall x, x < n -> t (F x) = (x =? k)) ->
  filter t (map F (seq 0 n)) = [F k].
Proof.
  intros Hk H.
  assert (Z : forall a l, (forall x, a <= x < a + l -> t (F x) = false) -> filter t (map F (seq a l)) = []).
  { intros a l. revert a. induction l as [|l IH]; intros a Q; [reflexivity|]. cbn [seq map filter]. rewrite Q by lia.
    apply IH. intros x Hx. apply Q. lia. }
  replace n with (k + S (n - S k)) by lia. rewrite seq_app, map_app, filter_app. cbn [seq map filter plus].
  rewrite !Z, H by (try (intros x Hx; rewrite H by lia; apply Nat.eqb_neq; lia); lia). rewrite Nat.eqb_refl. reflexivity.
Qed.
Lemma filter_flat_one {A} (t : A -> bool) n (G : nat -> list A) k : k < n -> (forall x, x < n -> x <> k -> filter t (G x) = []) ->
  filter t (flat_map G (seq 0 n)) = filter t (G k).
Proof.
  intros Hk H.
  assert (Z : forall a l, (forall x, a <= x < a + l -> filter t (G x) = []) -> filter t (flat_map G (seq a l)) = []).
  { intros a l. revert a. induction l as [|l IH]; intros a Q; [reflexivity|]. cbn [seq flat_map]. rewrite filter_app, Q by lia.
    apply IH. intros x Hx. apply Q. lia. }
  replace n with (k + S (n - S k)) by lia. rewrite seq_app, flat_map_app, filter_app. cbn [seq flat_map plus]. rewrite filter_app.
  rewrite !Z by (intros x Hx; apply H; lia). apply app_nil_r.
Qed.
Lemma filter_none {A B} (t : A -> bool) (F : B -> A) l : (forall x, t (F x) = false) -> filter t (map F l) = [].
Proof. intro H. induction l as [|x l IH]; [reflexivity|]. cbn [map filter]. rewrite H. exact IH. Qed.
Lemma filter_flat_none {A B} (t : A -> bool) (G : B -> list A) l : (forall x, filter t (G x) = []) -> filter t (flat_map G l) = [].
Proof. intro H. induction l as [|x l IH]; [reflexivity|]. cbn [flat_map]. rewrite filter_app, H. exact IH. Qed.

Section Avg.
  Variables (N : nat) (p : nat -> Qc).
  Hypothesis P1 : sumf 0 N p = 1%Qc.
  Lemma avg_ext f g : (forall r, r < N -> f r = g r) -> average N p f = average N p g.
  Proof. intro H. unfold average. apply sumf_ext. intros r Hr. rewrite H by lia. reflexivity. Qed.
  Lemma avg_const a : average N p (fun _ => a) = a.
  Proof.
    unfold average. rewrite (sumf_ext 0 N _ (fun r => a * p r)%Qc) by (intros; ring). rewrite sumf_mulc, P1. ring.
  Qed.
  Lemma avg_add f g : average N p (fun r => f r + g r)%Qc = (average N p f + average N p g)%Qc.
  Proof. unfold average. rewrite <- sumf_add. apply sumf_ext. intros. ring. Qed.
  Lemma avg_mul a f : average N p (fun r => a * f r)%Qc = (a * average N p f)%Qc.
  Proof. unfold average. rewrite <- sumf_mulc. apply sumf_ext. intros. ring. Qed.
  Lemma avg_sumf a k (f : nat -> nat -> Qc) : average N p (fun r => sumf a k (fun j => f r j)) = sumf a k (fun j => average N p (fun r => f r j)).
  Proof.
    revert a. induction k as [|k IH]; intro a.
    - transitivity (average N p (fun _ => 0%Qc)); [reflexivity|apply avg_const].
    - rewrite sumf_Sl. rewrite <- IH, <- avg_add. reflexivity.
  Qed.
  (** Uncorrelated deviations: the variance of the sum. *)
  Lemma avg_square a k (D : nat -> nat -> Qc) :
    (forall j h, a <= j < a + k -> a <= h < a + k -> h <> j -> average N p (fun r => D r j * D r h)%Qc = 0%Qc) ->
    average N p (fun r => sumf a k (D r) * sumf a k (D r))%Qc = sumf a k (fun j => average N p (fun r => D r j * D r j)%Qc).
  Proof.
    induction k as [|k IH]; intro H.
    - rewrite sumf_0. rewrite (avg_ext _ (fun _ => 0%Qc)) by (intros; rewrite !sumf_0; ring). apply avg_const.
    - rewrite sumf_Sr, <- IH by (intros; apply H; lia).
      rewrite (avg_ext _ (fun r => (sumf a k (D r) * sumf a k (D r) + (1 + 1) * sumf a k (fun j => D r (a + k)%nat * D r j)) + D r (a + k)%nat * D r (a + k)%nat)%Qc).
      2:{ intros r Hr. rewrite sumf_Sr, sumf_mulc. ring. }
      rewrite !avg_add, avg_mul, avg_sumf, (sumf_eq0_zero a k); [ring|]. intros j Hj. apply H; lia.
  Qed.
End Avg.

Section Proc.
  Variables (gm : list val -> val) (rt : val -> val) (root : Qc -> Qc) (m : lmat) (n : nat) (C M : nat -> nat -> Qc)
         (cl rl : list nat) (ind : list (list val)) (w : nat -> nat -> bool) (sims : nat) (par : bool)
         (rng0 : list val -> (nat -> val) * (list (val * val) -> nat -> val)) (b0 : boot_result) (c : Qc)
         (E : nat -> nat -> nat -> Qc)
         (N : nat) (p : nat -> Qc) (rng : nat -> list val -> (nat -> val) * (list (val * val) -> nat -> val)) (b : nat -> boot_result)
         (V : nat -> nat -> nat -> nat -> Qc -> Qc).
  Hypothesis R : regular m n C.
  Hypothesis P : positive n C.
  Hypothesis Hn : 2 < n.
  Hypothesis Ev : tail_fits (m_cols m).
  Hypothesis Hi : forall i j, i + j < n - 1 -> cell ind i j = Fin (if w i j then 1 else 0)%Qc.
  Hypothesis Hl : forall j, j < n - 1 -> w (n - 2 - j) j = true.
  Hypothesis Cl : clvi m = Ok cl.
  Hypothesis Rl : rlvi m = Ok rl.
  Hypothesis Rt : root_like rt.
  Hypothesis Ro : forall q, (0 <= q)%Qc -> rt (Fin q) = Fin (root q).
  Hypothesis B0 : boot_cl gm rt (mkTri m "origin" "dev" "value") cl rl ind sims par rng0 = Ok b0.
  Hypothesis Sc : o_scale b0 = Fin c.
  Hypothesis Cp : (0 < c)%Qc.
  Hypothesis Rm : regular (o_fit_incr b0) n M.
  Hypothesis He0 : forall s i j, s < sims -> i < n -> j < n -> fst (rng0 (o_dist b0)) (s * (n * n) + i * n + j) = Fin (E s i j).
  Hypothesis Hv0 : forall ps s i j a, s < sims -> i < n -> j < n -> (0 <= a)%Qc ->
     nth (s * (n * n) + i * n + j) ps (NaN, NaN) = (Fin a, Fin c) ->
     snd (rng0 (o_dist b0)) ps (s * (n * n) + i * n + j) = Fin (a * c)%Qc.
  Hypothesis B : forall r, r < N -> boot_cl gm rt (mkTri m "origin" "dev" "value") cl rl ind sims par (rng r) = Ok (b r).
  Hypothesis He : forall r s i j, r < N -> s < sims -> i < n -> j < n -> fst (rng r (o_dist b0)) (s * (n * n) + i * n + j) = Fin (E s i j).
  Hypothesis Hv : forall r ps s i j a, r < N -> s < sims -> i < n -> j < n -> (0 <= a)%Qc ->
     nth (s * (n * n) + i * n + j) ps (NaN, NaN) = (Fin a, Fin c) ->
     snd (rng r (o_dist b0)) ps (s * (n * n) + i * n + j) = Fin (V r s i j a).
  Let keep := alive n C.
  Let T s := resampled_at keep M (E s) root.
  Let losses s i := path n keep (factor n keep T s) (T s) i.
  Let x s i j := or_ 0 (step (m_cols m) (losses s i) j).
  Let shape s i j := (abs_ (x s i j) / c)%Qc.
  Hypothesis P1 : sumf 0 N p = 1%Qc.
  Hypothesis Gm : gamma_moments N p sims n c shape (fun r s i j => V r s i j (shape s i j)).
  Let u0 s i := total n (m_cols m) (losses s i) c (fun _ a => a * c)%Qc i.
  Let u r s i := total n (m_cols m) (losses s i) c (V r s i) i.

  Lemma same_run r : r < N -> o_dist (b r) = o_dist b0 /\ o_scale (b r) = Fin c /\ o_fit_incr (b r) = o_fit_incr b0.
  Proof.
    intro Hr. assert (Q := B r Hr). assert (Q0 := B0).
    rewrite (boot_eq m n C R P Hn Ev ind w Hi Hl) in Q, Q0. cbv zeta in Q, Q0.
    destruct (negb par && _ && _); [discriminate|]. injection Q as Q. injection Q0 as Q0.
    rewrite <- Sc, <- Q, <- Q0. split; [reflexivity|]. split; reflexivity.
  Qed.
  Lemma rec0 : o_reserves b0 = flat_map (fun i => map (fun s =>
      mkR s (nth i (m_idx m) 0%Z) (if negb (i =? 0) && keep (n - 1 - i) then Fin (T s i (n - 1 - i)%nat) else if (i =? 0) && negb (keep (n - 1)) then NaN else Fin (u0 s i))
         (if (i =? 0) && negb (keep (n - 1)) then NaN else Fin (u0 s i))
          (Fin (if negb (i =? 0) && keep (n - 1 - i) then u0 s i - T s i (n - 1 - i)%nat else 0)%Qc))
    (seq 0 sims)) (seq 0 n).
  Proof. exact (c98_any gm rt root m n C M cl rl ind w sims par rng0 b0 c E (fun _ _ _ a => a * c)%Qc R P Hn Ev Hi Hl Cl Rl Rt Ro B0 Sc Cp Rm He0 Hv0). Qed.
  Lemma recr r : r < N -> o_reserves (b r) = flat_map (fun i => map (fun s =>
      mkR s (nth i (m_idx m) 0%Z) (if negb (i =? 0) && keep (n - 1 - i) then Fin (T s i (n - 1 - i)%nat) else if (i =? 0) && negb (keep (n - 1)) then NaN else Fin (u r s i))
         (if (i =? 0) && negb (keep (n - 1)) then NaN else Fin (u r s i))
          (Fin (if negb (i =? 0) && keep (n - 1 - i) then u r s i - T s i (n - 1 - i)%nat else 0)%Qc))
    (seq 0 sims)) (seq 0 n).
  Proof.
    intro Hr. destruct (same_run r Hr) as (D & S & F).
    refine (c98_any gm rt root m n C M cl rl ind w sims par (rng r) (b r) c E (V r) R P Hn Ev Hi Hl Cl Rl Rt Ro (B r Hr) S Cp _ _ _).
    - rewrite F. exact Rm.
    - intros s i j A1 A2 A3. rewrite D. apply He; auto.
    - intros ps s i j a A1 A2 A3 A4 A5. rewrite D. apply Hv; auto.
  Qed.

  (** Deviation of one run from the run at the means. *)
  Definition dev (r s i j : nat) : Qc := (sign_ (x s i j) * (V r s i j (shape s i j) - shape s i j * c))%Qc.
  Lemma shape_c s i j : (shape s i j * c)%Qc = abs_ (x s i j).
  Proof. unfold shape. field. apply qc_pos_neq. exact Cp. Qed.
  Lemma sign_sq y : (sign_ y * sign_ y = 1)%Qc.
  Proof. unfold sign_. destruct (qcltb 0 y); ring. Qed.
  Lemma u0_eq s i : u0 s i = sumf 0 n (x s i).
  Proof.
    unfold u0, total. apply sumf_ext. intros j Hj. unfold booked. fold (x s i j). destruct (i + j <? n); [reflexivity|].
    fold (shape s i j). rewrite shape_c. apply abs_sign.
  Qed.
  Lemma u_eq r s i : i < n -> u r s i = (u0 s i + sumf (n - i) i (dev r s i))%Qc.
  Proof.
    intro A. unfold u, u0, total.
    assert (Sp : forall f, sumf 0 n f = (sumf 0 (n - i) f + sumf (n - i) i f)%Qc).
    { intro f. replace n with ((n - i) + i) at 1 by lia. rewrite sumf_split. reflexivity. }
    rewrite !Sp.
    assert (Q1 : forall W, sumf 0 (n - i) (booked n (m_cols m) (losses s i) c W i) = sumf 0 (n - i) (x s i)).
    { intro W. apply sumf_ext. intros j Hj. unfold booked. rewrite (proj2 (Nat.ltb_lt _ _)) by lia. reflexivity. }
    rewrite !Q1.
    assert (Q2 : sumf (n - i) i (booked n (m_cols m) (losses s i) c (V r s i) i)
      = (sumf (n - i) i (booked n (m_cols m) (losses s i) c (fun _ a => a * c)%Qc i) + sumf (n - i) i (dev r s i))%Qc).
    { rewrite <- sumf_add. apply sumf_ext. intros j Hj. unfold booked. rewrite (proj2 (Nat.ltb_ge _ _)) by lia. fold (x s i j).
      fold (shape s i j). unfold dev. ring. }
    rewrite Q2. ring.
  Qed.
  Lemma avg_dev s i : s < sims -> i < n -> average N p (fun r => sumf (n - i) i (dev r s i)) = 0%Qc.
  Proof.
    intros A1 A2. rewrite (avg_sumf N p P1). apply sumf_eq0_zero. intros j Hj. destruct (Gm s i j) as (G1 & _); [lia..|].
    unfold dev. rewrite avg_mul. rewrite (avg_ext N p _ (fun r => V r s i j (shape s i j) + (- (shape s i j * c)))%Qc) by (intros; ring).
    rewrite avg_add, G1, (avg_const N p P1). ring.
  Qed.
  Lemma var_dev s i : s < sims -> i < n ->
    average N p (fun r => sumf (n - i) i (dev r s i) * sumf (n - i) i (dev r s i))%Qc = (c * sumf (n - i) i (fun j => abs_ (x s i j)))%Qc.
  Proof.
    intros A1 A2. rewrite (avg_square N p P1).
    - rewrite <- sumf_mulc. apply sumf_ext. intros j Hj. destruct (Gm s i j) as (_ & G2 & _); [lia..|].
      rewrite (avg_ext N p _ (fun r => (V r s i j (shape s i j) - shape s i j * c) * (V r s i j (shape s i j) - shape s i j * c))%Qc).
      2:{ intros r Hr. unfold dev. transitivity (sign_ (x s i j) * sign_ (x s i j) * ((V r s i j (shape s i j) - shape s i j * c) * (V r s i j (shape s i j) - shape s i j * c)))%Qc; [ring|].
          rewrite sign_sq. ring. }
      rewrite G2, <- shape_c. ring.
    - intros j h H1 H2 H3. destruct (Gm s i j) as (_ & _ & G3); [lia..|].
      rewrite (avg_ext N p _ (fun r => sign_ (x s i j) * sign_ (x s i h) * ((V r s i j (shape s i j) - shape s i j * c) * (V r s i h (shape s i h) - shape s i h * c)))%Qc)
        by (intros; unfold dev; ring).
      rewrite avg_mul, G3 by lia. ring.
  Qed.
  Lemma lost_zero s i j : 0 < i -> i < n -> keep (n - 1 - i) = false -> n - i <= j < n -> x s i j = 0%Qc.
  Proof.
    intros A1 A2 K Hj. unfold x, step, losses, path. rewrite (proj2 (Nat.eqb_neq i 0)), K by lia. cbn [negb].
    rewrite (proj2 (Nat.ltb_ge j (n - 1 - i))) by lia. destruct j as [|h]; [lia|]. rewrite (proj2 (Nat.ltb_ge h (n - 1 - i))) by lia.
    cbn [or_]. destruct (_ =? _)%Z; ring.
  Qed.
  Lemma some_x s i j : 0 < i -> i < n -> n - i <= j < n -> step (m_cols m) (losses s i) j = Some (x s i j).
  Proof.
    intros A1 A2 Hj. unfold x. unfold step at 1 2. destruct (losses s i j) as [a|] eqn:Q; [reflexivity|]. exfalso. revert Q.
    unfold losses, path. rewrite (proj2 (Nat.eqb_neq i 0)), (proj2 (Nat.ltb_ge j (n - 1 - i))) by lia.
    destruct (negb _); [discriminate|]. rewrite (proj2 (Nat.eqb_neq j (n - 1 - i))) by lia. destruct (factor _ _ _ _ _); discriminate.
  Qed.

  Lemma c99_records s i : s < sims -> 0 < i < n ->
    let o := nth i (m_idx m) 0%Z in
    let of_run bb := filter (fun r => (v_sim r =? s) && (v_o r =? o)%Z) (o_reserves bb) in
    exists (la0 : val) (w0 q0 : Qc) (la : nat -> val) (U Q : nat -> Qc) (X : list Qc),
      of_run b0 = [mkR s o la0 (Fin w0) (Fin q0)] /\
      (forall r, r < N -> of_run (b r) = [mkR s o (la r) (Fin (U r)) (Fin (Q r))]) /\
      map d_inc (filter (fun d => (d_sim d =? s) && (d_o d =? o)%Z && d_fc d) (sims_data rt (mkTri m "origin" "dev" "value") cl rl sims rng0 b0))
        = map Fin X /\
      average N p U = w0 /\ average N p Q = q0 /\
      average N p (fun r => (U r - w0) * (U r - w0))%Qc = (c * qsum (map abs_ X))%Qc /\
      average N p (fun r => (Q r - q0) * (Q r - q0))%Qc = (c * qsum (map abs_ X))%Qc.
  Proof.
    intros Hs (I0 & I1) o of_run. assert (R' := R). apply regular_rmat in R' as (_ & So & Sd & Lo & Ld).
    assert (Oi : forall y, y < n -> (nth y (m_idx m) 0%Z =? o)%Z = (y =? i)).
    { intros y Hy. unfold o. destruct (Nat.eqb_spec y i) as [->|D]; [apply Z.eqb_refl|]. apply Z.eqb_neq.
      destruct (Nat.lt_ge_cases y i) as [L|L].
      - assert (W := zsorted_nth (m_idx m) y i 0%Z So ltac:(lia)). lia.
      - assert (W := zsorted_nth (m_idx m) i y 0%Z So ltac:(lia)). lia. }
    set (q0 := (if keep (n - 1 - i) then u0 s i - T s i (n - 1 - i)%nat else 0)%Qc).
    set (q := fun r => (if keep (n - 1 - i) then u r s i - T s i (n - 1 - i)%nat else 0)%Qc).
    exists (if keep (n - 1 - i) then Fin (T s i (n - 1 - i)%nat) else Fin (u0 s i)), (u0 s i), q0,
      (fun r => if keep (n - 1 - i) then Fin (T s i (n - 1 - i)%nat) else Fin (u r s i)), (fun r => u r s i), q, (map (x s i) (seq (n - i) i)).
    assert (Sel : forall (F : nat -> nat -> rrec), (forall y z, v_sim (F y z) = z /\ v_o (F y z) = nth y (m_idx m) 0%Z) ->
      filter (fun r => (v_sim r =? s) && (v_o r =? o)%Z) (flat_map (fun y => map (F y) (seq 0 sims)) (seq 0 n)) = [F i s]).
    { intros F HF. rewrite (filter_flat_one _ n _ i I1).
      - apply (filter_one _ sims (F i) s Hs). intros z Hz. destruct (HF i z) as (-> & ->). rewrite Oi, Nat.eqb_refl by auto. apply andb_true_r.
      - intros y Hy D. apply filter_none. intro z. destruct (HF y z) as (-> & ->). rewrite Oi by auto. rewrite (proj2 (Nat.eqb_neq y i) D). apply andb_false_r. }
    split.
    { unfold of_run. rewrite rec0, Sel by (intros; split; reflexivity). rewrite (proj2 (Nat.eqb_neq i 0)) by lia. reflexivity. }
    split.
    { intros r Hr. unfold of_run. rewrite recr, Sel by (auto; intros; split; reflexivity). rewrite (proj2 (Nat.eqb_neq i 0)) by lia. reflexivity. }
    split.
    { assert (A := c75_any gm rt root m n C M cl rl ind w sims par rng0 b0 c E (fun _ _ _ a => a * c)%Qc R P Hn Ev Hi Hl Cl Rl Rt Ro B0 Sc Cp Rm He0 Hv0).
      cbv zeta in A. fold keep in A. change (fun s => resampled_at keep M (E s) root) with T in A. rewrite A. clear A.
      rewrite (filter_flat_one _ sims _ s Hs).
      2:{ intros z Hz D. apply filter_flat_none. intro y. apply filter_none. intro j. cbn [d_sim]. rewrite (proj2 (Nat.eqb_neq z s) D). reflexivity. }
      rewrite (filter_flat_one _ n _ i I1).
      2:{ intros y Hy D. apply filter_none. intro j. cbn [d_sim d_o]. rewrite Oi by auto. rewrite (proj2 (Nat.eqb_neq y i) D), andb_false_r. reflexivity. }
      replace (seq 0 n) with (seq 0 (n - i) ++ seq (n - i) i) by (rewrite <- seq_app; f_equal; lia).
      rewrite map_app, filter_app. 
      match goal with |- map _ (?a ++ ?b) = _ => replace a with (@nil sdrec); [|symmetry] end.
      2:{ assert (Z : forall l, (forall j, In j l -> j < n - i) -> forall F : nat -> sdrec, (forall j, d_fc (F j) = (n <=? i + j)) ->
            filter (fun d => (d_sim d =? s) && (d_o d =? o)%Z && d_fc d) (map F l) = []).
          { induction l as [|j l IH]; intros HL F HF; [reflexivity|]. cbn [map filter]. rewrite HF.
            rewrite (proj2 (Nat.leb_gt n (i + j))) by (assert (j < n - i) by (apply HL; left; reflexivity); lia). rewrite andb_false_r. apply IH; auto.
            intros; apply HL; right; auto. }
          apply Z; [intros j Hj; apply in_seq in Hj; lia|reflexivity]. }
      cbn [app].
      assert (Z : forall l, (forall j, In j l -> n - i <= j < n) -> forall F : nat -> sdrec,
            (forall j, d_fc (F j) = (n <=? i + j) /\ d_sim (F j) = s /\ d_o (F j) = o /\ d_inc (F j) = known (step (m_cols m) (losses s i) j)) ->
            map d_inc (filter (fun d => (d_sim d =? s) && (d_o d =? o)%Z && d_fc d) (map F l)) = map Fin (map (x s i) l)).
      { induction l as [|j l IH]; intros HL F HF; [reflexivity|]. cbn [map filter]. destruct (HF j) as (-> & -> & -> & Ej).
        assert (Hj : n - i <= j < n) by (apply HL; left; reflexivity).
        rewrite (proj2 (Nat.leb_le n (i + j))) by lia. rewrite Nat.eqb_refl, Z.eqb_refl. cbn [andb map]. rewrite Ej, some_x by lia. cbn [known].
        apply (f_equal (cons (Fin (x s i j)))). apply IH; auto. intros; apply HL; right; auto. }
      apply Z; [intros j Hj; apply in_seq in Hj; lia|]. intro j. repeat split. }
    assert (X1 : qsum (map abs_ (map (x s i) (seq (n - i) i))) = sumf (n - i) i (fun j => abs_ (x s i j))).
    { unfold sumf. rewrite map_map. reflexivity. }
    rewrite X1.
    assert (A1 : average N p (fun r => u r s i) = u0 s i).
    { rewrite (avg_ext N p _ (fun r => u0 s i + sumf (n - i) i (dev r s i))%Qc) by (intros; apply u_eq; auto).
      rewrite avg_add, (avg_const N p P1), avg_dev by auto. ring. }
    assert (A2 : average N p (fun r => (u r s i - u0 s i) * (u r s i - u0 s i))%Qc = (c * sumf (n - i) i (fun j => abs_ (x s i j)))%Qc).
    { rewrite <- var_dev by auto. apply avg_ext. intros r Hr. rewrite u_eq by auto. ring. }
    split; [exact A1|]. split; [|split; [exact A2|]]; unfold q, q0; destruct (keep (n - 1 - i)) eqn:K.
    - rewrite (avg_ext N p _ (fun r => u r s i + (- T s i (n - 1 - i)%nat))%Qc) by (intros; ring).
      rewrite avg_add, (avg_const N p P1), A1. ring.
    - apply (avg_const N p P1).
    - rewrite <- A2. apply avg_ext. intros r Hr. ring.
    - rewrite (sumf_eq0_zero (n - i) i).
      + rewrite (avg_ext N p _ (fun _ => 0%Qc)) by (intros; ring). rewrite (avg_const N p P1). ring.
      + intros j Hj. rewrite lost_zero by (auto; lia). reflexivity.
  Qed.

  Lemma c99_summary : 0 < sims -> exists (s0 : nat -> Qc) (S : nat -> nat -> Qc),
    map (fun row => snd (fst row)) (o_summary b0) = map (fun i => Fin (s0 i)) (seq 0 n) /\
    (forall r, r < N -> map (fun row => snd (fst row)) (o_summary (b r)) = map (fun i => Fin (S r i)) (seq 0 n)) /\
    snd (fst (o_total b0)) = Fin (sumf 0 n s0) /\
    (forall r, r < N -> snd (fst (o_total (b r))) = Fin (sumf 0 n (S r))) /\
    (forall i, i < n -> average N p (fun r => S r i) = s0 i) /\
    average N p (fun r => sumf 0 n (S r)) = sumf 0 n s0.
  Proof.
    intro S0.
    exists (fun i => if i =? 0 then C 0 (n - 1 - 0)%nat else sample_mean sims (fun s => u0 s i)),
           (fun r i => if i =? 0 then C 0 (n - 1 - 0)%nat else sample_mean sims (fun s => u r s i)).
    destruct (c98_summary gm rt root m n C M cl rl ind w sims par rng0 b0 c E (fun _ _ _ a => a * c)%Qc R P Hn Ev Hi Hl Cl Rl Rt Ro B0 Sc Cp Rm He0 Hv0 S0) as (Q1 & Q2).
    assert (Qr : forall r, r < N -> let ultimate i := if i =? 0 then C 0 (n - 1 - 0)%nat else sample_mean sims (fun s => u r s i) in
      o_summary (b r) = map (fun i => (nth i (m_idx m) 0%Z, Fin (C i (n - 1 - i)%nat), Fin (ultimate i), Fin (ultimate i - C i (n - 1 - i)%nat)%Qc)) (seq 0 n) /\
      snd (fst (o_total (b r))) = Fin (sumf 0 n ultimate)).
    { intros r Hr ultimate. destruct (same_run r Hr) as (D & S & F).
      assert (A := c98_summary gm rt root m n C M cl rl ind w sims par (rng r) (b r) c E (V r) R P Hn Ev Hi Hl Cl Rl Rt Ro (B r Hr) S Cp).
      destruct A as (A1 & A2).
      - rewrite F. exact Rm.
      - intros s i j H1 H2 H3. rewrite D. apply He; auto.
      - intros ps s i j a H1 H2 H3 H4 H5. rewrite D. apply Hv; auto.
      - exact S0.
      - split; [exact A1|]. rewrite A2. reflexivity. }
    assert (Mn : forall i, i < n -> average N p (fun r => if i =? 0 then C 0 (n - 1 - 0)%nat else sample_mean sims (fun s => u r s i))
      = if i =? 0 then C 0 (n - 1 - 0)%nat else sample_mean sims (fun s => u0 s i)).
    { intros i A. destruct (i =? 0); [apply (avg_const N p P1)|]. unfold sample_mean.
      rewrite (avg_ext N p _ (fun r => / qn sims * sumf 0 sims (fun s => u r s i))%Qc) by (intros; unfold Qcdiv; ring).
      rewrite avg_mul, (avg_sumf N p P1).
      rewrite (sumf_ext 0 sims _ (fun s => u0 s i)); [unfold Qcdiv; ring|]. intros s Hs.
      rewrite (avg_ext N p _ (fun r => u0 s i + sumf (n - i) i (dev r s i))%Qc) by (intros; apply u_eq; auto).
      rewrite avg_add, (avg_const N p P1), avg_dev by (auto; lia). ring. }
    split; [rewrite Q1, map_map; reflexivity|]. split.
    { intros r Hr. destruct (Qr r Hr) as (A & _). rewrite A, map_map. reflexivity. }
    split; [rewrite Q2; reflexivity|]. split; [intros r Hr; apply Qr; auto|]. split; [exact Mn|].
    rewrite (avg_sumf N p P1). apply sumf_ext. intros i A. apply Mn. lia.
  Qed.
End Proc.
