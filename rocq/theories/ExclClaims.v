(** Proofs of C86. *)

From Coq Require Import String QArith Qcanon ZArith List Bool Lia.
From Verif Require Import Val Frame Triangle A2A Base Mack ListLib QcLib Spec SpecExcl RegFacts MackExplicit.
Import ListNotations.
Open Scope list_scope.
Open Scope nat_scope.

Lemma sumf_indicator (b : nat -> bool) (g : nat -> Qc) k a :
  sumf a k (fun i => (if b i then 1 else 0) * g i)%Qc = qsum (map g (filter b (seq a k))).
Proof.
  revert a. induction k as [|k IH]; intro a; [reflexivity|]. rewrite sumf_Sl, IH. cbn [seq filter].
  destruct (b a); cbn [map qsum fold_right]; ring.
Qed.
Lemma filter_le {A} (b : A -> bool) l : length (filter b l) <= length l.
Proof. induction l as [|x l IH]; cbn [filter length]; [lia|]. destruct (b x); cbn [length]; lia. Qed.
Lemma filter_true_all {A} (b : A -> bool) l : (forall x, In x l -> b x = true) -> filter b l = l.
Proof.
  induction l as [|x l IH]; intro H; auto. cbn [filter]. rewrite (H x (or_introl eq_refl)). f_equal. apply IH. intros y Hy. apply H. right. auto.
Qed.
Lemma filter_seq_all (b : nat -> bool) k a : length (filter b (seq a k)) = k -> forall i, a <= i < a + k -> b i = true.
Proof.
  revert a. induction k as [|k IH]; intros a L i Hi; [lia|]. cbn [seq filter] in L. destruct (b a) eqn:E.
  - cbn [length] in L. destruct (Nat.eq_dec i a) as [->|N]; auto. apply (IH (S a)); lia.
  - assert (Q := filter_le b (seq (S a) k)). rewrite seq_length in Q. lia.
Qed.

Lemma c86 m n C ind (w : nat -> nat -> bool) al v cl tail k (f : nat -> Qc) :
  regular m n C -> positive n C -> 3 < n -> tail_fits (m_cols m) -> clvi m = Ok cl ->
  weights ind n (fun i j => if w i j then 1 else 0)%Qc ->
  mack_cl (mkTri m "origin" "dev" v) cl ind al tail = Ok k ->
  map snd (c_ldfs (k_cl k)) = map (fun j => Fin (f j)) (seq 0 n) ->
  forall j, j < n - 2 -> let rows := included n w j in
  (1 < length rows ->
     nth j (map snd (k_devpvar k)) NaN = Fin (variance_from rows C al f j * (qn (length rows - 1) / qn (n - 2 - j)))%Qc /\
     (nth j (map snd (k_devpvar k)) NaN = Fin (variance_from rows C al f j) <->
        (forall i, i + j < n - 1 -> w i j = true) \/ variance_from rows C al f j = 0%Qc)) /\
  (length rows = 1 -> nth j (map snd (k_devpvar k)) NaN = Fin 0%Qc).
Proof.
  intros R P Hn Ev D Hw K L j Hj rows.
  rewrite (mack_explicit m n C ind _ al v cl tail R P Hn Ev D Hw) in K. injection K as <-.
  set (W := fun i j => (if w i j then 1 else 0)%Qc) in *.
  assert (F : forall j, j < n -> xf n C W al j = f j).
  { intros j' Hj'. cbn [k_cl c_ldfs mack_pure] in L. rewrite map_map in L. cbn [snd] in L.
    assert (Q := f_equal (fun z => nth j' z NaN) L). cbn beta in Q. rewrite !nth_map_seq in Q by lia. injection Q as Q. exact Q. }
  set (g := fun i => (C i j ^ al * ((C i (S j) / C i j - f j) * (C i (S j) / C i j - f j)))%Qc).
  assert (E : nth j (map snd (k_devpvar (mack_pure (m_idx m) (m_cols m) n C W al tail))) NaN = Fin (qsum (map g rows) / qn (n - 2 - j))%Qc).
  { cbn [mack_pure k_devpvar]. rewrite map_map, nth_map_seq by lia. cbn [snd plus]. unfold xmissing, xs.
    assert (T1 : (j <? n - 2) = true) by (apply Nat.ltb_lt; lia). rewrite T1. cbn [negb]. rewrite andb_false_r. f_equal.
    unfold xs2, sigma2. f_equal. unfold rows, included. rewrite <- sumf_indicator.
    apply sumf_ext. intros i Hi. rewrite F by lia. unfold W, g. ring. }
  assert (Q2 : (0 < qn (n - 2 - j))%Qc) by (apply qn_pos; lia).
  assert (Lr : length rows <= n - 1 - j).
  { unfold rows, included. assert (Q := filter_le (fun i => w i j) (seq 0 (n - 1 - j))). rewrite seq_length in Q. auto. }
  split.
  - intro Hl. assert (Q1 : (0 < qn (length rows - 1))%Qc) by (apply qn_pos; lia).
    assert (E2 : nth j (map snd (k_devpvar (mack_pure (m_idx m) (m_cols m) n C W al tail))) NaN
             = Fin (variance_from rows C al f j * (qn (length rows - 1) / qn (n - 2 - j)))%Qc).
    { rewrite E. f_equal. unfold variance_from. fold g. field. split; apply qc_pos_neq; auto. }
    split; [exact E2|]. rewrite E2. set (V := variance_from rows C al f j). split.
    + intro H. assert (H' : (V * (qn (length rows - 1) / qn (n - 2 - j)) = V)%Qc) by congruence.
      destruct (Nat.eq_dec (length rows) (n - 1 - j)) as [El|Nl].
      * left. intros i Hi. unfold rows, included in El. exact (filter_seq_all (fun i => w i j) (n - 1 - j) 0 El i ltac:(lia)).
      * right. assert (Lt : (qn (length rows - 1) < qn (n - 2 - j))%Qc).
        { replace (n - 2 - j) with (length rows - 1 + (n - 1 - j - length rows)) by lia. rewrite qn_add.
          assert (Q3 : (0 < qn (n - 1 - j - length rows))%Qc) by (apply qn_pos; lia). clear -Q3. qlra. }
        assert (H2 : (V * qn (length rows - 1) = V * qn (n - 2 - j))%Qc).
        { rewrite <- H' at 2. field. apply qc_pos_neq; auto. }
        assert (H3 : (V * (qn (n - 2 - j) - qn (length rows - 1)) = 0)%Qc).
        { replace (V * (qn (n - 2 - j) - qn (length rows - 1)))%Qc with (V * qn (n - 2 - j) - V * qn (length rows - 1))%Qc by ring. rewrite H2. ring. }
        apply Qcmult_integral in H3 as [H3|H3]; auto. exfalso. clear -H3 Lt. qlra.
    + intros [H|H]; f_equal.
      * assert (El : length rows = n - 1 - j).
        { unfold rows, included. rewrite filter_true_all; [apply seq_length|]. intros i Hi. apply in_seq in Hi. apply H. lia. }
        rewrite El. replace (n - 1 - j - 1) with (n - 2 - j) by lia. field. apply qc_pos_neq; auto.
      * rewrite H. ring.
  - intro Hl. rewrite E. f_equal. assert (G0 : qsum (map g rows) = 0%Qc); [|rewrite G0; unfold Qcdiv; ring].
    destruct rows as [|i [|]] eqn:Er; try discriminate Hl. cbn [map qsum fold_right].
    assert (Fj : f j = (C i (S j) / C i j)%Qc).
    { rewrite <- F by lia. unfold xf. assert (T1 : (S j <? n) = true) by (apply Nat.ltb_lt; lia). rewrite T1.
      rewrite (sumf_ext 0 (n - 1 - j) (fun i => W i j * C i j ^ al * (C i (S j) / C i j))%Qc
                 (fun i => (if w i j then 1 else 0) * (C i j ^ al * (C i (S j) / C i j)))%Qc) by (intros; unfold W; ring).
      unfold W. rewrite !(sumf_indicator (fun i => w i j)). fold (included n w j). fold rows. rewrite Er. cbn [map qsum fold_right].
      assert (Ii : In i (included n w j)) by (fold rows; rewrite Er; left; auto).
      unfold included in Ii. apply filter_In in Ii as [Ii _]. apply in_seq in Ii.
      assert (Pc : (0 < C i j)%Qc) by (apply P; lia). assert (Pp : (0 < C i j ^ al)%Qc) by (apply MackFacts.qpow_pos; auto).
      field. split; apply qc_pos_neq; auto. }
    unfold g. rewrite Fj. ring.
Qed.
