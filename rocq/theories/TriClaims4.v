(** Proofs of C11-C13, C15, C16. *)

From Coq Require Import String Ascii QArith Qcanon ZArith List Bool Lia Permutation Sorting.Sorted.
From Verif Require Import Val Frame Triangle QcLib ListLib Spec BuildFacts CumFacts FillFacts
  TotriFacts TblFacts TriClaims ConvFacts TriClaims2.
Import ListNotations.
Open Scope list_scope.
Open Scope nat_scope.

Lemma mapM_map {A B C} (F : B -> res C) (g : A -> B) (h : A -> C) l :
  (forall i, In i l -> F (g i) = Ok (h i)) -> mapM F (map g l) = Ok (map h l).
Proof.
  induction l; simpl; intro HF; auto. rewrite HF by auto. cbn [bind]. rewrite IHl by auto. auto.
Qed.

(** ** Last observed cell of a row *)

Lemma mrow_holds m os ds f i : holds m os ds f -> i < length os ->
  mrow m i = map (fun j => f (nth i os 0%Z) (nth j ds 0%Z)) (seq 0 (length ds)).
Proof.
  intros H Hi. unfold mrow, ncols. assert (E := fun j => holds_cell m os ds f i j H Hi).
  destruct H as (A & B & _). rewrite B. apply map_ext_in. intros j Hj. apply in_seq in Hj. apply E. lia.
Qed.

Definition lastcol (os ds : list Z) (f : Z -> Z -> val) (i : nat) : nat :=
  match last_valid (map (fun j => f (nth i os 0%Z) (nth j ds 0%Z)) (seq 0 (length ds))) with
  | Some k => k | None => 0
  end.

Lemma lastcol_spec os ds f i : (forall o, In o os -> exists d, In d ds /\ f o d <> NaN) -> i < length os ->
  last_valid (map (fun j => f (nth i os 0%Z) (nth j ds 0%Z)) (seq 0 (length ds))) = Some (lastcol os ds f i) /\
  lastcol os ds f i < length ds /\ f (nth i os 0%Z) (nth (lastcol os ds f i) ds 0%Z) <> NaN /\
  forall j, lastcol os ds f i < j < length ds -> f (nth i os 0%Z) (nth j ds 0%Z) = NaN.
Proof.
  intros Co Hi. unfold lastcol. destruct (last_valid _) as [k|] eqn:E.
  - split; auto. apply last_valid_map_seq in E. auto.
  - exfalso. destruct (Co (nth i os 0%Z)) as (d & Hd & N); [apply nth_In; auto|].
    destruct (label_pos _ _ Hd) as (j & Hj & ->). apply N.
    assert (Q := proj1 (last_valid_none _) E j). rewrite nth_map_seq in Q by auto. exact Q.
Qed.

Lemma lastcol_observed os ds f i : zsorted ds ->
  (forall o, In o os -> exists d, In d ds /\ f o d <> NaN) -> i < length os ->
  last_observed ds f (nth i os 0%Z) (nth (lastcol os ds f i) ds 0%Z).
Proof.
  intros Sd Co Hi. destruct (lastcol_spec os ds f i Co Hi) as (_ & A & B & C). split; [apply nth_In; auto|].
  split; auto. intros d' Hd' L. destruct (label_pos _ _ Hd') as (j & Hj & ->). apply C.
  apply zsorted_nth_lt in L; auto.
Qed.

Lemma filter_key_single (l : list rec) r : NoDup (map fst l) -> In r l ->
  filter (fun q => keqb (fst q) (fst r)) l = [r].
Proof.
  induction l as [|a l IH]; simpl; intros N H; [contradiction|]. inversion N; subst.
  destruct H as [->|H].
  - rewrite keqb_refl. f_equal. apply filter_none. intros q Hq. destruct (keqb_spec (fst q) (fst r)); auto.
    exfalso. apply H2. rewrite <- e. apply in_map; auto.
  - destruct (keqb_spec (fst a) (fst r)); auto. exfalso. apply H2. rewrite e. apply in_map; auto.
Qed.

Lemma flat_map_map_one {A B} (f : A -> list B) (g : A -> B) l :
  (forall x, In x l -> f x = [g x]) -> flat_map f l = map g l.
Proof. induction l; simpl; intro H; auto. rewrite H, IHl; auto. Qed.

Lemma latest_recs_eq m os ds f : zsorted os -> zsorted ds -> holds m os ds f ->
  (forall o, In o os -> exists d, In d ds /\ f o d <> NaN) ->
  latest_recs m = map (fun i => mkrec (nth i os 0%Z) (nth (lastcol os ds f i) ds 0%Z)
                     (f (nth i os 0%Z) (nth (lastcol os ds f i) ds 0%Z))) (seq 0 (length os)).
Proof.
  intros So Sd H Co. unfold latest_recs, nrows.
  assert (Ei : m_idx m = os) by (destruct H; auto). assert (Ec : m_cols m = ds) by (destruct H; tauto).
  rewrite Ei, Ec. apply flat_map_map_one. intros i Hi. apply in_seq in Hi.
  rewrite (mrow_holds m os ds f) by (auto; lia).
  destruct (lastcol_spec os ds f i Co) as (-> & A & B & C); [lia|].
  rewrite (to_tbl_recs_tbl m os ds f) by auto.
  set (r := mkrec (nth i os 0%Z) (nth (lastcol os ds f i) ds 0%Z)
                     (f (nth i os 0%Z) (nth (lastcol os ds f i) ds 0%Z))).
  change (nth i os 0%Z, nth (lastcol os ds f i) ds 0%Z) with (fst r).
  apply filter_key_single; [apply tbl_keys_nodup; auto|]. apply in_tbl. unfold r. cbn.
  repeat split; auto; apply nth_In; lia.
Qed.

Lemma map_nth_seq (l : list Z) : map (fun i => nth i l 0%Z) (seq 0 (length l)) = l.
Proof. apply list_map_nth. Qed.

Lemma c11 m os ds f v : zsorted os -> zsorted ds -> holds m os ds f ->
  (forall o, In o os -> exists d, In d ds /\ f o d <> NaN) ->
  exists l, latest (mkTri m "origin" "dev" v) = Ok l /\
    map r_o l = os /\
    (forall r, In r l -> last_observed ds f (r_o r) (r_d r) /\ r_v r = f (r_o r) (r_d r)) /\
    latest_by_origin (mkTri m "origin" "dev" v) = Ok (map (fun r => (r_o r, r_v r)) l) /\
    exists s, latest_by_devp (mkTri m "origin" "dev" v) = Ok s /\
      Permutation s (map (fun r => (r_d r, r_v r)) l) /\
      StronglySorted (fun a b => (fst a <= fst b)%Z) s.
Proof.
  intros So Sd H Co. exists (latest_recs m).
  assert (E : latest (mkTri m "origin" "dev" v) = Ok (latest_recs m)) by reflexivity.
  split; auto. rewrite (latest_recs_eq m os ds f) in * by auto. set (l := map _ (seq 0 (length os))) in *.
  assert (Ho : map r_o l = os).
  { unfold l. rewrite map_map. cbn. apply map_nth_seq. }
  split; auto. split; [|split].
  - intros r Hr. unfold l in Hr. apply in_map_iff in Hr as (i & <- & Hi). apply in_seq in Hi. cbn.
    split; auto. apply lastcol_observed; auto. lia.
  - unfold latest_by_origin. rewrite E. cbn [bind]. f_equal. apply zsorted_zvsort.
    rewrite map_map. cbn. exact (eq_ind_r zsorted So Ho).
  - unfold latest_by_devp. rewrite E. cbn [bind]. eexists. split; [reflexivity|]. split; [apply ssort_perm|].
    assert (S := ssort_sorted (fun a b : Z * val => Z.compare (fst a) (fst b))).
    assert (S' : StronglySorted (fun a b : Z * val => Z.compare (fst a) (fst b) <> Gt)
       (ssort (fun a b => Z.compare (fst a) (fst b)) (map (fun r => (r_d r, r_v r)) l))).
    { apply S.
      - intros x y. apply Z.compare_antisym.
      - intros x y z A B. change (fst x <= fst z)%Z. change (fst x <= fst y)%Z in A.
        change (fst y <= fst z)%Z in B. lia. }
    exact S'.
Qed.

(** ** C12 *)

Lemma clvi_holds m os ds f : holds m os ds f ->
  (forall d, In d ds -> exists o, In o os /\ f o d <> NaN) ->
  clvi m = Ok (map (lastrow os ds f) (seq 0 (length ds))).
Proof.
  intros H Cd. rewrite (holds_mk _ _ _ _ H). unfold clvi, nrows, ncols. cbn [m_idx m_cols m_cells].
  apply clvi_cells_mk. intros. apply lastrow_spec; auto.
Qed.

Lemma indc_triind nr nc cl i j : i < nr -> j < nc ->
  indc (triind nr (map cl (seq 0 nc))) i j = (cl j <? i).
Proof.
  intros Hi Hj. unfold indc, triind. rewrite map_length, seq_length.
  assert (E : nth j (nth i (mk nr nc (fun i j => nth j (map cl (seq 0 nc)) 0 <? i)) []) false
              = (nth j (map cl (seq 0 nc)) 0 <? i)).
  { unfold mk. rewrite nth_map_seq by auto. rewrite nth_map_seq by auto. auto. }
  rewrite E. rewrite nth_map_seq by auto. auto.
Qed.

Lemma last_false_map n (g : nat -> bool) k :
  last_false (map g (seq 0 n)) = Some k <-> k < n /\ g k = false /\ forall j, k < j < n -> g j = true.
Proof.
  assert (G : forall n a k, last_false (map g (seq a n)) = Some k <->
     k < n /\ g (a + k) = false /\ forall j, k < j < n -> g (a + j) = true).
  { clear. induction n as [|n IH]; intros a k; simpl.
    - split; [discriminate|lia].
    - destruct (last_false (map g (seq (S a) n))) as [k'|] eqn:E.
      + apply IH in E as (A & B & C). split.
        * intro Q. inversion Q; subst. split; [lia|]. rewrite Nat.add_succ_r. split; auto.
          intros j Hj. destruct j; [lia|]. rewrite Nat.add_succ_r. apply C. lia.
        * intros (A' & B' & C'). f_equal. destruct k as [|k].
          { specialize (C' (S k')). rewrite Nat.add_succ_r in C'. simpl in B. rewrite C' in B by lia. discriminate. }
          f_equal. rewrite Nat.add_succ_r in B'. destruct (Nat.lt_trichotomy k' k) as [L|[L|L]]; auto.
          -- specialize (C k). simpl in C. rewrite C in B' by lia. discriminate.
          -- specialize (C' (S k')). rewrite Nat.add_succ_r in C'. simpl in B. rewrite C' in B by lia. discriminate.
      + assert (N : forall j, j < n -> g (S a + j) = true).
        { intros j Hj. destruct (g (S a + j)) eqn:Q; auto. exfalso.
          assert (W : exists k, k < n /\ g (S a + k) = false /\ forall j, k < j < n -> g (S a + j) = true).
          { clear -Hj Q. remember (n - j) as z. revert j Hj Q Heqz. induction z as [z IHz] using lt_wf_ind.
            intros j Hj Q E. destruct (forallb (fun i => g (S a + i)) (seq (S j) (n - S j))) eqn:F.
            - exists j. repeat split; auto. intros i Hi. rewrite forallb_forall in F. apply F. apply in_seq. lia.
            - assert (X : exists i, In i (seq (S j) (n - S j)) /\ g (S a + i) = false).
              { clear -F. induction (seq (S j) (n - S j)) as [|x s IHs]; simpl in F; [discriminate|].
                destruct (g (S (a + x))) eqn:Gx.
                - destruct IHs as (i & Hi & Gi); auto. exists i. split; auto. right; auto.
                - exists x. split; auto. left; auto. }
              destruct X as (i & Hi & Gi). apply in_seq in Hi.
              apply (IHz (n - i)) with (j := i); auto; lia. }
          destruct W as (kk & W). apply IH in W. rewrite W in E. discriminate. }
        destruct (g a) eqn:Ga; split.
        * discriminate.
        * intros (A & B & C). destruct k; [rewrite Nat.add_0_r in B; congruence|].
          rewrite Nat.add_succ_r in B. specialize (N k). simpl in N. rewrite N in B by lia. discriminate.
        * intro Q. inversion Q; subst. rewrite Nat.add_0_r. split; [lia|]. split; auto.
          intros j Hj. destruct j; [lia|]. rewrite Nat.add_succ_r. apply N. lia.
        * intros (A & B & C). destruct k; auto. rewrite Nat.add_succ_r in B. specialize (N k). simpl in N.
          rewrite N in B by lia. discriminate. }
  rewrite (G n 0 k). simpl. tauto.
Qed.

Lemma triind_rows nr nc cl : triind nr (map cl (seq 0 nc))
  = map (fun i => map (fun j => cl j <? i) (seq 0 nc)) (seq 0 nr).
Proof.
  unfold triind, mk. rewrite map_length, seq_length. apply map_ext. intro i. apply map_ext_in.
  intros j Hj. apply in_seq in Hj. rewrite nth_map_seq by lia. auto.
Qed.

Section C12.
  Variables (m : lmat) (os ds : list Z) (f : Z -> Z -> val).
  Hypothesis So : zsorted os.
  Hypothesis Sd : zsorted ds.
  Hypothesis H : holds m os ds f.

  Lemma c12_general : (forall d, In d ds -> exists o, In o os /\ f o d <> NaN) ->
    exists cl, clvi m = Ok cl /\ length cl = length ds /\
      (forall j, j < length ds ->
         nth j cl 0 < length os /\ f (nth (nth j cl 0) os 0%Z) (nth j ds 0%Z) <> NaN /\
         forall i, nth j cl 0 < i < length os -> f (nth i os 0%Z) (nth j ds 0%Z) = NaN) /\
      (forall i j, i < length os -> j < length ds ->
         (indc (triind (length os) cl) i j = true <->
          forall i', i <= i' -> i' < length os -> f (nth i' os 0%Z) (nth j ds 0%Z) = NaN)).
  Proof.
    intro Cd. exists (map (lastrow os ds f) (seq 0 (length ds))). split; [apply clvi_holds; auto|].
    split; [rewrite map_length, seq_length; auto|]. split.
    - intros j Hj. rewrite nth_map_seq by auto. apply (lastrow_spec os ds f j Cd Hj).
    - intros i j Hi Hj. rewrite indc_triind by auto. rewrite Nat.ltb_lt.
      destruct (lastrow_spec os ds f j Cd Hj) as (A & B & C). split.
      + intros L i' Hi' Hi''. apply C. lia.
      + intro Q. destruct (Nat.le_gt_cases i (lastrow os ds f j)); auto. exfalso. apply B. apply Q; auto.
  Qed.

  Lemma c12_runoff : runoff os ds f ->
    exists cl rl ms, clvi m = Ok cl /\ rlvi m = Ok rl /\ maturity m (triind (length os) cl) = Ok ms /\
      length rl = length os /\ length ms = length os /\
      (forall i j, i < length os -> j < length ds ->
         (indc (triind (length os) cl) i j = true <-> f (nth i os 0%Z) (nth j ds 0%Z) = NaN)) /\
      (forall i, i < length os ->
         last_observed ds f (nth i os 0%Z) (nth i ms 0%Z) /\ nth (nth i rl 0) ds 0%Z = nth i ms 0%Z).
  Proof.
    intro R. assert (R' := R). destruct R' as (G & Gc & Co & Cd).
    exists (map (lastrow os ds f) (seq 0 (length ds))), (map (lastcol os ds f) (seq 0 (length os))),
      (map (fun i => nth (lastcol os ds f i) ds 0%Z) (seq 0 (length os))).
    assert (Ei : m_idx m = os) by (destruct H; auto). assert (Ec : m_cols m = ds) by (destruct H; tauto).
    assert (T : forall i j, i < length os -> j < length ds ->
       ((lastrow os ds f j <? i) = true <-> f (nth i os 0%Z) (nth j ds 0%Z) = NaN)).
    { intros i j Hi Hj. rewrite Nat.ltb_lt. destruct (lastrow_spec os ds f j Cd Hj) as (A & B & C). split.
      - intro L. apply C. lia.
      - intro Q. destruct (Nat.le_gt_cases i (lastrow os ds f j)) as [L|L]; auto. exfalso.
        apply (runoff_col os ds f i (lastrow os ds f j) j); auto. }
    split; [apply clvi_holds; auto|]. split; [|split; [|split; [|split; [|split]]]].
    - unfold rlvi, nrows. rewrite Ei. apply mapM_ok. intros i Hi. apply in_seq in Hi.
      rewrite (mrow_holds m os ds f) by (auto; lia).
      destruct (lastcol_spec os ds f i Co) as (-> & _); [lia|]. auto.
    - rewrite triind_rows. unfold maturity.
      apply mapM_map. intros i Hi. apply in_seq in Hi.
      assert (L : last_false (map (fun j => lastrow os ds f j <? i) (seq 0 (length ds))) = Some (lastcol os ds f i)).
      { apply last_false_map. destruct (lastcol_spec os ds f i Co) as (_ & A & B & C); [lia|].
        split; auto. split.
        - apply not_true_is_false. intro Q. apply T in Q; auto. lia.
        - intros j Hj. apply T; [lia|lia|]. apply C. auto. }
      rewrite L, Ec. auto.
    - rewrite map_length, seq_length; auto.
    - rewrite map_length, seq_length; auto.
    - intros i j Hi Hj. rewrite indc_triind by auto. auto.
    - intros i Hi. rewrite !nth_map_seq by auto. split; auto. apply lastcol_observed; auto.
  Qed.
End C12.

(** ** C13 *)

Lemma filter_map_seq_le n k : filter (fun p : nat * Z => (0 <=? snd p)%Z)
    (map (fun i => (i, (Z.of_nat (n - 1 - i) + - Z.of_nat k)%Z)) (seq 0 n))
  = map (fun i => (i, Z.of_nat (n - 1 - k - i))) (seq 0 (n - k)).
Proof.
  destruct (Nat.le_gt_cases n k) as [L|L].
  - replace (n - k) with 0 by lia. simpl. apply filter_none. intros p Hp.
    apply in_map_iff in Hp as (i & <- & Hi). apply in_seq in Hi. simpl. apply Z.leb_gt. lia.
  - replace (seq 0 n) with (seq 0 (n - k) ++ seq (n - k) k) by (rewrite <- seq_app; f_equal; lia).
    rewrite map_app, filter_app. rewrite (filter_none _ (map _ (seq (n - k) k))).
    + rewrite app_nil_r.
      assert (G : forall l, (forall i, In i l -> i < n - k) ->
        filter (fun p : nat * Z => (0 <=? snd p)%Z) (map (fun i => (i, (Z.of_nat (n - 1 - i) + - Z.of_nat k)%Z)) l)
        = map (fun i => (i, Z.of_nat (n - 1 - k - i))) l).
      { induction l as [|i l IH]; intro Hl; simpl; auto. assert (Hi := Hl i (or_introl eq_refl)).
        assert (E : (0 <=? Z.of_nat (n - 1 - i) + - Z.of_nat k)%Z = true) by (apply Z.leb_le; lia).
        rewrite E. f_equal; [f_equal; lia|]. apply IH. intros; apply Hl; right; auto. }
      apply G. intros i Hi. apply in_seq in Hi. lia.
    + intros p Hp. apply in_map_iff in Hp as (i & <- & Hi). apply in_seq in Hi. simpl. apply Z.leb_gt. lia.
Qed.

Section C13.
  Variables (m : lmat) (os ds : list Z) (f : Z -> Z -> val) (n : nat) (v : string).
  Hypothesis So : zsorted os.
  Hypothesis Sd : zsorted ds.
  Hypothesis Hm : holds m os ds f.
  Hypothesis Lo : length os = n.
  Hypothesis Ld : length ds = n.
  Hypothesis Hn : 0 < n.
  Hypothesis Reg : forall i j, i < n -> j < n ->
    (f (nth i os 0%Z) (nth j ds 0%Z) <> NaN <-> i + j < n).

  Lemma reg_rows : forall o, In o os -> exists d, In d ds /\ f o d <> NaN.
  Proof.
    intros o Ho. destruct (label_pos _ _ Ho) as (i & Hi & ->). exists (nth 0 ds 0%Z). split.
    - apply nth_In. lia.
    - apply Reg; lia.
  Qed.
  Lemma reg_lastcol i : i < n -> lastcol os ds f i = n - 1 - i.
  Proof.
    intro Hi. destruct (lastcol_spec os ds f i reg_rows) as (_ & A & B & C); [lia|].
    apply Reg in B; try lia.
    destruct (Nat.lt_trichotomy (lastcol os ds f i) (n - 1 - i)) as [L|[L|L]]; auto; try lia.
    specialize (C (n - 1 - i)). assert (Q : f (nth i os 0%Z) (nth (n - 1 - i) ds 0%Z) <> NaN) by (apply Reg; lia).
    exfalso. apply Q. apply C. lia.
  Qed.
  Lemma reg_latest : latest (mkTri m "origin" "dev" v) =
    Ok (map (fun i => mkrec (nth i os 0%Z) (nth (n - 1 - i) ds 0%Z)
                 (f (nth i os 0%Z) (nth (n - 1 - i) ds 0%Z))) (seq 0 n)).
  Proof.
    assert (E : latest (mkTri m "origin" "dev" v) = Ok (latest_recs m)) by reflexivity.
    rewrite E. f_equal. rewrite (latest_recs_eq m os ds f) by (auto using reg_rows). rewrite Lo.
    apply map_ext_in. intros i Hi. apply in_seq in Hi. rewrite reg_lastcol by lia. auto.
  Qed.

  Lemma reg_diagonal k : k < n -> diagonal (mkTri m "origin" "dev" v) (- Z.of_nat k) =
    Ok (map (fun i => mkrec (nth i os 0%Z) (nth (n - 1 - k - i) ds 0%Z)
                 (f (nth i os 0%Z) (nth (n - 1 - k - i) ds 0%Z))) (seq 0 (n - k))).
  Proof.
    intro Hk. unfold diagonal. rewrite reg_latest. cbn [bind t_mat].
    assert (Ei : m_idx m = os) by (destruct Hm; auto). assert (Ec : m_cols m = ds) by (destruct Hm; tauto).
    unfold ncols. rewrite Ei, Ec, Ld.
    assert (E : (Z.of_nat n - 1 <? Z.abs (- Z.of_nat k))%Z = false) by (apply Z.ltb_ge; lia).
    rewrite E. rewrite map_length, seq_length, filter_map_seq_le.
    destruct (map (fun i => (i, Z.of_nat (n - 1 - k - i))) (seq 0 (n - k))) as [|p w] eqn:Q.
    { apply map_eq_nil in Q. destruct (n - k) eqn:W; [lia|discriminate]. }
    rewrite <- Q.
    apply mapM_map. intros i Hi. apply in_seq in Hi. cbn [fst snd].
    assert (E2 : (Z.of_nat (n - 1 - k - i) <? Z.of_nat n)%Z = true) by (apply Z.ltb_lt; lia).
    rewrite E2, Nat2Z.id. f_equal. f_equal. apply holds_cell; auto; lia.
  Qed.

  Lemma reg_diagonal_big off : (Z.of_nat n - 1 < Z.abs off)%Z ->
    diagonal (mkTri m "origin" "dev" v) off = Err ValueError.
  Proof.
    intro L. unfold diagonal, ncols. assert (Ec : m_cols m = ds) by (destruct Hm; tauto).
    cbn [t_mat]. rewrite Ec, Ld. apply Z.ltb_lt in L. rewrite L. auto.
  Qed.

  (** A positive offset within range is not rejected by the guard and fails with a
      lookup error. *)
  Lemma reg_diagonal_pos k : 0 < k < n ->
    diagonal (mkTri m "origin" "dev" v) (Z.of_nat k) = Err KeyError.
  Proof.
    intro Hk. unfold diagonal. rewrite reg_latest. cbn [bind t_mat].
    assert (Ei : m_idx m = os) by (destruct Hm; auto). assert (Ec : m_cols m = ds) by (destruct Hm; tauto).
    unfold ncols. rewrite Ei, Ec, Ld.
    assert (E : (Z.of_nat n - 1 <? Z.abs (Z.of_nat k))%Z = false) by (apply Z.ltb_ge; lia).
    rewrite E. rewrite map_length, seq_length. destruct n as [|n']; [lia|]. cbn [seq map filter snd fst].
    assert (E2 : (0 <=? Z.of_nat (S n' - 1 - 0) + Z.of_nat k)%Z = true) by (apply Z.leb_le; lia).
    rewrite E2. cbn [mapM snd fst].
    assert (E3 : (Z.of_nat (S n' - 1 - 0) + Z.of_nat k <? Z.of_nat (S n'))%Z = false) by (apply Z.ltb_ge; lia).
    rewrite E3. auto.
  Qed.
End C13.

(** ** C15: the cells do not depend on the column names *)

Lemma c15 f o d v l : o <> d -> o <> v -> d <> v ->
  o <> "cumval"%string -> d <> "cumval"%string -> v <> "cumval"%string ->
  table_in f o d v l -> l <> [] -> forall tt df,
  starts "i"%char tt = true \/ starts "c"%char tt = true -> strip_starts "c"%char df = false ->
  match totri f tt df "tabular" o d v,
        totri (recs_frame "origin" "dev" "value" l) tt df "tabular" "origin" "dev" "value" with
  | Ok a, Ok b => t_mat (ob_tri a) = t_mat (ob_tri b) /\ ob_clvi a = ob_clvi b /\
                  to_incr (ob_tri a) = to_incr (ob_tri b)
  | Err _, Err _ => True
  | _, _ => False
  end.
Proof.
  intros H1 H2 H3 H4 H5 H6 T Hl tt df Ht Hd.
  destruct (starts "i"%char tt) eqn:Ei.
  - rewrite (totri_incr_table o d v) with (l := l) by auto.
    rewrite (totri_incr_table "origin" "dev" "value") with (l := l); try discriminate; auto.
    apply recs_frame_table; discriminate.
  - destruct Ht as [Ht|Ht]; [discriminate|].
    rewrite (totri_cum_table o d v) with (l := l) by auto.
    rewrite (totri_cum_table "origin" "dev" "value") with (l := l); try discriminate; auto.
    + unfold fill. cbn [t_mat t_o t_d t_v]. destruct (ncols _ <? 2); [simpl; auto|].
      destruct (clvi_cells _ _ _); simpl; auto.
    + apply recs_frame_table; discriminate.
Qed.

(** ** C16 *)

Lemma fget_none f n : ~ In n (map fst f) -> fget f n = None.
Proof.
  induction f as [|[m c] f IH]; simpl; auto. intro H. destruct (String.eqb_spec m n); [intuition|]. auto.
Qed.
Lemma fcount_none f n : ~ In n (map fst f) -> fcount f n = 0.
Proof.
  intro H. unfold fcount. rewrite filter_none; auto. intros [m c] Hp. simpl.
  destruct (String.eqb_spec m n); auto. subst. exfalso. apply H. change n with (fst (n, c)). apply in_map; auto.
Qed.
Lemma fint_none f n : ~ In n (map fst f) -> fint f n = Err KeyError.
Proof. intro H. unfold fint. rewrite fcount_none, fget_none; auto. Qed.
Lemma fval_none f n : ~ In n (map fst f) -> fval f n = Err KeyError.
Proof. intro H. unfold fval. rewrite fcount_none, fget_none; auto. Qed.
Lemma fhas_none f n : ~ In n (map fst f) -> fhas f n = false.
Proof. intro H. apply not_true_is_false. intro Q. apply fhas_in in Q. auto. Qed.

Lemma validate_missing f o d v : (~ In o (map fst f) \/ ~ In d (map fst f) \/ ~ In v (map fst f)) ->
  validate f o d v = Err AttributeError.
Proof.
  intro H. unfold validate. destruct (fhas f o) eqn:A; auto. destruct (fhas f d) eqn:B; auto.
  destruct (fhas f v) eqn:C; auto. apply fhas_in in A, B, C. tauto.
Qed.

Definition lookup_error (e : exn) : Prop := e = KeyError \/ e = AttributeError.

Lemma fset_keys_in f n c m : In m (map fst (fset f n c)) <-> In m (map fst f) \/ m = n.
Proof.
  destruct (in_dec String.string_dec n (map fst f)).
  - rewrite fset_keys_has by auto. intuition. subst; auto.
  - rewrite fset_keys_new by auto. rewrite in_app_iff. simpl. intuition.
Qed.
Lemma frename_keys_in f a b m : In m (map fst (frename f a b)) ->
  (In m (map fst f) /\ m <> a) \/ (m = b /\ In a (map fst f)).
Proof.
  unfold frename. rewrite map_map. intro H. apply in_map_iff in H as ([n c] & E & Hp). simpl in E.
  assert (In n (map fst f)) by (change n with (fst (n, c)); apply in_map; auto).
  destruct (String.eqb_spec n a); simpl in E; subst; auto.
Qed.
Lemma fdrop_keys_in f n g m : fdrop f n = Ok g -> In m (map fst g) -> In m (map fst f) /\ m <> n.
Proof.
  unfold fdrop. destruct (fhas f n); [|discriminate]. intro E; inversion E; subst.
  intro H. apply in_map_iff in H as (p & <- & Hp). apply filter_In in Hp as [Hp Hn].
  split; [apply in_map; auto|]. intro Q. rewrite Q, String.eqb_refl in Hn. discriminate.
Qed.
Lemma fdrop_has f n : In n (map fst f) -> exists g, fdrop f n = Ok g.
Proof. intro H. unfold fdrop. apply fhas_in in H. rewrite H. eauto. Qed.

(** Well-typed frame for the names in use. *)
Definition typed (f : frame) (o : string) : Prop :=
  NoDup (map fst f) /\ forall c, In (o, c) f -> exists l, c = ZC l.

Lemma fint_typed f o : typed f o -> In o (map fst f) -> exists l, fint f o = Ok l.
Proof.
  intros [N H] I. apply in_map_iff in I as ([n c] & E & Hp). simpl in E. subst.
  destruct (H c Hp) as [l ->]. exists l. apply fint_in; auto.
Qed.
Lemma fval_typed f v : NoDup (map fst f) -> In v (map fst f) -> exists l, fval f v = Ok l.
Proof.
  intros N I. apply in_map_iff in I as ([n c] & E & Hp). simpl in E. subst.
  assert (C := fcount_nodup f v N). unfold fval. destruct (Nat.ltb_spec 1 (fcount f v)); [lia|].
  rewrite (fget_in f v c) by auto. destruct c; eauto.
Qed.

Lemma base_ctor_missing h r o d v :
  (~ In o (map fst (hget h r)) \/ ~ In d (map fst (hget h r)) \/ ~ In v (map fst (hget h r))) ->
  base_ctor h r o d v = (h, Err AttributeError).
Proof. intro H. unfold base_ctor. rewrite validate_missing; auto. Qed.

Lemma cum_ctor_missing h r o d v : typed (hget h r) o -> d <> v ->
  (~ In o (map fst (hget h r)) \/ ~ In d (map fst (hget h r)) \/ ~ In v (map fst (hget h r))) ->
  exists e, snd (cum_ctor h r (Some o) (Some d) (Some v)) = Err e /\ lookup_error e.
Proof.
  intros T Hdv M. unfold cum_ctor. set (f := hget h r) in *.
  destruct (in_dec String.string_dec o (map fst f)) as [Io|Io].
  2:{ rewrite fint_none by auto. eexists. split; [reflexivity|left; auto]. }
  destruct (fint_typed f o T Io) as [os Eo]. rewrite Eo.
  destruct (in_dec String.string_dec v (map fst f)) as [Iv|Iv].
  2:{ rewrite fval_none by auto. eexists. split; [reflexivity|left; auto]. }
  destruct (fval_typed f v (proj1 T) Iv) as [vs Ev]. rewrite Ev.
  destruct M as [M|[M|M]]; try contradiction.
  set (f1 := fset f "cumval" (VC (group_cumsum (combine os vs)))).
  destruct (fdrop_has f1 v) as [f2 E2]; [apply fset_keys_in; auto|]. rewrite E2. unfold halloc. cbn [dflt].
  rewrite base_ctor_missing.
  - eexists. split; [reflexivity|right; auto].
  - right. left. rewrite hget_last. intro Q. apply frename_keys_in in Q as [[Q1 Q2]|[Q1 Q2]].
    + apply (fdrop_keys_in _ _ _ _ E2) in Q1 as [Q1 _]. apply fset_keys_in in Q1 as [Q1|Q1]; auto.
    + congruence.
Qed.

Lemma c16_missing f o d v tt df : o <> d -> o <> v -> d <> v -> typed f o ->
  starts "i"%char tt = true \/ starts "c"%char tt = true ->
  (strip_starts "c"%char df = false \/
   o <> "cum"%string /\ d <> "cum"%string /\ o <> "incr"%string /\ d <> "incr"%string /\
   ~ In "cum"%string (map fst f)) ->
  (~ In o (map fst f) \/ ~ In d (map fst f) \/ ~ In v (map fst f)) ->
  exists e, totri f tt df "tabular" o d v = Err e /\ lookup_error e.
Proof.
  intros H1 H2 H3 T Ht Hf M.
  assert (Fin2 : forall h r, typed (hget h r) o ->
    (~ In o (map fst (hget h r)) \/ ~ In d (map fst (hget h r)) \/ ~ In v (map fst (hget h r))) ->
    exists e, snd (let (h2, r2) := halloc h (hget h r) in
      if starts "i"%char tt then
        match incr_ctor h2 r2 (Some o) (Some d) (Some v) with
        | (h3, Ok t) => (h3, Ok (mkObj t None))
        | (h3, Err e) => (h3, Err e)
        end
      else if starts "c"%char tt then
        match cum_ctor h2 r2 (Some o) (Some d) (Some v) with
        | (h3, Ok t) => (h3, fill t)
        | (h3, Err e) => (h3, Err e)
        end
      else (h2, Err UnboundLocalError)) = Err e /\ lookup_error e).
  { intros h r T' M'. unfold halloc. destruct (starts "i"%char tt) eqn:Ei.
    - unfold incr_ctor. cbn [dflt]. rewrite base_ctor_missing by (rewrite hget_last; auto).
      eexists. split; [reflexivity|right; auto].
    - destruct Ht as [Ht|Ht]; [discriminate|]. rewrite Ht.
      destruct (cum_ctor_missing (h ++ [hget h r]) (length h) o d v) as (e & E & L);
        [rewrite hget_last; auto|auto|rewrite hget_last; auto|].
      destruct (cum_ctor (h ++ [hget h r]) (length h) (Some o) (Some d) (Some v)) as [h3 [t|e']];
        cbn [snd] in E; [discriminate|]. inversion E; subst. exists e. split; auto. }
  destruct (strip_starts "c"%char df) eqn:Ec.
  - destruct Hf as [Hf|(A & B & C & D & E)]; [discriminate|].
    unfold totri, totri_h, totri_frame. cbn [String.eqb Ascii.eqb Bool.eqb]. rewrite Ec. unfold halloc.
    change (hget [f] 0) with f. set (f1 := frename f v "cum").
    assert (N1 : NoDup (map fst f1)) by (apply frename_nodup; auto; apply T).
    destruct (in_dec String.string_dec o (map fst f)) as [Io|Io].
    2:{ rewrite fint_none; [eexists; split; [reflexivity|left; auto]|].
        intro Q. apply frename_keys_in in Q as [[Q _]|[Q _]]; auto. }
    assert (T1 : typed f1 o).
    { split; auto. intros c Hc. unfold f1, frename in Hc. apply in_map_iff in Hc as ([n x] & E2 & Hp).
      simpl in E2. destruct (String.eqb n v) eqn:En; inversion E2; subst; [congruence|]. apply (proj2 T); auto. }
    destruct (fint_typed f1 o T1) as [os Eo].
    { apply in_map_iff in Io as ([n x] & En & Hp). simpl in En. subst n.
      change o with (fst (o, x)). apply in_map. apply frename_in_other; auto. }
    rewrite Eo.
    destruct (in_dec String.string_dec v (map fst f)) as [Iv|Iv].
    2:{ rewrite fval_none; [eexists; split; [reflexivity|left; auto]|].
        intro Q. apply frename_keys_in in Q as [[Q _]|[_ Q]]; auto. }
    assert (Ic : In "cum"%string (map fst f1)).
    { apply in_map_iff in Iv as ([n x] & En & Hp). simpl in En. subst n.
      change "cum"%string with (fst ("cum"%string, x)). apply in_map. apply frename_in; auto. }
    destruct (fval_typed f1 "cum" N1 Ic) as [cs Ecs]. rewrite Ecs.
    match goal with |- context [fdrop (fset f1 "incr" ?c) "cum"] => set (inc := c) end.
    destruct (fdrop_has (fset f1 "incr" inc) "cum") as [f2 E2]; [apply fset_keys_in; auto|].
    rewrite E2. destruct M as [M|[M|M]]; try contradiction.
    apply (Fin2 (hset ([f] ++ [f1]) (length [f]) (fset f1 "incr" inc) ++ [frename f2 "incr" v])
                (length (hset ([f] ++ [f1]) (length [f]) (fset f1 "incr" inc)))).
    + rewrite hget_last. split.
      * destruct (String.string_dec v "incr") as [->|Nv].
        -- assert (S : frename f2 "incr" "incr" = f2).
           { unfold frename. rewrite <- (map_id f2) at 2. apply map_ext. intros [n c]. simpl.
             destruct (String.eqb_spec n "incr"); subst; auto. }
           rewrite S. unfold fdrop in E2. destruct (fhas _ _); inversion E2.
           apply nodup_filter_keys, fset_nodup; auto.
        -- apply frename_nodup.
           ++ unfold fdrop in E2. destruct (fhas _ _); inversion E2. apply nodup_filter_keys, fset_nodup; auto.
           ++ intro Q. apply (fdrop_keys_in _ _ _ _ E2) in Q as [Q Qc]. apply fset_keys_in in Q as [Q|Q]; auto.
              apply frename_keys_in in Q as [[Q Q']|[Q Q']]; auto.
      * intros c Hc. unfold frename in Hc. apply in_map_iff in Hc as ([n x] & E3 & Hp). simpl in E3.
        destruct (String.eqb_spec n "incr"); inversion E3; subst; [congruence|].
        unfold fdrop in E2. destruct (fhas _ _); inversion E2; subst f2.
        apply filter_In in Hp as [Hp _].
        assert (W : In (o, c) f1).
        { clear -Hp C. revert Hp. generalize f1 as g. induction g as [|[k y] g IH]; simpl.
          - intros [Q|[]]. inversion Q; subst. congruence.
          - destruct (String.eqb_spec k "incr"); simpl; intros [Q|Q]; auto.
            inversion Q; subst. congruence. }
        apply (proj2 T1); auto.
    + rewrite hget_last. right. left. intro Q. apply frename_keys_in in Q as [[Q Q']|[Q Q']]; auto.
      apply (fdrop_keys_in _ _ _ _ E2) in Q as [Q Qc]. apply fset_keys_in in Q as [Q|Q]; auto.
      apply frename_keys_in in Q as [[Q _]|[Q _]]; auto.
  - clear Hf. unfold totri. rewrite totri_h_tabular by auto.
    apply (Fin2 [f] 0); auto.
Qed.

Lemma c16_shape h data tt df ds o d v : ds <> "triangle"%string -> ds <> "tabular"%string ->
  snd (totri_h h data tt df ds o d v) = Err NameError.
Proof.
  intros A B. unfold totri_h, totri_frame.
  destruct (String.eqb_spec ds "triangle"); [contradiction|].
  destruct (String.eqb_spec ds "tabular"); [contradiction|]. reflexivity.
Qed.
Lemma c16_type h data tt df ds o d v : starts "i"%char tt = false -> starts "c"%char tt = false ->
  exists e, snd (totri_h h data tt df ds o d v) = Err e.
Proof.
  intros A B. unfold totri_h. destruct (totri_frame h data df ds o d v) as [h1 [r1|e]]; [|simpl; eauto].
  unfold halloc. rewrite A, B. simpl. eauto.
Qed.
Lemma c16_format_triangle h m nm tt df o d v : strip_starts "i"%char df = false -> strip_starts "c"%char df = false ->
  snd (totri_h h (DTri m nm) tt df "triangle" o d v) = Err NameError.
Proof. intros A B. unfold totri_h, totri_frame. cbn [String.eqb Ascii.eqb Bool.eqb]. rewrite A, B. reflexivity. Qed.
