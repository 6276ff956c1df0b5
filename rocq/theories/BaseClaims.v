(** Proofs of C22-C26 and the base_cl part of C21. *)

From Coq Require Import String Ascii QArith Qcanon ZArith List Bool Lia Permutation Sorting.Sorted.
From Verif Require Import Val Frame Triangle A2A Base QcLib ListLib Spec BuildFacts CumFacts FillFacts
  TotriFacts TblFacts TriClaims ConvFacts TriClaims2 TriClaims4 TriClaims5 RegFacts AvgFacts AvgClaims AvgClaims2.
Import ListNotations.
Open Scope list_scope.
Open Scope nat_scope.

(** ** Inversion of [chain_ladder] and [base_cl] *)

Lemma chain_ladder_inv t cl ldfs tail r : chain_ladder t cl ldfs tail = Ok r ->
  exists ult rsv mat lt sq,
    ultimates t (cldfs ldfs) = Ok ult /\ reserves t ult = Ok rsv /\
    maturity (t_mat t) (triind (nrows (t_mat t)) cl) = Ok mat /\ latest_by_origin t = Ok lt /\
    trisqrd (t_mat t) cl (map snd ldfs) = Ok sq /\
    c_rows r = map (fun p => mkRow (fst p) (snd p) (slookup (cldfs ldfs) (snd p))
                 (vdiv (Fin 1%Qc) (slookup (cldfs ldfs) (snd p)))
                 (slookup lt (fst p)) (slookup ult (fst p)) (slookup rsv (fst p)))
               (combine (m_idx (t_mat t)) mat) /\
    c_total r = (skipsum (map s_latest (c_rows r)), skipsum (map s_ultimate (c_rows r)),
                 skipsum (map s_reserve (c_rows r))) /\
    c_ldfs r = ldfs /\ c_trisqrd r = sq /\ c_tail r = tail.
Proof.
  unfold chain_ladder. destruct (ultimates _ _) as [ult|] eqn:E1; cbn [bind]; [|discriminate].
  destruct (reserves _ _) as [rsv|] eqn:E2; cbn [bind]; [|discriminate].
  destruct (maturity _ _) as [mat|] eqn:E3; cbn [bind]; [|discriminate].
  destruct (latest_by_origin _) as [lt|] eqn:E4; cbn [bind]; [|discriminate].
  destruct (trisqrd _ _ _) as [sq|] eqn:E5; cbn [bind]; [|discriminate].
  intro H. injection H as <-. exists ult, rsv, mat, lt, sq. cbn. repeat split; auto.
Qed.

Lemma base_cl_inv gm t cl ind sel tail sel' r : base_cl gm t cl ind sel tail = (sel', Ok r) ->
  select_ldfs gm (t_mat t) ind sel tail = (sel', Ok (c_ldfs r)) /\ chain_ladder t cl (c_ldfs r) tail = Ok r.
Proof.
  unfold base_cl. destruct (select_ldfs _ _ _ _ _) as [s [l|e]]; cbn [bind]; intro H; inversion H; subst.
  assert (E := chain_ladder_inv _ _ _ _ _ H2). destruct E as (? & ? & ? & ? & ? & _ & _ & _ & _ & _ & _ & _ & -> & _).
  auto.
Qed.
Lemma base_cl_intro gm t cl ind sel tail sel' l r : select_ldfs gm (t_mat t) ind sel tail = (sel', Ok l) ->
  chain_ladder t cl l tail = Ok r -> base_cl gm t cl ind sel tail = (sel', Ok r).
Proof. unfold base_cl. intros -> E. cbn [bind]. rewrite E. auto. Qed.

(** ** C22 *)

Lemma c22_cldfs ds (f : nat -> Qc) k : increasing ds -> k < length ds ->
  slookup (cldfs (map (fun j => (nth j ds 0%Z, Fin (f j))) (seq 0 (length ds)))) (nth k ds 0%Z)
  = Fin (prodf k (length ds - k) f).
Proof.
  intros Sd Hk. assert (E := r_cldfs ds (length ds)). unfold fser in E. rewrite E; auto.
  apply (slookup_map (fun k => nth k ds 0%Z) (fun k => Fin (cdf (length ds) f k))); [|apply in_seq; lia].
  rewrite map_nth_seq. apply zsorted_nodup. auto.
Qed.

Lemma c22_summary gm t cl ind sel tail sel' r ds (f : nat -> Qc) : increasing ds ->
  base_cl gm t cl ind sel tail = (sel', Ok r) ->
  c_ldfs r = map (fun j => (nth j ds 0%Z, Fin (f j))) (seq 0 (length ds)) ->
  forall row k, In row (c_rows r) -> k < length ds -> s_maturity row = nth k ds 0%Z ->
    s_cldf row = Fin (prodf k (length ds - k) f) /\
    (prodf k (length ds - k) f <> 0%Qc -> s_emergence row = Fin (1 / prodf k (length ds - k) f)%Qc).
Proof.
  intros Sd H Hf row k Hr Hk Hm. apply base_cl_inv in H as (_ & H).
  apply chain_ladder_inv in H as (? & ? & ? & ? & ? & _ & _ & _ & _ & _ & E & _).
  rewrite E in Hr. apply in_map_iff in Hr as ([o mt] & <- & _). cbn in *. subst mt.
  rewrite Hf, c22_cldfs by auto. split; auto. intro N. apply vdiv_fin. auto.
Qed.

(** ** C23 *)

Lemma slookup_id_map (h : Z -> val) l o : In o l -> slookup (map (fun o => (o, h o)) l) o = h o.
Proof.
  induction l as [|a l IH]; intro H; [contradiction|]. unfold slookup. cbn [map find fst].
  destruct (Z.eqb_spec a o) as [->|D]; auto. destruct H; [congruence|]. apply IH. auto.
Qed.
Lemma slookup_zvsort_id_map (h : Z -> val) l o : In o l -> slookup (zvsort (map (fun o => (o, h o)) l)) o = h o.
Proof.
  intro H. unfold zvsort.
  assert (G : forall s : series, (forall p, In p s -> snd p = h (fst p)) -> In o (map fst s) -> slookup s o = h o).
  { induction s as [|[a b] s IH]; intros Q I; [contradiction|]. unfold slookup. cbn [find fst].
    destruct (Z.eqb_spec a o) as [->|D].
    - apply (Q (o, b)). left; auto.
    - apply IH; [intros; apply Q; right; auto|]. destruct I; [simpl in *; congruence|auto]. }
  apply G.
  - intros p Hp. apply ssort_in in Hp. apply in_map_iff in Hp as (x & <- & _). auto.
  - apply in_map_iff. exists (o, h o). split; auto. apply ssort_in. apply in_map_iff. eauto.
Qed.

Lemma c23_general gm t cl ind sel tail sel' r : base_cl gm t cl ind sel tail = (sel', Ok r) ->
  map s_origin (c_rows r) = m_idx (t_mat t) /\
  (forall row, In row (c_rows r) -> s_reserve row = vsub (s_ultimate row) (s_latest row)) /\
  c_total r = (nan_sum (map s_latest (c_rows r)), nan_sum (map s_ultimate (c_rows r)),
               nan_sum (map s_reserve (c_rows r))).
Proof.
  intro H. apply base_cl_inv in H as (_ & H).
  apply chain_ladder_inv in H as (ult & rsv & mat & lt & sq & _ & R & M & L & _ & E & T & _).
  split; [|split].
  - rewrite E, map_map. cbn. apply mapM_length in M.
    assert (Lm : length (m_idx (t_mat t)) = length mat).
    { rewrite M. unfold triind. rewrite mk_length. auto. }
    clear -Lm. revert mat Lm. induction (m_idx (t_mat t)); destruct mat; simpl; intros; try discriminate; auto.
    f_equal. auto.
  - intros row Hr. rewrite E in Hr. apply in_map_iff in Hr as ([o mt] & <- & Hin). cbn [s_reserve s_ultimate s_latest fst snd].
    unfold reserves in R. rewrite L in R. cbn [bind] in R. injection R as <-.
    apply in_combine_l in Hin. rewrite slookup_zvsort_id_map by auto. auto.
  - rewrite T, !skipsum_nan_sum. auto.
Qed.

Lemma c23_latest gm m os ds f v cl ind sel tail sel' r : increasing os -> increasing ds -> holds m os ds f ->
  (forall o, In o os -> exists d, In d ds /\ f o d <> NaN) ->
  base_cl gm (mkTri m "origin" "dev" v) cl ind sel tail = (sel', Ok r) ->
  forall row, In row (c_rows r) -> exists d, last_observed ds f (s_origin row) d /\ s_latest row = f (s_origin row) d.
Proof.
  intros So Sd Hh Cv H row Hr. assert (G := c23_general _ _ _ _ _ _ _ _ H). destruct G as (G & _).
  apply base_cl_inv in H as (_ & H).
  apply chain_ladder_inv in H as (ult & rsv & mat & lt & sq & _ & R & M & L & _ & E & T & _).
  destruct (c11 m os ds f v So Sd Hh Cv) as (l & _ & Ho & Hl & Lb & _). rewrite Lb in L. injection L as <-.
  assert (Io : In (s_origin row) (m_idx m)) by (change m with (t_mat (mkTri m "origin" "dev" v)); rewrite <- G; apply in_map; auto).
  rewrite E in Hr. apply in_map_iff in Hr as ([o mt] & <- & Hin). cbn [s_latest s_origin fst snd] in *.
  destruct Hh as (Hi & _). rewrite Hi, <- Ho in Io.
  clear -Io Hl. unfold slookup.
  destruct (find _ _) as [p|] eqn:Q.
  - apply find_some in Q as (Hp & Ep). apply in_map_iff in Hp as (x & <- & Hx). cbn in Ep. apply Z.eqb_eq in Ep.
    destruct (Hl x Hx) as (A & B). exists (r_d x). rewrite <- Ep. auto.
  - exfalso. apply in_map_iff in Io as (x & <- & Hx).
    assert (K := find_none _ _ Q (r_o x, r_v x)). cbn in K. rewrite Z.eqb_refl in K. discriminate K. apply in_map_iff. eauto.
Qed.

Lemma c23_regular gm m n C v cl ind sel tail sel' r (f : nat -> Qc) : regular m n C -> 0 < n -> clvi m = Ok cl ->
  base_cl gm (mkTri m "origin" "dev" v) cl ind sel tail = (sel', Ok r) ->
  c_ldfs r = map (fun j => (nth j (m_cols m) 0%Z, Fin (f j))) (seq 0 n) ->
  c_rows r = map (fun i => let k := n - 1 - i in let cldf := prodf k (n - k) f in
      mkRow (nth i (m_idx m) 0%Z) (nth k (m_cols m) 0%Z) (Fin cldf) (vdiv (Fin 1%Qc) (Fin cldf))
            (Fin (C i k)) (Fin (C i k * cldf)%Qc) (Fin (C i k * cldf - C i k)%Qc)) (seq 0 n) /\
  c_total r = (Fin (sumf 0 n (fun i => C i (n - 1 - i)%nat)),
               Fin (sumf 0 n (fun i => C i (n - 1 - i)%nat * prodf (n - 1 - i) (n - (n - 1 - i)) f)%Qc),
               Fin (sumf 0 n (fun i => C i (n - 1 - i)%nat * prodf (n - 1 - i) (n - (n - 1 - i)) f - C i (n - 1 - i)%nat)%Qc)) /\
  c_trisqrd r = (mk n n (fun i j => Fin (sq n C f i j)),
                 map (fun i => Fin (C i (n - 1 - i)%nat * prodf (n - 1 - i) (n - (n - 1 - i)) f)%Qc) (seq 0 n)).
Proof.
  intros R Hn Hcl H Hf. apply base_cl_inv in H as (_ & H). rewrite Hf in H.
  apply regular_rmat in R as (E & So & Sd & Lo & Ld).
  rewrite E, (r_clvi _ _ n C) in Hcl by auto. injection Hcl as <-.
  assert (Q := r_chain_ladder (m_idx m) (m_cols m) n C So Sd Lo Ld Hn f v tail).
  unfold fser in Q. rewrite <- E in Q. rewrite Q in H. injection H as <-. cbn [c_rows c_total c_trisqrd]. auto.
Qed.

(** ** C24 *)
Lemma c24 gm m n C v cl ind sel tail sel' r (f : nat -> Qc) : regular m n C -> 0 < n -> clvi m = Ok cl ->
  base_cl gm (mkTri m "origin" "dev" v) cl ind sel tail = (sel', Ok r) ->
  c_ldfs r = map (fun j => (nth j (m_cols m) 0%Z, Fin (f j))) (seq 0 n) ->
  let cells := fst (c_trisqrd r) in
  length cells = n /\ (forall row, In row cells -> length row = n) /\
  (forall i j, i + j < n -> nth j (nth i cells []) NaN = Fin (C i j)) /\
  (forall i j, i < n -> j < n -> n <= i + j ->
     nth j (nth i cells []) NaN = Fin (C i (n - 1 - i)%nat * prodf (n - 1 - i) (j - (n - 1 - i)) f)%Qc) /\
  snd (c_trisqrd r) = map s_ultimate (c_rows r).
Proof.
  intros R Hn Hcl H Hf. cbv zeta.
  destruct (c23_regular _ _ _ _ _ _ _ _ _ _ _ _ R Hn Hcl H Hf) as (A & B & D). rewrite A, D. cbn [fst snd].
  split; [apply mk_length|]. split; [apply mk_wfm|]. split; [|split].
  - intros i j L. assert (K := cell_mk n n (fun i j => Fin (sq n C f i j)) i j). unfold cell in K. rewrite K by lia.
    unfold sq. rewrite ltb_if by auto. auto.
  - intros i j Hi Hj L. assert (K := cell_mk n n (fun i j => Fin (sq n C f i j)) i j). unfold cell in K. rewrite K by lia.
    unfold sq. rewrite nltb_if by auto. auto.
  - rewrite map_map. auto.
Qed.

(** ** base_cl succeeds *)

Lemma base_cl_label gm m n C ind (w : nat -> nat -> bool) v cl a k tail (f : nat -> Qc) : regular m n C -> positive n C -> 2 < n ->
  tail_fits (m_cols m) -> clvi m = Ok cl ->
  (forall i j, i + j < n - 1 -> cell ind i j = Fin (if w i j then 1 else 0)%Qc) ->
  (forall j, j < n - 1 -> w (n - 2 - j) j = true) ->
  In (a, k) (avg_specs (n - 1)) ->
  (forall j, j < n - 1 -> avgval n C w gm a k j = Fin (f j)) -> f (n - 1) = tail ->
  exists r, base_cl gm (mkTri m "origin" "dev" v) cl ind (SelLabel (avg_label a k)) (Fin tail)
              = (SelLabel (avg_label a k), Ok r) /\
     c_ldfs r = map (fun j => (nth j (m_cols m) 0%Z, Fin (f j))) (seq 0 n).
Proof.
  intros R P Hn Ev Hcl Hi Hl Hin Hf Ht. apply regular_rmat in R as (E & So & Sd & Lo & Ld).
  assert (L := ldfs_of_label_eq (m_idx m) (m_cols m) n C Sd Lo Ld ltac:(lia) P ind w Hi Hl gm Hn Ev a k (Fin tail) Hin).
  rewrite <- E in L.
  assert (L2 : map (fun j => (nth j (m_cols m) 0%Z, if S j <? n then avgval n C w gm a k j else Fin tail)) (seq 0 n)
             = map (fun j => (nth j (m_cols m) 0%Z, Fin (f j))) (seq 0 n)).
  { apply map_seq_ext. intros j Hj. f_equal. destruct (Nat.ltb_spec (S j) n).
    - apply Hf. lia.
    - replace j with (n - 1) by lia. congruence. }
  rewrite L2 in L.
  assert (Q := r_chain_ladder (m_idx m) (m_cols m) n C So Sd Lo Ld ltac:(lia) f v (Fin tail)).
  rewrite E, (r_clvi _ _ n C) in Hcl by (auto; lia). injection Hcl as <-. unfold fser in Q. rewrite <- E in Q.
  eexists. split.
  - eapply base_cl_intro; [|exact Q]. cbn [select_ldfs t_mat]. rewrite L. auto.
  - cbn [c_ldfs]. auto.
Qed.

Lemma c23_all_weighted gm m n C v cl tail : regular m n C -> positive n C -> 2 < n ->
  tail_fits (m_cols m) -> clvi m = Ok cl ->
  exists r, base_cl gm (mkTri m "origin" "dev" v) cl (a2aind_init m) (SelLabel "all-weighted") (Fin tail)
              = (SelLabel "all-weighted", Ok r) /\
     c_ldfs r = map (fun j => (nth j (m_cols m) 0%Z,
        Fin (if S j <? n then sumf 0 (n - 1 - j) (fun i => C i (S j)) / sumf 0 (n - 1 - j) (fun i => C i j) else tail)%Qc)) (seq 0 n).
Proof.
  intros R P Hn Ev Hcl. assert (R' := R). apply regular_rmat in R' as (E & So & Sd & Lo & Ld).
  apply (base_cl_label gm m n C (a2aind_init m) (fun _ _ => true) v cl Weighted 0 tail
           (fun j => if S j <? n then sumf 0 (n - 1 - j) (fun i => C i (S j)) / sumf 0 (n - 1 - j) (fun i => C i j) else tail)%Qc); auto.
  - intros i j L. rewrite E. apply ind_init; auto. lia.
  - apply in_avg_specs; auto.
  - intros j Hj. rewrite ltb_if by lia. reflexivity.
  - rewrite nltb_if by lia. auto.
Qed.

(** ** C21, base_cl *)

Lemma c21_base_simple gm m n C ind (w : nat -> nat -> bool) v cl tail : regular m n C -> positive n C -> 2 < n ->
  tail_fits (m_cols m) -> clvi m = Ok cl ->
  (forall i j, i + j < n - 1 -> cell ind i j = Fin (if w i j then 1 else 0)%Qc) ->
  (forall j, j < n - 1 -> w (n - 2 - j) j = true) ->
  exists r, base_cl gm (mkTri m "origin" "dev" v) cl ind (SelLabel "all-simple") (Fin tail)
              = (SelLabel "all-simple", Ok r) /\
     c_ldfs r = map (fun j => (nth j (m_cols m) 0%Z,
        Fin (if S j <? n then mean (map (fun i => (C i (S j) / C i j)%Qc) (filter (fun i => w i j) (seq 0 (n - 1 - j))))
             else tail))) (seq 0 n).
Proof.
  intros R P Hn Ev Hcl Hi Hl.
  apply (base_cl_label gm m n C ind w v cl Simple 0 tail
           (fun j => if S j <? n then mean (map (fun i => (C i (S j) / C i j)%Qc) (filter (fun i => w i j) (seq 0 (n - 1 - j)))) else tail)); auto.
  - apply in_avg_specs; auto.
  - intros j Hj. rewrite ltb_if by lia. reflexivity.
  - rewrite nltb_if by lia. auto.
Qed.
Lemma c21_base_weighted gm m n C ind (w : nat -> nat -> bool) v cl tail : regular m n C -> positive n C -> 2 < n ->
  tail_fits (m_cols m) -> clvi m = Ok cl ->
  (forall i j, i + j < n - 1 -> cell ind i j = Fin (if w i j then 1 else 0)%Qc) ->
  (forall j, j < n - 1 -> w (n - 2 - j) j = true) ->
  base_cl gm (mkTri m "origin" "dev" v) cl ind (SelLabel "all-weighted") (Fin tail)
  = base_cl gm (mkTri m "origin" "dev" v) cl (a2aind_init m) (SelLabel "all-weighted") (Fin tail).
Proof.
  intros R P Hn Ev Hcl Hi Hl.
  destruct (base_cl_label gm m n C ind w v cl Weighted 0 tail
           (fun j => if S j <? n then sumf 0 (n - 1 - j) (fun i => C i (S j)) / sumf 0 (n - 1 - j) (fun i => C i j) else tail)%Qc)
    as (r & B & L); auto.
  - apply in_avg_specs; auto.
  - intros j Hj. rewrite ltb_if by lia. reflexivity.
  - rewrite nltb_if by lia. auto.
  - destruct (c23_all_weighted gm m n C v cl tail R P Hn Ev Hcl) as (r' & B' & L').
    etransitivity; [exact B|]. rewrite B'. f_equal. f_equal.
    apply base_cl_inv in B as (_ & B). apply base_cl_inv in B' as (_ & B'). rewrite L in B. rewrite L' in B'.
    rewrite B in B'. injection B' as ->. auto.
Qed.

(** ** C26 *)

Lemma a2a_avgs_row gm m ind avgs s row : a2a_avgs gm m ind = Ok avgs ->
  find (fun p => String.eqb (fst p) s) avgs = Some row -> length (snd row) = ncols (a2a m).
Proof.
  unfold a2a_avgs. intros H F. apply find_some in F as (F & _).
  destruct (In_nth _ _ row F) as (i & Hi & E). assert (L := mapM_length _ _ _ H).
  assert (K := mapM_nth _ _ _ i (Simple, 0) row H ltac:(lia)). rewrite E in K.
  destruct (mapM (one_avg _ _ _ _ _) _) as [x|] eqn:Q; cbn [bind] in K; [|discriminate]. injection K as <-. cbn [snd].
  apply mapM_length in Q. rewrite seq_length in Q. auto.
Qed.

Lemma combine_snoc {A B} (a : list A) (b : list B) x y : length a = length b ->
  combine (a ++ [x]) (b ++ [y]) = combine a b ++ [(x, y)].
Proof. revert b. induction a; destruct b; simpl; intros; try discriminate; auto. f_equal. auto. Qed.

Lemma firstn_snoc (l : list Z) n : length l = n -> 0 < n -> firstn (n - 1) l ++ [nth (n - 1) l 0%Z] = l.
Proof.
  intros L H. rewrite <- firstn_map_nth by lia.
  assert (Er : seq 0 n = seq 0 (n - 1) ++ [n - 1]) by (replace n with (S (n - 1)) at 1 by lia; rewrite seq_S; auto).
  transitivity (map (fun i => nth i l 0%Z) (seq 0 n)).
  - rewrite Er, map_app. auto.
  - rewrite <- L. apply map_nth_seq.
Qed.

Section C26.
  Variables (gm : list val -> val) (m : lmat) (n : nat) (C : nat -> nat -> Qc) (ind : list (list val)).
  Hypothesis R : regular m n C.
  Hypothesis P : positive n C.
  Hypothesis Hn : 2 < n.
  Hypothesis Ev : tail_fits (m_cols m).

  Lemma m_facts : zsorted (m_idx m) /\ zsorted (m_cols m) /\ length (m_idx m) = n /\ length (m_cols m) = n /\
    m_cols (a2a m) = firstn (n - 1) (m_cols m).
  Proof.
    apply regular_rmat in R as (E & So & Sd & Lo & Ld). repeat split; auto.
    rewrite E. rewrite (r_a2a _ _ n C) by (auto; lia). auto.
  Qed.
  Lemma last_not_in : ~ In (nth (n - 1) (m_cols m) 0%Z) (firstn (n - 1) (m_cols m)).
  Proof.
    destruct m_facts as (So & Sd & Lo & Ld & _). assert (N := zsorted_nodup _ Sd).
    rewrite <- (firstn_snoc (m_cols m) n) in N by (auto; lia).
    apply NoDup_remove_2 in N. rewrite app_nil_r in N. auto.
  Qed.

  Lemma label_ldfs avgs s row tail : a2a_avgs gm m ind = Ok avgs ->
    find (fun p => String.eqb (fst p) s) avgs = Some row ->
    ldfs_of_label gm m ind s tail = Ok (combine (m_cols m) (snd row ++ [tail])).
  Proof.
    intros A F. destruct m_facts as (So & Sd & Lo & Ld & Ec).
    assert (Lr := a2a_avgs_row _ _ _ _ _ _ A F). unfold ncols in Lr. rewrite Ec in Lr.
    unfold ldfs_of_label. rewrite A. cbn [bind]. rewrite F, Ec.
    rewrite (increment_ev _ n) by (auto; lia). cbn [bind]. rewrite (zmax_firstn _ n) by (auto; lia).
    replace (nth (n - 2) (m_cols m) 0 + (nth (n - 1) (m_cols m) 0 - nth (n - 2) (m_cols m) 0))%Z
      with (nth (n - 1) (m_cols m) 0%Z) by lia.
    assert (L1 : length (firstn (n - 1) (m_cols m)) = length (snd row)) by auto.
    assert (Mf : forall (x : list Z) (y : list val), length x = length y -> map fst (combine x y) = x).
    { clear. induction x; destruct y; simpl; intros; try discriminate; auto. f_equal; auto. }
    rewrite sset_append by (rewrite Mf by auto; apply last_not_in).
    rewrite <- combine_snoc by auto. rewrite firstn_snoc by (auto; lia). f_equal.
    apply zsorted_zvsort. rewrite Mf; auto. rewrite app_length, Lr, firstn_length. simpl. lia.
  Qed.

  Lemma c26_list avgs s row tail t cl : t_mat t = m -> a2a_avgs gm m ind = Ok avgs ->
    find (fun p => String.eqb (fst p) s) avgs = Some row ->
    snd (base_cl gm t cl ind (SelSeq (snd row)) tail) = snd (base_cl gm t cl ind (SelLabel s) tail).
  Proof.
    intros T A F. destruct m_facts as (So & Sd & Lo & Ld & Ec).
    assert (Lr := a2a_avgs_row _ _ _ _ _ _ A F). unfold ncols in Lr. rewrite Ec, firstn_length in Lr.
    unfold base_cl, select_ldfs. rewrite T, (label_ldfs avgs s row) by auto.
    rewrite app_length. unfold ncols. rewrite Ld. simpl length. destruct (Nat.eqb_spec (length (snd row) + 1) n); [auto|lia].
  Qed.

  Lemma c26_series avgs s row tail t cl : t_mat t = m -> a2a_avgs gm m ind = Ok avgs ->
    find (fun p => String.eqb (fst p) s) avgs = Some row ->
    snd (base_cl gm t cl ind (SelSeries (combine (m_cols (a2a m)) (snd row))) tail)
    = snd (base_cl gm t cl ind (SelLabel s) tail).
  Proof.
    intros T A F. destruct m_facts as (So & Sd & Lo & Ld & Ec).
    assert (Lr := a2a_avgs_row _ _ _ _ _ _ A F). unfold ncols in Lr. rewrite Ec in *.
    unfold base_cl, select_ldfs. rewrite T, (label_ldfs avgs s row) by auto.
    rewrite combine_length, Lr, Nat.min_id, firstn_length. unfold ncols. rewrite Ld.
    rewrite Nat.min_l by lia. rewrite Nat.eqb_refl.
    assert (Mf : forall (x : list Z) (y : list val), length x = length y -> map fst (combine x y) = x).
    { clear. induction x; destruct y; simpl; intros; try discriminate; auto. f_equal; auto. }
    rewrite Mf by auto. rewrite (increment_ev _ n) by (auto; lia). rewrite (zmax_firstn _ n) by (auto; lia).
    replace (nth (n - 2) (m_cols m) 0 + (nth (n - 1) (m_cols m) 0 - nth (n - 2) (m_cols m) 0))%Z
      with (nth (n - 1) (m_cols m) 0%Z) by lia.
    rewrite sset_append by (rewrite Mf by auto; apply last_not_in).
    rewrite <- combine_snoc by auto. rewrite firstn_snoc by (auto; lia). cbn [snd].
    assert (Q : map (fun d => (d, slookup (combine (m_cols m) (snd row ++ [tail])) d)) (m_cols m)
              = combine (m_cols m) (snd row ++ [tail])).
    { assert (Ll : length (m_cols m) = length (snd row ++ [tail])).
      { rewrite app_length, Lr, firstn_length. simpl. lia. }
      revert Ll. assert (N := zsorted_nodup _ Sd). revert N. generalize (snd row ++ [tail]). generalize (m_cols m).
      clear. induction l as [|d l IH]; intros [|x y] N Ll; simpl in Ll; try discriminate; auto. cbn [map combine].
      inversion N; subst. f_equal.
      - unfold slookup. simpl. rewrite Z.eqb_refl. auto.
      - etransitivity; [|apply IH; auto]. apply map_ext_in. intros e He. f_equal. unfold slookup. simpl.
        destruct (Z.eqb_spec d e); [subst; contradiction|]. auto. }
    rewrite Q. auto.
  Qed.
End C26.

Lemma c26_wrong_length gm t cl ind l tail : length l <> ncols (t_mat t) - 1 -> 0 < ncols (t_mat t) ->
  snd (base_cl gm t cl ind (SelSeq l) tail) = Err ValueError.
Proof.
  intros H Hn. unfold base_cl, select_ldfs. rewrite app_length. simpl length.
  destruct (Nat.eqb_spec (length l + 1) (ncols (t_mat t))); [lia|]. auto.
Qed.
Lemma c26_wrong_length_series gm t cl ind s tail : length s <> ncols (t_mat t) - 1 ->
  base_cl gm t cl ind (SelSeries s) tail = (SelSeries s, Err ValueError).
Proof.
  intros H. unfold base_cl, select_ldfs. destruct (Nat.eqb_spec (length s) (ncols (t_mat t) - 1)); [lia|]. auto.
Qed.

Lemma zmin_in l : l <> [] -> In (zmin l) l.
Proof.
  induction l as [|x l IH]; [congruence|]. intros _. destruct l as [|y l]; [left; auto|].
  change (zmin (x :: y :: l)) with (Z.min x (zmin (y :: l))). destruct (Z.min_spec x (zmin (y :: l))) as [[_ ->]|[_ ->]].
  - left; auto.
  - right. apply IH. discriminate.
Qed.
Lemma steps_pos l : zsorted l -> forall x, In x (steps l) -> (0 < x)%Z.
Proof.
  induction 1 as [|a l Hs IH F]; simpl; [intros; contradiction|]. destruct l as [|b l]; [intros; contradiction|].
  intros x [<-|H]; auto. rewrite Forall_forall in F. specialize (F b (or_introl eq_refl)). lia.
Qed.
Lemma zmax_ge l x : In x l -> (x <= zmax l)%Z.
Proof.
  induction l as [|a l IH]; [contradiction|]. intro H. destruct l as [|b l].
  - destruct H as [->|[]]. simpl. lia.
  - change (zmax (a :: b :: l)) with (Z.max a (zmax (b :: l))). destruct H as [->|H]; [lia|]. specialize (IH H). lia.
Qed.

Lemma c26_series_mutated gm t cl ind (s : series) tail : increasing (map fst s) -> 2 <= length s ->
  length s = ncols (t_mat t) - 1 ->
  exists d, fst (base_cl gm t cl ind (SelSeries s) tail) = SelSeries (s ++ [(d, tail)]) /\
    snd (base_cl gm t cl ind (SelSeries (s ++ [(d, tail)])) tail) = Err ValueError.
Proof.
  intros I L Le. unfold base_cl at 1, select_ldfs. rewrite Le, Nat.eqb_refl.
  destruct (increment (map fst s)) as [inc|e] eqn:Q.
  - exists (zmax (map fst s) + inc)%Z. cbn [fst]. split.
    + rewrite sset_append; auto. intro H.
      unfold increment in Q. destruct (steps (map fst s)) as [|x l] eqn:Es; [discriminate|].
      assert (Eq : inc = zmin (x :: l)) by congruence. clear Q. 
      assert (Hz : (0 < zmin (x :: l))%Z).
      { apply (steps_pos (map fst s) I). rewrite Es. apply zmin_in. discriminate. }
      apply zmax_ge in H. rewrite <- Eq in Hz. lia.
    + rewrite c26_wrong_length_series; auto. rewrite app_length. simpl. lia.
  - exfalso. unfold increment in Q. destruct (steps (map fst s)) eqn:Es; [|discriminate].
    destruct s as [|a [|b s]]; simpl in *; try lia. discriminate.
Qed.

(** ** C25 *)

Definition scaled (c : Qc) (v : val) : val := vmul (Fin c) v.

Section C25.
  Variables (m m' : lmat) (n : nat) (C : nat -> nat -> Qc) (c : Qc).
  Hypothesis R : regular m n C.
  Hypothesis R' : regular m' n (fun i j => c * C i j)%Qc.
  Hypothesis Hc : (0 < c)%Qc.
  Hypothesis P : positive n C.
  Hypothesis Hn : 1 < n.
  Hypothesis Ei : m_idx m' = m_idx m.
  Hypothesis Ec : m_cols m' = m_cols m.

  Lemma scaled_positive : positive n (fun i j => c * C i j)%Qc.
  Proof. intros i j L. apply qc_mul_pos; auto. Qed.
  Lemma scaled_a2a : a2a m' = a2a m.
  Proof.
    apply regular_rmat in R as (E & So & Sd & Lo & Ld). apply regular_rmat in R' as (E' & So' & Sd' & Lo' & Ld').
    rewrite E, E'. rewrite (r_a2a _ _ n C) by (auto; lia). rewrite (r_a2a _ _ n (fun i j => c * C i j)%Qc) by (auto using scaled_positive; lia).
    rewrite Ei, Ec. unfold rmat. f_equal. unfold mk. apply map_seq_ext. intros i Hi. apply map_seq_ext. intros j Hj.
    unfold rc. destruct (Nat.ltb_spec (i + j) (n - 1)); auto. f_equal. unfold link. field. split; apply qc_pos_neq; auto.
    apply P. lia.
  Qed.
  Lemma scaled_weighted k j : j < n - 1 -> weighted_avg m' k j = weighted_avg m k j.
  Proof.
    intro Hj.
    apply regular_rmat in R as (E & So & Sd & Lo & Ld). apply regular_rmat in R' as (E' & So' & Sd' & Lo' & Ld').
    rewrite E, E'. rewrite (weighted_eq _ _ n C) by (auto; lia).
    rewrite (weighted_eq _ _ n (fun i j => c * C i j)%Qc) by (auto using scaled_positive; lia).
    rewrite !qsum_map_mulc. do 2 f_equal. field.
    split; apply qc_pos_neq; auto. apply qsum_pos.
    - intro Q. apply map_eq_nil in Q. assert (L := rows_last k (n - 1 - j)). rewrite Q in L. apply L. lia.
    - intros x Hx. apply in_map_iff in Hx as (i & <- & Hi). apply in_rows in Hi. apply P. lia.
  Qed.
  Lemma scaled_ncols_a2a : ncols (a2a m) = n - 1.
  Proof.
    apply regular_rmat in R as (E & So & Sd & Lo & Ld). rewrite E. rewrite (r_a2a _ _ n C) by (auto; lia).
    unfold ncols, rmat. cbn [m_cols]. rewrite firstn_length. lia.
  Qed.
  Lemma scaled_avgs gm ind : a2a_avgs gm m' ind = a2a_avgs gm m ind.
  Proof.
    unfold a2a_avgs. rewrite scaled_a2a. apply mapM_ext. intros [a k] _. cbn [fst snd].
    rewrite (mapM_ext (one_avg gm m' ind a k) (one_avg gm m ind a k)); auto.
    intros j Hj. apply in_seq in Hj. rewrite scaled_ncols_a2a in Hj. unfold one_avg, a2a_adj. rewrite scaled_a2a.
    destruct a; auto. apply scaled_weighted. lia.
  Qed.
  Lemma scaled_select gm ind sel tail : select_ldfs gm m' ind sel tail = select_ldfs gm m ind sel tail.
  Proof.
    unfold select_ldfs, ldfs_of_label, ncols. destruct sel; rewrite ?scaled_avgs, ?scaled_a2a, ?Ec; auto.
  Qed.

  Lemma c25 gm v cl ind sel tail sel' r (f : nat -> Qc) : clvi m = Ok cl ->
    base_cl gm (mkTri m "origin" "dev" v) cl ind sel tail = (sel', Ok r) ->
    c_ldfs r = map (fun j => (nth j (m_cols m) 0%Z, Fin (f j))) (seq 0 n) ->
    clvi m' = Ok cl /\
    exists r', base_cl gm (mkTri m' "origin" "dev" v) cl ind sel tail = (sel', Ok r') /\
      c_ldfs r' = c_ldfs r /\
      c_rows r' = map (fun row => mkRow (s_origin row) (s_maturity row) (s_cldf row) (s_emergence row)
          (scaled c (s_latest row)) (scaled c (s_ultimate row)) (scaled c (s_reserve row))) (c_rows r) /\
      c_total r' = (scaled c (fst (fst (c_total r))), scaled c (snd (fst (c_total r))), scaled c (snd (c_total r))).
  Proof.
    intros Hcl H Hf. assert (B := H). apply base_cl_inv in B as (Hs & Hch).
    destruct (c23_regular gm m n C v cl ind sel tail sel' r f R ltac:(lia) Hcl H Hf) as (Ra & Rt & _).
    assert (Ss := scaled_select gm ind sel tail).
    apply regular_rmat in R as (E & So & Sd & Lo & Ld). apply regular_rmat in R' as (E' & So' & Sd' & Lo' & Ld').
    rewrite E, (r_clvi _ _ n C) in Hcl by (auto; lia). injection Hcl as <-.
    split. { rewrite E', (r_clvi _ _ n (fun i j => c * C i j)%Qc) by (auto; lia). auto. }
    assert (Q := r_chain_ladder (m_idx m') (m_cols m') n (fun i j => c * C i j)%Qc So' Sd' Lo' Ld' ltac:(lia) f v tail).
    unfold fser in Q. rewrite <- E' in Q. rewrite Ec in Q.
    eexists. split; [|split; [|split]].
    - eapply base_cl_intro; [|exact Q]. cbn [t_mat] in *. rewrite Ss, <- Hf. exact Hs.
    - cbn [c_ldfs]. auto.
    - cbn [c_rows]. rewrite Ra, map_map. apply map_seq_ext. intros i Hi. unfold rrow, scaled. cbn [s_origin s_maturity s_cldf s_emergence s_latest s_ultimate s_reserve vmul].
      rewrite Ei. unfold cdf. cbv zeta. f_equal; f_equal; ring.
    - cbn [c_total]. rewrite Rt. cbn [fst snd]. unfold scaled. cbn [vmul].
      f_equal; [f_equal|]; f_equal; rewrite <- sumf_mulc; apply sumf_ext; intros; unfold cdf; ring.
  Qed.
End C25.

Lemma c23_rows gm m n C v cl ind sel tail sel' r (f : nat -> Qc) : regular m n C -> 0 < n -> clvi m = Ok cl ->
  base_cl gm (mkTri m "origin" "dev" v) cl ind sel tail = (sel', Ok r) ->
  c_ldfs r = map (fun j => (nth j (m_cols m) 0%Z, Fin (f j))) (seq 0 n) ->
  c_rows r = map (fun i => let k := n - 1 - i in let cldf := prodf k (n - k) f in
      mkRow (nth i (m_idx m) 0%Z) (nth k (m_cols m) 0%Z) (Fin cldf) (vdiv (Fin 1%Qc) (Fin cldf))
            (Fin (C i k)) (Fin (C i k * cldf)%Qc) (Fin (C i k * cldf - C i k)%Qc)) (seq 0 n).
Proof. intros. eapply c23_regular; eauto. Qed.

Lemma c26_lengths gm t cl ind l (s : series) tail : 0 < ncols (t_mat t) ->
  (List.length l <> ncols (t_mat t) - 1 -> snd (base_cl gm t cl ind (SelSeq l) tail) = Err ValueError) /\
  (List.length s <> ncols (t_mat t) - 1 -> snd (base_cl gm t cl ind (SelSeries s) tail) = Err ValueError).
Proof.
  intro H. split; intro L; [apply c26_wrong_length; auto|]. rewrite c26_wrong_length_series; auto.
Qed.
Lemma c26_unmodified gm t cl ind l s tail :
  fst (base_cl gm t cl ind (SelSeq l) tail) = SelSeq l /\ fst (base_cl gm t cl ind (SelLabel s) tail) = SelLabel s.
Proof. split; reflexivity. Qed.
