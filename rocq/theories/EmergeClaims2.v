(** Proofs of C83 for mack_cl, C84 and C85. *)

From Coq Require Import String QArith Qcanon ZArith List Bool Lia Permutation Sorting.Sorted.
From Verif Require Import Val Frame Triangle A2A Base Mack Diag ListLib QcLib Spec SpecRel SpecEmerge CumFacts RegFacts AvgFacts AvgClaims AvgClaims2
  BaseClaims MackFacts MackExplicit RelFacts RelClaims RelClaims2 EmergeClaims.
Import ListNotations.
Open Scope list_scope.
Open Scope nat_scope.

Section EmergeMack.
  Variables (n : nat) (C C' : nat -> nat -> Qc) (W W' : nat -> nat -> Qc) (al : nat).
  Hypothesis Hn : 3 < n.
  Hypothesis P : positive n C.
  Hypothesis P' : positive (S n) C'.
  Hypothesis K : kept_inclusions n W W'.
  Hypothesis Wn : forall i j, i + j < n - 1 -> (0 <= W i j)%Qc.
  Hypothesis Wc : forall j, j < n - 1 -> exists i, i + j < n - 1 /\ (0 < W i j)%Qc.
  Hypothesis Wn' : forall i j, i + j < n -> (0 <= W' i j)%Qc.
  Hypothesis Wc' : forall j, j < n -> exists i, i + j < n /\ (0 < W' i j)%Qc.
  Let f := xf n C W al.
  Hypothesis Em : emerges n C C' f.

  Lemma emx_den j : j < n -> sumf 0 (S n - 1 - j) (fun i => W' i j * C' i j ^ al)%Qc
    = (sumf 0 (n - 1 - j) (fun i => W i j * C i j ^ al) + W' (n - 1 - j)%nat j * C (n - 1 - j)%nat j ^ al)%Qc.
  Proof.
    intro Hj. replace (S n - 1 - j) with (S (n - 1 - j)) by lia. rewrite sumf_Sr. cbn [plus].
    rewrite (em_old n C C' f Em (n - 1 - j) j) by lia. f_equal. apply sumf_ext. intros i Hi.
    rewrite K by lia. rewrite (em_old n C C' f Em) by lia. auto.
  Qed.
  Lemma emx_num j : j < n -> sumf 0 (S n - 1 - j) (fun i => W' i j * C' i j ^ al * (C' i (S j) / C' i j))%Qc
    = (sumf 0 (n - 1 - j) (fun i => W i j * C i j ^ al * (C i (S j) / C i j)) + W' (n - 1 - j)%nat j * C (n - 1 - j)%nat j ^ al * f j)%Qc.
  Proof.
    intro Hj. replace (S n - 1 - j) with (S (n - 1 - j)) by lia. rewrite sumf_Sr. cbn [plus].
    rewrite (em_old n C C' f Em (n - 1 - j) j) by lia.
    assert (L := em_link_new n C C' f Em P j Hj). unfold link in L. rewrite (em_old n C C' f Em (n - 1 - j) j) in L by lia. rewrite L.
    f_equal. apply sumf_ext. intros i Hi.
    rewrite K by lia. rewrite !(em_old n C C' f Em) by lia. auto.
  Qed.
  Lemma emx_f j : j < n -> xf (S n) C' W' al j = f j.
  Proof.
    intro Hj. unfold xf. rewrite ltb_if by lia. rewrite emx_num by auto.
    assert (D := xden_pos (S n) C' W' al j P').
    specialize (D ltac:(intros; apply Wn'; lia)). destruct (Wc' j Hj) as (i & Hi & Wp). specialize (D ltac:(exists i; split; auto; lia)).
    rewrite emx_den in * by auto.
    destruct (Nat.eq_dec j (n - 1)) as [E|E].
    - subst j. replace (n - 1 - (n - 1)) with 0 in * by lia. rewrite !sumf_0 in *.
      assert (F1 : f (n - 1) = 1%Qc) by (unfold f, xf; rewrite nltb_if by lia; auto). 
      rewrite F1. set (x := (W' 0 (n - 1)%nat * C 0 (n - 1)%nat ^ al)%Qc) in *. field. apply qc_pos_neq. clear - D. qlra.
    - assert (D0 := xden_pos n C W al j P Wn (Wc j ltac:(lia))).
      assert (F1 : (sumf 0 (n - 1 - j) (fun i => W i j * C i j ^ al * (C i (S j) / C i j))
                   = f j * sumf 0 (n - 1 - j) (fun i => W i j * C i j ^ al))%Qc).
      { unfold f, xf. rewrite ltb_if by lia. field. apply qc_pos_neq. auto. }
      rewrite F1. field. apply qc_pos_neq. auto.
  Qed.
  Lemma emx_f_last : xf (S n) C' W' al n = 1%Qc.
  Proof. unfold xf. rewrite nltb_if by lia. auto. Qed.
  (** The squared deviations: the new ratio adds none. *)
  Lemma emx_s2 j : j < n - 2 -> xs2 (S n) C' W' al j = (xs2 n C W al j * (qn (n - 2 - j) / qn (n - 1 - j)))%Qc.
  Proof.
    intro Hj. unfold xs2, sigma2. fold f. rewrite emx_f by lia.
    replace (S n - 2 - j) with (n - 1 - j) by lia. replace (S n - 1 - j) with (S (n - 1 - j)) by lia. rewrite sumf_Sr. cbn [plus].
    assert (L := em_link_new n C C' f Em P j ltac:(lia)). unfold link in L. rewrite L.
    rewrite (sumf_ext 0 (n - 1 - j) (fun i => W' i j * C' i j ^ al * ((C' i (S j) / C' i j - f j) * (C' i (S j) / C' i j - f j)))%Qc
              (fun i => W i j * C i j ^ al * ((C i (S j) / C i j - f j) * (C i (S j) / C i j - f j)))%Qc).
    2:{ intros i Hi. rewrite K by lia. rewrite !(em_old n C C' f Em) by lia. auto. }
    assert (Q1 : (0 < qn (n - 2 - j))%Qc) by (apply qn_pos; lia). assert (Q2 : (0 < qn (n - 1 - j))%Qc) by (apply qn_pos; lia).
    field. split; apply qc_pos_neq; auto.
  Qed.
End EmergeMack.

Lemma mack_emerges m m' n C C' ind ind' W W' al v cl cl' tail tail' k (f : nat -> Qc) :
  regular m n C -> positive n C -> 3 < n -> tail_fits (m_cols m) -> clvi m = Ok cl -> weights ind n W ->
  regular m' (S n) C' -> positive (S n) C' -> tail_fits (m_cols m') -> clvi m' = Ok cl' -> weights ind' (S n) W' ->
  kept_inclusions n W W' ->
  mack_cl (mkTri m "origin" "dev" v) cl ind al tail = Ok k ->
  map snd (c_ldfs (k_cl k)) = map (fun j => Fin (f j)) (seq 0 n) ->
  emerges n C C' f ->
  exists k', mack_cl (mkTri m' "origin" "dev" v) cl' ind' al tail' = Ok k' /\
    map snd (c_ldfs (k_cl k')) = map snd (c_ldfs (k_cl k)) ++ [Fin 1%Qc] /\
    map s_ultimate (firstn n (c_rows (k_cl k'))) = map s_ultimate (c_rows (k_cl k)) /\
    (forall i, i < n -> nth i (map s_reserve (c_rows (k_cl k'))) NaN
       = vsub (nth i (map s_reserve (c_rows (k_cl k))) NaN) (Fin (C' i (n - i)%nat - C i (n - 1 - i)%nat)%Qc)) /\
    (forall j, j < n - 2 -> nth j (map snd (k_devpvar k')) NaN
       = vmul (nth j (map snd (k_devpvar k)) NaN) (Fin (qn (n - 2 - j) / qn (n - 1 - j))%Qc)).
Proof.
  intros R P Hn Ev D Hw R' P' Ev' D' Hw' K M L Em.
  rewrite (mack_explicit m n C ind W al v cl tail R P Hn Ev D Hw) in M. injection M as <-.
  eexists. split; [apply (mack_explicit m' (S n) C' ind' W'); auto; lia|].
  destruct Hw as (_ & Wn & Wc). destruct Hw' as (_ & Wn' & Wc').
  assert (Em' : emerges n C C' (xf n C W al)).
  { destruct Em as (E1 & E2). split; auto. intros i Hi. rewrite E2 by auto. do 2 f_equal.
    cbn [k_cl c_ldfs mack_pure] in L. rewrite map_map in L. cbn [snd] in L.
    assert (Q := f_equal (fun z => nth (n - 1 - i) z NaN) L). cbn beta in Q. rewrite !nth_map_seq in Q by lia. injection Q as Q. symmetry. exact Q. }
  clear Em L f.
  assert (F : forall j, j < n -> xf (S n) C' W' al j = xf n C W al j).
  { intros j Hj. apply emx_f; auto.
    - intros i' j' H; apply Wn'; lia.
    - intros j' H. destruct (Wc' j' ltac:(lia)) as (i & H1 & H2). exists i. split; [lia|auto]. }
  assert (U : forall i, i < n -> (C' i (n - i)%nat * prodf (n - i) (S i) (xf (S n) C' W' al) = C i (n - 1 - i)%nat * prodf (n - 1 - i) (S i) (xf n C W al))%Qc).
  { intros i H. apply (em_ult n C C'); auto. apply emx_f_last; auto. }
  unfold mack_pure, xrow. cbn [k_cl c_ldfs c_rows k_devpvar]. rewrite !map_map. cbn [snd s_ultimate s_reserve].
  split; [|split; [|split]].
  - rewrite seq_S, map_app. cbn [map plus]. rewrite emx_f_last by auto. f_equal.
    apply map_seq_ext. intros j Hj. rewrite F by lia. auto.
  - rewrite firstn_map, map_map. cbn [s_ultimate]. rewrite seq_S, firstn_app, seq_length, Nat.sub_diag.
    cbn [firstn]. rewrite app_nil_r, firstn_all2 by (rewrite seq_length; auto).
    apply map_seq_ext. intros i H. f_equal. unfold xcdf, xlat. replace (S n - 1 - i) with (n - i) by lia. apply U. lia.
  - intros i H. rewrite !nth_map_seq by lia. cbn [plus]. unfold xcdf, xlat. replace (S n - 1 - i) with (n - i) by lia.
    rewrite U by auto. cbn. f_equal. ring.
  - intros j Hj. rewrite !nth_map_seq by lia. cbn [plus]. unfold xmissing, xs.
    assert (T1 : (j <? n - 2) = true) by (apply Nat.ltb_lt; lia). assert (T2 : (j <? S n - 2) = true) by (apply Nat.ltb_lt; lia).
    rewrite T1, T2. cbn [negb]. rewrite !andb_false_r. cbn [vmul]. f_equal.
    apply emx_s2; auto.
    + intros i' j' H; apply Wn'; lia.
    + intros j' H. destruct (Wc' j' ltac:(lia)) as (i & H1 & H2). exists i. split; [lia|auto].
Qed.

(** ** C84 *)
Lemma avg_from d n C C' (w w' : nat -> nat -> bool) gm a k j : same_from d n C C' ->
  (forall i j, i + j < n - 1 -> d <= j -> w' i j = w i j) -> d <= j -> j < n - 1 ->
  avgval n C' w' gm a k j = avgval n C w gm a k j.
Proof.
  intros Sf Sw Hd Hj.
  assert (Kk : kept n w' k j = kept n w k j).
  { unfold kept. apply filter_ext_in. intros i Hi. apply in_rows in Hi. apply Sw; lia. }
  assert (Lk : map (fun i => link C' i j) (kept n w' k j) = map (fun i => link C i j) (kept n w k j)).
  { rewrite Kk. apply map_ext_in. intros i Hi. unfold kept in Hi. apply filter_In in Hi as [Hi _]. apply in_rows in Hi.
    unfold link. rewrite !Sf by lia. auto. }
  unfold avgval. rewrite Lk. destruct a; auto.
  rewrite (map_ext_in (fun i => C' i (S j)) (fun i => C i (S j))) by (intros i Hi; apply in_rows in Hi; apply Sf; lia).
  rewrite (map_ext_in (fun i => C' i j) (fun i => C i j)) by (intros i Hi; apply in_rows in Hi; apply Sf; lia). auto.
Qed.
Lemma firstn_map_seq_k {A} (g : nat -> A) k n : k <= n -> firstn k (map g (seq 0 n)) = map g (seq 0 k).
Proof.
  intro H. rewrite firstn_map. f_equal. replace n with (k + (n - k)) by lia. rewrite seq_app, firstn_app, seq_length, Nat.sub_diag.
  cbn [firstn]. rewrite app_nil_r. apply firstn_all2. rewrite seq_length. auto.
Qed.
Lemma skipn_map_seq_k {A} (g : nat -> A) k n : k <= n -> skipn k (map g (seq 0 n)) = map g (seq k (n - k)).
Proof.
  intro H. rewrite skipn_map. f_equal. replace n with (k + (n - k)) at 1 by lia. rewrite seq_app, skipn_app, seq_length, Nat.sub_diag.
  cbn [skipn plus]. rewrite skipn_all2 by (rewrite seq_length; auto). auto.
Qed.

Lemma base_from gm m m' n C C' d ind ind' (w w' : nat -> nat -> bool) v cl s (tail : Qc) r r' (f f' : nat -> Qc) :
  regular m n C -> regular m' n C' -> positive n C -> positive n C' -> 2 < n -> d <= n ->
  m_idx m' = m_idx m -> m_cols m' = m_cols m -> tail_fits (m_cols m) -> clvi m = Ok cl ->
  (forall i j, i + j < n - 1 -> cell ind i j = Fin (if w i j then 1 else 0)%Qc) ->
  (forall i j, i + j < n - 1 -> cell ind' i j = Fin (if w' i j then 1 else 0)%Qc) ->
  (forall j, j < n - 1 -> w (n - 2 - j) j = true /\ w' (n - 2 - j) j = true) ->
  same_from d n C C' -> (forall i j, i + j < n - 1 -> d <= j -> w' i j = w i j) ->
  snd (base_cl gm (mkTri m "origin" "dev" v) cl ind (SelLabel s) (Fin tail)) = Ok r ->
  snd (base_cl gm (mkTri m' "origin" "dev" v) cl ind' (SelLabel s) (Fin tail)) = Ok r' ->
  map snd (c_ldfs r) = map (fun j => Fin (f j)) (seq 0 n) -> map snd (c_ldfs r') = map (fun j => Fin (f' j)) (seq 0 n) ->
  skipn d (c_ldfs r') = skipn d (c_ldfs r) /\ firstn (n - d) (c_rows r') = firstn (n - d) (c_rows r).
Proof.
  intros R R' P P' Hn Hd Ei Ec Ev D Hi Hi' Hl Sf Sw B B' L L'.
  assert (D' := clvi_same m m' n C C' cl R R' ltac:(lia) D).
  destruct (base_label_inv gm m n C ind w v cl s tail r f R P Hn Ev D Hi) as (-> & a & k & Es & I & Av & Ft); auto.
  { intros; apply Hl; auto. }
  destruct (base_label_inv gm m' n C' ind' w' v cl s tail r' f' R' P' Hn) as (-> & a' & k' & Es' & I' & Av' & Ft'); auto.
  { rewrite Ec. auto. } { intros; apply Hl; auto. }
  assert (Q : a' = a /\ k' = k) by (apply avg_label_inj; congruence). destruct Q as (-> & ->).
  assert (F : forall j, d <= j -> j < n -> f' j = f j).
  { intros j H1 H2. destruct (Nat.eq_dec j (n - 1)) as [->|Nj]; [congruence|].
    assert (A := avg_from d n C C' w w' gm a k j Sf Sw H1 ltac:(lia)). rewrite Av, Av' in A by lia. injection A as A. exact A. }
  unfold base_pure. cbn [c_ldfs c_rows]. rewrite Ei, Ec. rewrite !skipn_map_seq_k, !firstn_map_seq_k by lia. split.
  - apply map_ext_in. intros j Hj. apply in_seq in Hj. rewrite F by lia. auto.
  - apply map_seq_ext. intros i H. cbv zeta.
    rewrite (prodf_ext (n - 1 - i) (S i) f' f) by (intros j Hj; apply F; lia). rewrite !Sf by lia. auto.
Qed.

Section From.
  Variables (d n : nat) (C C' W W' : nat -> nat -> Qc) (al : nat).
  Hypothesis Sf : same_from d n C C'.
  Hypothesis Sw : forall i j, i + j < n - 1 -> d <= j -> W' i j = W i j.

  Lemma fr_den j : d <= j -> sumf 0 (n - 1 - j) (fun i => W' i j * C' i j ^ al)%Qc = sumf 0 (n - 1 - j) (fun i => W i j * C i j ^ al)%Qc.
  Proof. intro H. apply sumf_ext. intros i Hi. rewrite Sf, Sw by lia. auto. Qed.
  Lemma fr_xf j : d <= j -> xf n C' W' al j = xf n C W al j.
  Proof.
    intro H. unfold xf. destruct (Nat.ltb_spec (S j) n); auto. rewrite fr_den by auto. f_equal. apply sumf_ext. intros i Hi.
    rewrite !Sf, Sw by lia. auto.
  Qed.
  Lemma fr_xs2 j : d <= j -> xs2 n C' W' al j = xs2 n C W al j.
  Proof.
    intro H. unfold xs2, sigma2. f_equal. apply sumf_ext. intros i Hi. rewrite fr_xf by lia. rewrite !Sf, Sw by lia. auto.
  Qed.
  Lemma fr_cdf i : i < n - d -> xcdf n C' W' al i = xcdf n C W al i.
  Proof. intro H. unfold xcdf. apply prodf_ext. intros. apply fr_xf. lia. Qed.
  Lemma fr_lat i : i < n - d -> xlat n C' i = xlat n C i.
  Proof. intro H. unfold xlat. apply Sf; lia. Qed.
  Lemma fr_proj i j : i < n - d -> projected n C' (xf n C' W' al) i j = projected n C (xf n C W al) i j.
  Proof. intro H. unfold projected. rewrite Sf by lia. f_equal. apply prodf_ext. intros. apply fr_xf. lia. Qed.

  Hypothesis Hd : d <= n - 4.
  Lemma fr_deg : xdeg n C' W' al = xdeg n C W al.
  Proof. unfold xdeg. rewrite !fr_xs2 by lia. auto. Qed.
  Lemma fr_xs j : d <= j -> xs n C' W' al j = xs n C W al j.
  Proof. intro H. unfold xs. destruct (Nat.ltb_spec j (n - 2)); [apply fr_xs2; lia|]. unfold xlast. rewrite !fr_xs2 by lia. auto. Qed.
  Lemma fr_xu j : d <= j -> xu n C' W' al j = xu n C W al j.
  Proof. intro H. unfold xu. rewrite fr_xs, fr_den by auto. auto. Qed.
  Lemma fr_proc i : i < n - d -> xproc n C' W' al i = xproc n C W al i.
  Proof.
    intro H. unfold xproc. rewrite fr_deg. destruct (xdeg n C W al); auto. rewrite fr_proj by auto. f_equal.
    apply sumf_ext. intros j Hj. rewrite fr_xs, fr_xf by lia. rewrite fr_proj by auto. auto.
  Qed.
  Lemma fr_param i : i < n - d -> xparam n C' W' al i = xparam n C W al i.
  Proof.
    intro H. unfold xparam. rewrite fr_deg. destruct (xdeg n C W al); auto. rewrite fr_lat by auto.
    rewrite (prodf_ext _ _ _ (fun j => xf n C W al j * xf n C W al j + xu n C W al j)%Qc) by (intros; rewrite fr_xf, fr_xu by lia; auto).
    rewrite (prodf_ext _ _ (fun j => xf n C' W' al j * xf n C' W' al j)%Qc (fun j => xf n C W al j * xf n C W al j)%Qc) by (intros; rewrite fr_xf by lia; auto).
    auto.
  Qed.
End From.

Lemma mack_from m m' n C C' d ind ind' W W' al v cl tail tail' k k' :
  regular m n C -> regular m' n C' -> positive n C -> positive n C' -> 3 < n -> d <= n ->
  m_idx m' = m_idx m -> m_cols m' = m_cols m -> tail_fits (m_cols m) -> clvi m = Ok cl ->
  weights ind n W -> weights ind' n W' ->
  same_from d n C C' -> (forall i j, i + j < n - 1 -> d <= j -> W' i j = W i j) ->
  mack_cl (mkTri m "origin" "dev" v) cl ind al tail = Ok k ->
  mack_cl (mkTri m' "origin" "dev" v) cl ind' al tail' = Ok k' ->
  skipn d (c_ldfs (k_cl k')) = skipn d (c_ldfs (k_cl k)) /\
  firstn (n - d) (c_rows (k_cl k')) = firstn (n - d) (c_rows (k_cl k)) /\
  (d <= n - 4 ->
    skipn d (k_devpvar k') = skipn d (k_devpvar k) /\ skipn d (k_ldfvar k') = skipn d (k_ldfvar k) /\
    firstn (n - d) (k_proc k') = firstn (n - d) (k_proc k) /\
    firstn (n - d) (k_param k') = firstn (n - d) (k_param k) /\
    firstn (n - d) (k_mse k') = firstn (n - d) (k_mse k)).
Proof.
  intros R R' P P' Hn Hd Ei Ec Ev D Hw Hw' Sf Sw K K'.
  assert (D' := clvi_same m m' n C C' cl R R' ltac:(lia) D).
  rewrite (mack_explicit m n C ind W al v cl tail R P Hn Ev D Hw) in K. injection K as <-.
  rewrite (mack_explicit m' n C' ind' W' al v cl tail' R' P' Hn ltac:(rewrite Ec; auto) D' Hw') in K'. injection K' as <-.
  rewrite Ei, Ec. unfold mack_pure. cbn [k_cl c_ldfs c_rows k_devpvar k_ldfvar k_proc k_param k_mse].
  split; [|split].
  - rewrite !skipn_map_seq_k by lia. apply map_ext_in. intros j Hj. apply in_seq in Hj. rewrite (fr_xf d n C C' W W') by (auto; lia). auto.
  - rewrite !firstn_map_seq_k by lia. apply map_seq_ext. intros i Hi. unfold xrow.
    rewrite (fr_cdf d n C C' W W'), (fr_lat d n C C') by (auto; lia). auto.
  - intro Hd4. split; [|split; [|split; [|split]]].
    + rewrite !skipn_map_seq_k by lia. apply map_ext_in. intros j Hj. apply in_seq in Hj. unfold xmissing.
      rewrite (fr_deg d n C C' W W'), (fr_xs d n C C' W W') by (auto; lia). auto.
    + rewrite !skipn_map_seq_k by lia. apply map_ext_in. intros j Hj. apply in_seq in Hj. unfold xmissing.
      rewrite (fr_deg d n C C' W W'), (fr_xu d n C C' W W') by (auto; lia). auto.
    + rewrite !firstn_map_seq_k by lia. apply map_seq_ext. intros i Hi. rewrite (fr_proc d n C C' W W') by (auto; lia). auto.
    + rewrite !firstn_map_seq_k by lia. apply map_seq_ext. intros i Hi. rewrite (fr_param d n C C' W W') by (auto; lia). auto.
    + rewrite !firstn_map_seq_k by lia. apply map_seq_ext. intros i Hi. unfold xmse.
      rewrite (fr_proc d n C C' W W'), (fr_param d n C C' W W') by (auto; lia). auto.
Qed.

(** ** C85 *)
Section Rows.
  Variables (n : nat) (C : nat -> nat -> Qc) (e : nat -> Qc).
  Hypothesis P : positive n C.
  Hypothesis Pe : forall i, i < n -> (0 < e i)%Qc.
  Let C' := (fun i j => e i * C i j)%Qc.

  Lemma rw_pos : positive n C'.
  Proof. intros i j H. apply qc_mul_pos; auto. apply Pe. lia. Qed.
  Lemma rw_link i j : i + S j < n -> (C' i (S j) / C' i j = C i (S j) / C i j)%Qc.
  Proof.
    intro H. unfold C'. field. split; apply qc_pos_neq; [apply P; lia|apply Pe; lia].
  Qed.
  Lemma rw_avg (w : nat -> nat -> bool) gm a k j : a <> Weighted -> j < n - 1 ->
    avgval n C' w gm a k j = avgval n C w gm a k j.
  Proof.
    intros Ha Hj. assert (Lk : map (fun i => link C' i j) (kept n w k j) = map (fun i => link C i j) (kept n w k j)).
    { apply map_ext_in. intros i Hi. unfold kept in Hi. apply filter_In in Hi as [Hi _]. apply in_rows in Hi. apply rw_link. lia. }
    unfold avgval. rewrite Lk. destruct a; auto. congruence.
  Qed.
  Variables (W : nat -> nat -> Qc).
  Lemma rw_den j : sumf 0 (n - 1 - j) (fun i => W i j * C' i j ^ 0)%Qc = sumf 0 (n - 1 - j) (fun i => W i j * C i j ^ 0)%Qc.
  Proof. apply sumf_ext. intros. reflexivity. Qed.
  Lemma rw_xf j : xf n C' W 0 j = xf n C W 0 j.
  Proof.
    unfold xf. destruct (Nat.ltb_spec (S j) n); auto. rewrite rw_den. f_equal. apply sumf_ext. intros i Hi.
    rewrite rw_link by lia. auto.
  Qed.
  Lemma rw_xs2 j : xs2 n C' W 0 j = xs2 n C W 0 j.
  Proof. unfold xs2, sigma2. f_equal. apply sumf_ext. intros i Hi. rewrite rw_link, rw_xf by lia. auto. Qed.
  Lemma rw_deg : xdeg n C' W 0 = xdeg n C W 0.
  Proof. unfold xdeg. rewrite !rw_xs2. auto. Qed.
  Lemma rw_xs j : xs n C' W 0 j = xs n C W 0 j.
  Proof. unfold xs, xlast. rewrite !rw_xs2. auto. Qed.
  Lemma rw_xu j : xu n C' W 0 j = xu n C W 0 j.
  Proof. unfold xu. rewrite rw_xs, rw_den. auto. Qed.
  Lemma rw_cdf i : xcdf n C' W 0 i = xcdf n C W 0 i.
  Proof. unfold xcdf. apply prodf_ext. intros. apply rw_xf. Qed.
  Lemma rw_proj i j : projected n C' (xf n C' W 0) i j = (e i * projected n C (xf n C W 0) i j)%Qc.
  Proof.
    unfold projected. rewrite (prodf_ext _ _ (xf n C' W 0) (xf n C W 0)) by (intros; apply rw_xf). unfold C'. ring.
  Qed.
  Lemma rw_proc i : i < n -> xproc n C' W 0 i = (e i * xproc n C W 0 i)%Qc.
  Proof.
    intro Hi. unfold xproc. rewrite rw_deg. destruct (xdeg n C W 0); [ring|]. rewrite rw_proj.
    assert (Ne : e i <> 0%Qc) by (apply qc_pos_neq, Pe; auto).
    rewrite (sumf_mulc_ext _ _ (/ e i)%Qc _ (fun j => xs n C W 0 j / (xf n C W 0 j * xf n C W 0 j) / projected n C (xf n C W 0) i j)%Qc).
    - field. auto.
    - intros j Hj. rewrite rw_xs, rw_xf, rw_proj. set (y := (xs n C W 0 j / (xf n C W 0 j * xf n C W 0 j))%Qc).
      unfold Qcdiv. rewrite Qcinv_mult_distr. ring.
  Qed.
  Lemma rw_param i : xparam n C' W 0 i = (e i ^ 2 * xparam n C W 0 i)%Qc.
  Proof.
    unfold xparam. rewrite rw_deg. destruct (xdeg n C W 0); [ring|]. unfold xlat, C'. fold C'.
    rewrite (prodf_ext _ _ _ (fun j => xf n C W 0 j * xf n C W 0 j + xu n C W 0 j)%Qc) by (intros; rewrite rw_xf, rw_xu; auto).
    rewrite (prodf_ext _ _ (fun j => xf n C' W 0 j * xf n C' W 0 j)%Qc (fun j => xf n C W 0 j * xf n C W 0 j)%Qc) by (intros; rewrite rw_xf; auto).
    unfold Qcpower. ring.
  Qed.
End Rows.

Lemma not_weighted s a k : ~ volume_weighted s -> s = avg_label a k -> a <> Weighted.
Proof.
  intros N -> ->. apply N. unfold avg_label. destruct (Nat.eqb_spec k 0) as [->|_]; [left; reflexivity|]. right. exists k. reflexivity.
Qed.
Lemma rows_scaled {A} (g : nat -> A) (h : nat -> A -> A) n :
  map (fun p => h (fst p) (snd p)) (combine (seq 0 n) (map g (seq 0 n))) = map (fun i => h i (g i)) (seq 0 n).
Proof.
  rewrite <- (map_id (seq 0 n)) at 1. rewrite combine_map_lr, map_map. reflexivity.
Qed.
Lemma units_row e o d c em l u s : in_units e (mkRow o d (Fin c) em (Fin l) (Fin u) (Fin s)) = mkRow o d (Fin c) em (Fin (e * l)%Qc) (Fin (e * u)%Qc) (Fin (e * s)%Qc).
Proof. reflexivity. Qed.

Lemma base_rows gm m m' n C (e : nat -> Qc) ind (w : nat -> nat -> bool) v cl s (tail : Qc) r (f : nat -> Qc) :
  regular m n C -> regular m' n (fun i j => e i * C i j)%Qc -> positive n C -> (forall i, i < n -> (0 < e i)%Qc) -> 2 < n ->
  m_idx m' = m_idx m -> m_cols m' = m_cols m -> tail_fits (m_cols m) -> clvi m = Ok cl ->
  (forall i j, i + j < n - 1 -> cell ind i j = Fin (if w i j then 1 else 0)%Qc) ->
  (forall j, j < n - 1 -> w (n - 2 - j) j = true) ->
  ~ volume_weighted s ->
  snd (base_cl gm (mkTri m "origin" "dev" v) cl ind (SelLabel s) (Fin tail)) = Ok r ->
  map snd (c_ldfs r) = map (fun j => Fin (f j)) (seq 0 n) ->
  exists r', snd (base_cl gm (mkTri m' "origin" "dev" v) cl ind (SelLabel s) (Fin tail)) = Ok r' /\
    c_ldfs r' = c_ldfs r /\
    c_rows r' = map (fun p => in_units (e (fst p)) (snd p)) (combine (seq 0 n) (c_rows r)).
Proof.
  intros R R' P Pe Hn Ei Ec Ev D Hi Hl Nv B L.
  assert (D' := clvi_same m m' n C _ cl R R' ltac:(lia) D).
  destruct (base_label_inv gm m n C ind w v cl s tail r f R P Hn Ev D Hi Hl B L) as (-> & a & k & Es & I & Av & Ft).
  assert (Na := not_weighted s a k Nv Es). subst s.
  assert (Ev' : tail_fits (m_cols m')) by (rewrite Ec; auto).
  assert (Av' : forall j, j < n - 1 -> avgval n (fun i j => e i * C i j)%Qc w gm a k j = Fin (f j)).
  { intros j Hj. rewrite rw_avg by auto. apply Av. auto. }
  destruct (base_cl_label gm m' n (fun i j => e i * C i j)%Qc ind w v cl a k tail f R' (rw_pos n C e P Pe) Hn Ev' D' Hi Hl I Av' Ft) as (r' & B' & L').
  - exists r'. rewrite B'. split; auto.
    destruct (base_pure_inv gm m' n _ v cl ind _ _ _ r' f R' ltac:(lia) D' B' L') as (-> & _).
    rewrite Ei, Ec. unfold base_pure. cbn [c_ldfs c_rows]. split; auto.
    rewrite (rows_scaled _ (fun i x => in_units (e i) x)). apply map_seq_ext. intros i H. cbv zeta. rewrite units_row. f_equal; f_equal; ring.
Qed.

Lemma mack_rows m m' n C (e : nat -> Qc) ind W v cl tail k :
  regular m n C -> regular m' n (fun i j => e i * C i j)%Qc -> positive n C -> (forall i, i < n -> (0 < e i)%Qc) -> 3 < n ->
  m_idx m' = m_idx m -> m_cols m' = m_cols m -> tail_fits (m_cols m) -> clvi m = Ok cl -> weights ind n W ->
  mack_cl (mkTri m "origin" "dev" v) cl ind 0 tail = Ok k ->
  exists k', mack_cl (mkTri m' "origin" "dev" v) cl ind 0 tail = Ok k' /\
    c_ldfs (k_cl k') = c_ldfs (k_cl k) /\
    c_rows (k_cl k') = map (fun p => in_units (e (fst p)) (snd p)) (combine (seq 0 n) (c_rows (k_cl k))) /\
    k_devpvar k' = k_devpvar k /\ k_ldfvar k' = k_ldfvar k /\
    k_proc k' = map (fun p => vmul (Fin (e (fst p))) (snd p)) (combine (seq 0 n) (k_proc k)) /\
    k_param k' = map (fun p => vmul (Fin (e (fst p) ^ 2)%Qc) (snd p)) (combine (seq 0 n) (k_param k)).
Proof.
  intros R R' P Pe Hn Ei Ec Ev D Hw K.
  assert (D' := clvi_same m m' n C _ cl R R' ltac:(lia) D).
  rewrite (mack_explicit m n C ind W 0 v cl tail R P Hn Ev D Hw) in K. injection K as <-.
  eexists. split; [apply (mack_explicit m' n _ ind W 0 v cl tail R' (rw_pos n C e P Pe) Hn ltac:(rewrite Ec; auto) D' Hw)|].
  rewrite Ei, Ec. unfold mack_pure. cbn [k_cl c_ldfs c_rows k_devpvar k_ldfvar k_proc k_param].
  split; [apply map_seq_ext; intros; rewrite rw_xf by auto; auto|].
  split. { rewrite (rows_scaled _ (fun i x => in_units (e i) x)). apply map_seq_ext. intros i Hi. unfold xrow. rewrite units_row, rw_cdf by auto. unfold xlat.
           f_equal; f_equal; ring. }
  split; [apply map_seq_ext; intros; unfold xmissing; rewrite rw_deg, rw_xs by auto; auto|].
  split; [apply map_seq_ext; intros; unfold xmissing; rewrite rw_deg, rw_xu by auto; auto|].
  split.
  - rewrite (rows_scaled (fun i => Fin (xproc n C W 0 i)) (fun i x => vmul (Fin (e i)) x)). apply map_seq_ext. intros i Hi.
    rewrite rw_proc by (auto; lia). reflexivity.
  - rewrite (rows_scaled (fun i => Fin (xparam n C W 0 i)) (fun i x => vmul (Fin (e i ^ 2)%Qc) x)). apply map_seq_ext. intros i Hi.
    rewrite rw_param by auto. reflexivity.
Qed.

(** The development-period tests see the link ratios only. *)
Lemma rows_a2a m m' n C (e : nat -> Qc) :
  regular m n C -> regular m' n (fun i j => e i * C i j)%Qc -> positive n C -> (forall i, i < n -> (0 < e i)%Qc) -> 1 < n ->
  m_idx m' = m_idx m -> m_cols m' = m_cols m -> a2a m' = a2a m.
Proof.
  intros R R' P Pe Hn Ei Ec. apply regular_rmat in R as (E & So & Sd & Lo & Ld). apply regular_rmat in R' as (E' & So' & Sd' & Lo' & Ld').
  rewrite E, E'. rewrite (r_a2a _ _ n C) by (auto; lia). rewrite (r_a2a _ _ n (fun i j => e i * C i j)%Qc) by (auto using rw_pos; lia).
  rewrite Ei, Ec. unfold rmat. f_equal. unfold mk. apply map_seq_ext. intros i Hi. apply map_seq_ext. intros j Hj.
  unfold rc. destruct (Nat.ltb_spec (i + j) (n - 1)); auto. f_equal. unfold link. apply (rw_link n C e P Pe). lia.
Qed.

Lemma rows_tests m m' : a2a m' = a2a m -> m_cols m' = m_cols m ->
  spearman_coeffs m' = spearman_coeffs m /\ spearman_total m' = spearman_total m /\ cy_effects_table m' = cy_effects_table m.
Proof.
  intros E Ec. assert (S1 : spearman_coeffs m' = spearman_coeffs m).
  { unfold spearman_coeffs, ranked_a2a, a2a_lvi, ncols. rewrite E, Ec. auto. }
  split; auto. split; [unfold spearman_total; rewrite S1; auto|].
  assert (H : forall o d, hl_at m' o d = hl_at m o d) by (intros; unfold hl_at, a2a_assignment; rewrite E; auto).
  assert (Cc : forall js ds os, cy_counts m' ds os js = cy_counts m ds os js).
  { induction js as [|j js IH]; intros ds os; auto. cbn [cy_counts]. rewrite IH.
    rewrite (map_ext (fun p => hl_at m' (fst p) (snd p)) (fun p => hl_at m (fst p) (snd p))) by (intro; apply H). auto. }
  unfold cy_effects_table, a2a_lvi. rewrite E. cbv zeta.
  destruct (mapM _ _) as [lvi|]; cbn [bind]; auto. destruct (item _); cbn [bind]; auto. destruct (item _); cbn [bind]; auto.
  rewrite Cc. auto.
Qed.
