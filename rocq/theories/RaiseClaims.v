(** Proofs of C96. *)

From Coq Require Import String QArith Qcanon ZArith List Bool Lia Permutation Sorting.Sorted.
From Verif Require Import Val Frame Triangle A2A Base Mack ListLib QcLib Spec SpecRel SpecEmerge SpecRaise CumFacts RegFacts AvgFacts AvgClaims AvgClaims2
  BaseClaims MackFacts MackExplicit RelFacts RelClaims RelClaims2 EmergeClaims EmergeClaims2 PeriodClaims.
Import ListNotations.
Open Scope list_scope.
Open Scope nat_scope.

Lemma inner_perm l lo hi : NoDup l -> In lo l -> In hi l -> lo <> hi -> Permutation l (lo :: hi :: inner lo hi l).
Proof.
  intros N A B D. apply NoDup_Permutation; auto.
  - constructor; [|constructor].
    + intros [H|H]; [congruence|]. apply in_inner in H. tauto.
    + intro H. apply in_inner in H. tauto.
    + apply NoDup_filter. auto.
  - intro x. cbn [In]. rewrite in_inner. destruct (qceqb_spec x lo) as [->|E1]; [tauto|]. destruct (qceqb_spec x hi) as [->|E2]; [tauto|].
    split; [tauto|]. intros [H|[H|H]]; try congruence. tauto.
Qed.
Lemma qsum_perm l l' : Permutation l l' -> qsum l = qsum l'.
Proof. induction 1; cbn [qsum fold_right] in *; auto; try congruence; unfold qsum in *; cbn [fold_right]; ring. Qed.
Lemma qsum_update (K : list nat) (x x' : nat -> Qc) t : NoDup K -> In t K -> (forall i, In i K -> i <> t -> x' i = x i) ->
  qsum (map x' K) = (qsum (map x K) + (x' t - x t))%Qc.
Proof.
  induction K as [|k K IH]; intros N I H; [contradiction|]. inversion N as [|? ? Nk NK]; subst. unfold qsum in *. cbn [map fold_right].
  destruct (Nat.eq_dec k t) as [->|D].
  - assert (E : map x' K = map x K).
    { apply map_ext_in. intros i Hi. apply H; [right; auto|]. intros ->. contradiction. }
    rewrite E. ring.
  - destruct I as [I|I]; [congruence|]. rewrite IH; auto.
    + rewrite (H k) by (auto; left; auto). ring.
    + intros i Hi Di. apply H; auto. right. auto.
Qed.

Lemma medial_mono (K : list nat) (x x' : nat -> Qc) t q q' : NoDup K -> In t K ->
  (forall i, In i K -> i <> t -> x' i = x i) -> (x t <= x' t)%Qc -> NoDup (map x K) -> NoDup (map x' K) ->
  medial_avg (map Fin (map x K)) = Ok (Fin q) -> medial_avg (map Fin (map x' K)) = Ok (Fin q') -> (q <= q')%Qc.
Proof.
  intros NK It Ex Le Nx Nx' M M'.
  assert (U := qsum_update K x x' t NK It Ex).
  destruct K as [|a [|b [|c K]]].
  - contradiction.
  - destruct It as [->|[]]. change (map Fin (map x [t])) with (map Fin [x t]) in M. change (map Fin (map x' [t])) with (map Fin [x' t]) in M'.
    rewrite (medial_equal [x t] (x t)) in M by (try discriminate; intros y [<-|[]]; auto).
    rewrite (medial_equal [x' t] (x' t)) in M' by (try discriminate; intros y [<-|[]]; auto). congruence.
  - change (map Fin (map x [a; b])) with [Fin (x a); Fin (x b)] in M. change (map Fin (map x' [a; b])) with [Fin (x' a); Fin (x' b)] in M'.
    cbn [map] in Nx, Nx'.
    rewrite medial_pair in M by (inversion Nx as [|? ? H _]; subst; intro Q; apply H; left; auto).
    rewrite medial_pair in M' by (inversion Nx' as [|? ? H _]; subst; intro Q; apply H; left; auto).
    injection M as <-. injection M' as <-. unfold qsum in U. cbn [map fold_right] in U.
    apply Qcmult_le_compat_r; [|discriminate]. qlra.
  - set (L := a :: b :: c :: K) in *.
    destruct (min_max (map x L)) as (lo & hi & A1 & A2 & A3); [discriminate|].
    destruct (min_max (map x' L)) as (lo' & hi' & B1 & B2 & B3); [discriminate|].
    assert (D : forall y : nat -> Qc, forall l h, NoDup (map y L) -> In l (map y L) -> In h (map y L) -> (forall z, In z (map y L) -> (l <= z <= h)%Qc) -> l <> h).
    { intros y l h N Hl Hh B ->. cbn [L map] in N. inversion N as [|? ? H _]; subst. apply H. left.
      destruct (B (y a) ltac:(left; auto)), (B (y b) ltac:(right; left; auto)). apply Qcle_antisym; qlra. }
    assert (D1 := D x lo hi Nx A1 A2 A3). assert (D2 := D x' lo' hi' Nx' B1 B2 B3).
    rewrite (medial_inner (map x L) lo hi) in M by (auto; rewrite map_length; simpl; lia).
    rewrite (medial_inner (map x' L) lo' hi') in M' by (auto; rewrite map_length; simpl; lia).
    assert (P1 := inner_perm _ _ _ Nx A1 A2 D1). assert (P2 := inner_perm _ _ _ Nx' B1 B2 D2).
    assert (S1 := qsum_perm _ _ P1). assert (S2 := qsum_perm _ _ P2). unfold qsum in S1, S2 at 2. cbn [fold_right] in S1, S2.
    apply Permutation_length in P1, P2. rewrite map_length in P1, P2. cbn [length] in P1, P2.
    assert (E1 : mean (inner lo hi (map x L)) = q) by (destruct (inner lo hi (map x L)); [discriminate|congruence]).
    assert (E2 : mean (inner lo' hi' (map x' L)) = q') by (destruct (inner lo' hi' (map x' L)); [discriminate|congruence]).
    rewrite <- E1, <- E2. unfold mean. assert (El : length (inner lo' hi' (map x' L)) = length (inner lo hi (map x L))) by lia.
    rewrite El. unfold Qcdiv. apply Qcmult_le_compat_r.
    2:{ destruct (inner lo hi (map x L)) as [|z i]; [discriminate|]. apply Qclt_le_weak, qc_inv_pos. apply qn_pos. simpl. lia. }
    (* the extremes *)
    apply in_map_iff in A1 as (k1 & K1 & I1). apply in_map_iff in A2 as (k2 & K2 & I2).
    apply in_map_iff in B1 as (l1 & L1 & J1). apply in_map_iff in B2 as (l2 & L2 & J2).
    assert (Ax : forall i, In i L -> (lo <= x i <= hi)%Qc) by (intros i Hi; apply A3, in_map; auto).
    assert (Bx : forall i, In i L -> (lo' <= x' i <= hi')%Qc) by (intros i Hi; apply B3, in_map; auto).
    assert (Key : (hi' + lo' <= hi + lo + (x' t - x t))%Qc).
    { assert (F : forall i, In i L -> i <> t -> x' i = x i) by auto.
      destruct (Nat.eq_dec l2 t) as [->|T2].
      - destruct (Nat.eq_dec k1 t) as [->|T1].
        + assert (k2 <> t) by congruence. assert (G := proj1 (Bx k2 I2)). rewrite (F k2) in G by auto. rewrite K2 in G. qlra.
        + assert (G := proj1 (Bx k1 I1)). rewrite (F k1) in G by auto. rewrite K1 in G. assert (G2 := proj2 (Ax t It)). qlra.
      - assert (G1 := proj2 (Ax l2 J2)). rewrite <- (F l2) in G1 by auto. rewrite L2 in G1.
        destruct (Nat.eq_dec k1 t) as [->|T1].
        + assert (G := proj1 (Bx t It)). qlra.
        + assert (G := proj1 (Bx k1 I1)). rewrite (F k1) in G by auto. rewrite K1 in G. qlra. }
    unfold qsum in U. rewrite S1 in U. unfold qsum in S2. rewrite S2 in U. unfold qsum in *. qlra.
Qed.

Lemma F2_seq (g h : nat -> Qc) N : (forall i, i < N -> (g i <= h i)%Qc) -> Forall2 Qcle (map g (seq 0 N)) (map h (seq 0 N)).
Proof.
  intro H. assert (Q : forall i, In i (seq 0 N) -> (g i <= h i)%Qc) by (intros i Hi; apply in_seq in Hi; apply H; lia).
  clear H. induction (seq 0 N) as [|x l IH]; cbn [map]; [constructor|].
  constructor; [apply Q; left; auto|apply IH; intros; apply Q; right; auto].
Qed.
Lemma nl_seq (g h : nat -> Qc) N : (forall i, i < N -> (g i <= h i)%Qc) ->
  not_lower (map (fun i => Fin (g i)) (seq 0 N)) (map (fun i => Fin (h i)) (seq 0 N)).
Proof. intro H. exists (map g (seq 0 N)), (map h (seq 0 N)). rewrite !map_map. split; auto. split; auto. apply F2_seq. auto. Qed.

Lemma nl_one x y : (x <= y)%Qc -> not_lower [Fin x] [Fin y].
Proof. intro H. exists [x], [y]. repeat split. constructor; auto. Qed.

Section Raise.
  Variables (n : nat) (C C' : nat -> nat -> Qc) (w : nat -> nat -> bool).
  Hypothesis Up : latest_raised n C C'.
  Hypothesis P : positive n C.
  Hypothesis Hn : 2 < n.

  Lemma up_base i j : i + S j < n -> C' i j = C i j.
  Proof. intro H. apply (proj1 Up). lia. Qed.
  Lemma up_cell i j : i + j < n -> (C i j <= C' i j)%Qc.
  Proof.
    intro H. destruct (Nat.eq_dec (i + j) (n - 1)) as [E|E].
    - replace j with (n - 1 - i) by lia. apply Up. lia.
    - rewrite (proj1 Up) by lia. apply Qcle_refl.
  Qed.
  Lemma up_link i j : i + S j < n -> (link C i j <= link C' i j)%Qc.
  Proof.
    intro H. unfold link. rewrite (up_base i j) by auto. unfold Qcdiv. apply Qcmult_le_compat_r; [apply up_cell; auto|].
    apply Qclt_le_weak, qc_inv_pos, P. lia.
  Qed.
  Lemma up_link_other i j : i + S j < n -> i <> n - 2 - j -> link C' i j = link C i j.
  Proof. intros H D. unfold link. rewrite (up_base i j) by auto. rewrite (proj1 Up i (S j)) by lia. auto. Qed.

  Lemma kept_row k j i : In i (kept n w k j) -> i + S j < n /\ w i j = true.
  Proof. unfold kept. rewrite filter_In. intros (A & B). apply in_rows in A. split; auto. lia. Qed.
  Lemma kept_nodup k j : NoDup (kept n w k j).
  Proof. unfold kept. apply NoDup_filter. rewrite rows_of_eq. apply seq_NoDup. Qed.

  Lemma up_avg gm a k j q q' : monotone_mean gm -> j < n - 1 -> w (n - 2 - j) j = true ->
    (a = Medial -> no_ties n C w /\ no_ties n C' w) ->
    avgval n C w gm a k j = Fin q -> avgval n C' w gm a k j = Fin q' -> (q <= q')%Qc.
  Proof.
    intros G Hj Hw T E E'.
    assert (It : In (n - 2 - j) (kept n w k j)).
    { unfold kept. apply filter_In. split; auto. replace (n - 2 - j) with (n - 1 - j - 1) by lia. apply rows_last. lia. }
    destruct a; unfold avgval in E, E'.
    - injection E as <-. injection E' as <-. unfold mean. rewrite !map_length. unfold Qcdiv. apply Qcmult_le_compat_r.
      + apply qsum_le. intros i Hi. apply up_link. apply (kept_row k j i Hi).
      + apply Qclt_le_weak, qc_inv_pos, qn_pos. destruct (kept n w k j); [contradiction|simpl; lia].
    - refine (G _ _ _ _ _ _ _ E E').
      + destruct (kept n w k j); [contradiction|discriminate].
      + intros x Hx. apply in_map_iff in Hx as (i & <- & Hi). destruct (kept_row k j i Hi). unfold link. apply qc_div_pos; apply P; lia.
      + assert (Q : forall i, In i (kept n w k j) -> (link C i j <= link C' i j)%Qc) by (intros i Hi; apply up_link, (kept_row k j i Hi)).
        clear - Q. induction (kept n w k j) as [|x l IH]; cbn [map]; [constructor|].
        constructor; [apply Q; left; auto|apply IH; intros; apply Q; right; auto].
    - destruct (T eq_refl) as (T1 & T2).
      destruct (medial_avg (map Fin (map (fun i => link C i j) (kept n w k j)))) as [v|] eqn:M; [|discriminate]. subst v.
      destruct (medial_avg (map Fin (map (fun i => link C' i j) (kept n w k j)))) as [v|] eqn:M'; [|discriminate]. subst v.
      assert (ND : forall D, no_ties n D w -> NoDup (map (fun i => link D i j) (kept n w k j))).
      { intros D HD. assert (K := kept_nodup k j). assert (Q := kept_row k j). clear - K Q HD.
        induction K as [|x l Nx _ IH]; cbn [map]; [constructor|]. constructor.
        - intro H. apply in_map_iff in H as (y & E & Hy). destruct (Q x ltac:(left; auto)), (Q y ltac:(right; auto)).
          apply (HD y x j); auto. intros ->. contradiction.
        - apply IH. intros i Hi. apply Q. right. auto. }
      refine (medial_mono (kept n w k j) _ _ (n - 2 - j) q q' (kept_nodup k j) It _ _ (ND C T1) (ND C' T2) M M').
      + intros i Hi Di. apply up_link_other; auto. apply (kept_row k j i Hi).
      + apply up_link. lia.
    - injection E as <-. injection E' as <-.
      assert (D : map (fun i => C' i j) (rows_of k (n - 1 - j)) = map (fun i => C i j) (rows_of k (n - 1 - j))).
      { apply map_ext_in. intros i Hi. apply in_rows in Hi. apply up_base. lia. }
      rewrite D. unfold Qcdiv. apply Qcmult_le_compat_r.
      + apply qsum_le. intros i Hi. apply in_rows in Hi. apply up_cell. lia.
      + apply Qclt_le_weak, qc_inv_pos, qsum_pos.
        * destruct (rows_of k (n - 1 - j)) eqn:E; [|discriminate]. assert (Q := rows_last k (n - 1 - j) ltac:(lia)). rewrite E in Q. contradiction.
        * intros x Hx. apply in_map_iff in Hx as (i & <- & Hi). apply in_rows in Hi. apply P. lia.
  Qed.

  (** Ultimates and reserves of factors that do not fall. *)
  Lemma up_ult (f f' : nat -> Qc) i : (forall j, j < n -> (0 <= f j /\ f j <= f' j)%Qc) -> i < n ->
    (C i (n - 1 - i)%nat * prodf (n - 1 - i) (S i) f <= C' i (n - 1 - i)%nat * prodf (n - 1 - i) (S i) f')%Qc.
  Proof.
    intros M Hi. destruct (prodf_mono (n - 1 - i) (S i) f f') as (A & B); [intros; apply M; lia|].
    assert (U := up_cell i (n - 1 - i) ltac:(lia)). assert (Q := P i (n - 1 - i) ltac:(lia)).
    set (c := C i (n - 1 - i)%nat) in *. set (c' := C' i (n - 1 - i)%nat) in *. set (p := prodf _ _ f) in *. set (p' := prodf _ _ f') in *.
    assert (X : (0 <= c * (p' - p) + (c' - c) * p')%Qc).
    { assert (0 <= c * (p' - p))%Qc by (apply qc_mul_nonneg; qlra). assert (0 <= (c' - c) * p')%Qc by (apply qc_mul_nonneg; qlra). qlra. }
    replace (c * (p' - p) + (c' - c) * p')%Qc with (c' * p' - c * p)%Qc in X by ring. qlra.
  Qed.
  Lemma up_res (f f' : nat -> Qc) i : (forall j, j < n -> (1 <= f j /\ f j <= f' j)%Qc) -> i < n ->
    (C i (n - 1 - i)%nat * prodf (n - 1 - i) (S i) f - C i (n - 1 - i)%nat
     <= C' i (n - 1 - i)%nat * prodf (n - 1 - i) (S i) f' - C' i (n - 1 - i)%nat)%Qc.
  Proof.
    intros M Hi. destruct (prodf_mono (n - 1 - i) (S i) f f') as (A & B).
    { intros j Hj. destruct (M j ltac:(lia)). split; auto. assert (0 <= 1)%Qc by discriminate. qlra. }
    destruct (prodf_mono (n - 1 - i) (S i) (fun _ => 1%Qc) f) as (_ & B1).
    { intros j Hj. destruct (M j ltac:(lia)). split; auto. discriminate. }
    assert (E1 : prodf (n - 1 - i) (S i) (fun _ => 1%Qc) = 1%Qc).
    { generalize (S i). intro N. generalize (n - 1 - i). induction N as [|N IH]; intro a; [reflexivity|]. rewrite prodf_Sl, IH. reflexivity. }
    rewrite E1 in B1.
    assert (U := up_cell i (n - 1 - i) ltac:(lia)). assert (Q := P i (n - 1 - i) ltac:(lia)).
    set (c := C i (n - 1 - i)%nat) in *. set (c' := C' i (n - 1 - i)%nat) in *. set (p := prodf _ _ f) in *. set (p' := prodf _ _ f') in *.
    assert (X : (0 <= c * (p' - p) + (c' - c) * (p' - 1))%Qc).
    { assert (0 <= c * (p' - p))%Qc by (apply qc_mul_nonneg; qlra). assert (0 <= (c' - c) * (p' - 1))%Qc by (apply qc_mul_nonneg; qlra). qlra. }
    replace (c * (p' - p) + (c' - c) * (p' - 1))%Qc with (c' * p' - c' - (c * p - c))%Qc in X by ring. qlra.
  Qed.
End Raise.

Lemma avg_nonneg gm m n C ind (w : nat -> nat -> bool) a k j q : regular m n C -> positive n C -> 2 < n ->
  (forall i j, i + j < n - 1 -> cell ind i j = Fin (if w i j then 1 else 0)%Qc) ->
  (forall j, j < n - 1 -> w (n - 2 - j) j = true) -> mean_like gm -> j < n - 1 ->
  avgval n C w gm a k j = Fin q -> (0 <= q)%Qc.
Proof.
  intros R P Hn Hi Hl G Hj E.
  assert (Hx : forall i, i < n - 1 - j -> (0 < link C i j)%Qc) by (intros i H; unfold link; apply qc_div_pos; apply P; lia).
  refine (proj1 (avgval_bounds gm n C w P ltac:(lia) Hl a k j 0%Qc (sumf 0 (n - 1 - j) (fun i => link C i j)) q G Hj _ E)).
  intros i H. split; [apply Qclt_le_weak, Hx; auto|]. fold (link C i j).
  replace (n - 1 - j) with (i + S (n - 1 - j - S i)) by lia. rewrite sumf_split, sumf_Sl.
  assert (A : forall a N, (a + N <= n - 1 - j)%nat -> (0 <= sumf a N (fun i => link C i j))%Qc).
  { intros a0 N HN. replace 0%Qc with (sumf a0 N (fun _ => 0%Qc)).
    - apply sumf_le. intros i0 H0. apply Qclt_le_weak, Hx. lia.
    - clear. revert a0. induction N as [|N IH]; intro a0; [reflexivity|]. rewrite sumf_Sl, IH. ring. }
  assert (A1 := A 0 i ltac:(lia)). assert (A2 := A (S (0 + i)) (n - 1 - j - S i) ltac:(lia)). cbn [plus] in *. qlra.
Qed.

Theorem base_raise gm m m' n C C' ind ind' (w : nat -> nat -> bool) v cl cl' s (tail : Qc) r r' (f f' : nat -> Qc) :
  regular m n C -> positive n C -> 2 < n -> tail_fits (m_cols m) -> clvi m = Ok cl ->
  regular m' n C' -> positive n C' -> tail_fits (m_cols m') -> clvi m' = Ok cl' ->
  (forall i j, i + j < n - 1 -> cell ind i j = Fin (if w i j then 1 else 0)%Qc) ->
  (forall i j, i + j < n - 1 -> cell ind' i j = Fin (if w i j then 1 else 0)%Qc) ->
  (forall j, j < n - 1 -> w (n - 2 - j) j = true) ->
  mean_like gm -> monotone_mean gm -> (0 <= tail)%Qc -> latest_raised n C C' ->
  (medial_label s -> no_ties n C w /\ no_ties n C' w) ->
  snd (base_cl gm (mkTri m "origin" "dev" v) cl ind (SelLabel s) (Fin tail)) = Ok r ->
  snd (base_cl gm (mkTri m' "origin" "dev" v) cl' ind' (SelLabel s) (Fin tail)) = Ok r' ->
  map snd (c_ldfs r) = map (fun j => Fin (f j)) (seq 0 n) ->
  map snd (c_ldfs r') = map (fun j => Fin (f' j)) (seq 0 n) ->
  not_lower (map snd (c_ldfs r)) (map snd (c_ldfs r')) /\
  not_lower (map s_ultimate (c_rows r)) (map s_ultimate (c_rows r')) /\
  not_lower [snd (fst (c_total r))] [snd (fst (c_total r'))] /\
  ((forall j, j < n -> (1 <= f j)%Qc) ->
   not_lower (map s_reserve (c_rows r)) (map s_reserve (c_rows r')) /\ not_lower [snd (c_total r)] [snd (c_total r')]).
Proof.
  intros R P Hn Ev D R' P' Ev' D' Hi Hi' Hl G Mo Ht Up T B B' L L'.
  destruct (base_label_inv gm m n C ind w v cl s tail r f R P Hn Ev D Hi Hl B L) as (Er & a & k & Es & I & Av & Ft).
  destruct (base_label_inv gm m' n C' ind' w v cl' s tail r' f' R' P' Hn Ev' D' Hi' Hl B' L') as (Er' & a' & k' & Es' & I' & Av' & Ft').
  assert (Q : a' = a /\ k' = k) by (apply avg_label_inj; congruence). destruct Q as (-> & ->).
  assert (M : forall j, j < n -> (0 <= f j /\ f j <= f' j)%Qc).
  { intros j Hj. destruct (Nat.eq_dec j (n - 1)) as [->|Nj].
    - rewrite Ft, Ft'. split; auto. apply Qcle_refl.
    - assert (Hj' : j < n - 1) by lia. split; [exact (avg_nonneg gm m n C ind w a k j (f j) R P Hn Hi Hl G Hj' (Av j Hj'))|].
      refine (up_avg n C C' w Up P Hn gm a k j _ _ Mo Hj' (Hl j Hj') _ (Av j Hj') (Av' j Hj')).
      intros ->. apply T. rewrite Es. unfold avg_label, medial_label. destruct (k =? 0) eqn:E; cbn; [left; reflexivity|right; eauto]. }
  rewrite L, L'. split; [apply nl_seq; intros; apply M; auto|]. clear L L' B B'. subst r r'.
  unfold base_pure. cbn [c_rows c_total fst snd]. rewrite !map_map. cbv zeta. cbn [s_ultimate s_reserve].
  split; [apply nl_seq; intros i H; apply up_ult; auto|]. split; [|intro F1; split].
  - exists [sumf 0 n (fun i => C i (n - 1 - i)%nat * prodf (n - 1 - i) (S i) f)%Qc], [sumf 0 n (fun i => C' i (n - 1 - i)%nat * prodf (n - 1 - i) (S i) f')%Qc].
    repeat split. constructor; auto. apply sumf_le. intros i H. apply up_ult; auto. lia.
  - apply nl_seq. intros i H. apply up_res; auto. intros j Hj. split; auto. apply M. auto.
  - exists [sumf 0 n (fun i => C i (n - 1 - i)%nat * prodf (n - 1 - i) (S i) f - C i (n - 1 - i)%nat)%Qc],
      [sumf 0 n (fun i => C' i (n - 1 - i)%nat * prodf (n - 1 - i) (S i) f' - C' i (n - 1 - i)%nat)%Qc].
    repeat split. constructor; auto. apply sumf_le. intros i H. apply up_res; auto; [|lia]. intros j Hj. split; auto. apply M. auto.
Qed.

Lemma xf_raise n C C' W al j : latest_raised n C C' -> positive n C -> 3 < n ->
  (forall i j, i + j < n - 1 -> (0 <= W i j)%Qc) -> (forall j, j < n - 1 -> exists i, i + j < n - 1 /\ (0 < W i j)%Qc) -> j < n ->
  (0 <= xf n C W al j /\ xf n C W al j <= xf n C' W al j)%Qc.
Proof.
  intros Up P Hn Wn Wc Hj. unfold xf. destruct (Nat.ltb_spec (S j) n) as [H|H]; [|split; discriminate].
  assert (Dn := xden_pos n C W al j P Wn (Wc j ltac:(lia))).
  assert (E : sumf 0 (n - 1 - j) (fun i => W i j * C' i j ^ al)%Qc = sumf 0 (n - 1 - j) (fun i => W i j * C i j ^ al)%Qc).
  { apply sumf_ext. intros i Hi. rewrite (proj1 Up i j) by lia. auto. }
  rewrite E.
  assert (Pw : forall i, i + j < n - 1 -> (0 <= W i j * C i j ^ al)%Qc).
  { intros i Hi. apply qc_mul_nonneg; auto. apply Qclt_le_weak, qpow_pos, P. lia. }
  unfold Qcdiv at 1 2 4. split.
  - apply qc_mul_nonneg; [|apply Qclt_le_weak, qc_inv_pos; auto].
    replace 0%Qc with (sumf 0 (n - 1 - j) (fun _ => 0%Qc)).
    + apply sumf_le. intros i Hi. apply qc_mul_nonneg; [apply Pw; lia|]. apply Qclt_le_weak, qc_div_pos; apply P; lia.
    + generalize (n - 1 - j). intro N. generalize 0. induction N as [|N IH]; intro a0; [reflexivity|]. rewrite sumf_Sl, IH. ring.
  - apply Qcmult_le_compat_r; [|apply Qclt_le_weak, qc_inv_pos; auto].
    apply sumf_le. intros i Hi. rewrite (proj1 Up i j) by lia. rewrite !(Qcmult_comm (W i j * _)). apply Qcmult_le_compat_r; [|apply Pw; lia].
    assert (Q := up_link n C C' Up P ltac:(lia) i j ltac:(lia)). unfold link in Q. rewrite (proj1 Up i j) in Q by lia. exact Q.
Qed.

Theorem mack_raise m m' n C C' ind W al v cl cl' tail k k' :
  regular m n C -> positive n C -> 3 < n -> tail_fits (m_cols m) -> clvi m = Ok cl -> weights ind n W ->
  regular m' n C' -> positive n C' -> tail_fits (m_cols m') -> clvi m' = Ok cl' -> latest_raised n C C' ->
  mack_cl (mkTri m "origin" "dev" v) cl ind al tail = Ok k ->
  mack_cl (mkTri m' "origin" "dev" v) cl' ind al tail = Ok k' ->
  not_lower (map snd (c_ldfs (k_cl k))) (map snd (c_ldfs (k_cl k'))) /\
  not_lower (map s_ultimate (c_rows (k_cl k))) (map s_ultimate (c_rows (k_cl k'))) /\
  not_lower [snd (fst (c_total (k_cl k)))] [snd (fst (c_total (k_cl k')))] /\
  ((forall x, In x (map snd (c_ldfs (k_cl k))) -> exists q, x = Fin q /\ (1 <= q)%Qc) ->
   not_lower (map s_reserve (c_rows (k_cl k))) (map s_reserve (c_rows (k_cl k'))) /\
   not_lower [snd (c_total (k_cl k))] [snd (c_total (k_cl k'))]).
Proof.
  intros R P Hn Ev D Hw R' P' Ev' D' Up K K'.
  rewrite (mack_explicit m n C ind W al v cl tail R P Hn Ev D Hw) in K. injection K as <-.
  rewrite (mack_explicit m' n C' ind W al v cl' tail R' P' Hn Ev' D' Hw) in K'. injection K' as <-.
  destruct Hw as (_ & Wn & Wc).
  assert (M := fun j Hj => xf_raise n C C' W al j Up P Hn Wn Wc Hj).
  unfold mack_pure. cbn [k_cl c_ldfs c_rows c_total fst snd]. rewrite !map_map. unfold xrow. cbn [snd s_ultimate s_reserve]. unfold xlat, xcdf.
  split; [apply nl_seq; intros; apply M; auto|].
  split; [apply nl_seq; intros i H; apply up_ult; [exact Up|exact P|lia|exact M|lia]|]. split; [|intro F; assert (F1 : forall j, j < n -> (1 <= xf n C W al j)%Qc)].
  - apply nl_one. apply sumf_le. intros i H. apply up_ult; [exact Up|exact P|lia|exact M|lia].
  - intros j Hj. destruct (F (Fin (xf n C W al j))) as (q & E & Hq).
    + apply in_map_iff. exists j. split; auto. apply in_seq. lia.
    + injection E as ->. exact Hq.
  - split; [apply nl_seq; intros i H; apply up_res; [exact Up|exact P|lia|intros j Hj; split; [apply F1; auto|apply M; auto]|lia]|].
    apply nl_one. apply sumf_le. intros i H. apply up_res; [exact Up|exact P|lia|intros j Hj; split; [apply F1; auto|apply M; auto]|lia].
Qed.
