(** Proofs of C89. *)

From Coq Require Import String QArith Qcanon ZArith List Bool Lia Permutation Sorting.Sorted.
From Verif Require Import Val Frame Triangle A2A Base Mack Diag ListLib QcLib Spec SpecRel SpecEmerge SpecPeriod CumFacts RegFacts AvgFacts AvgClaims AvgClaims2
  BaseClaims MackFacts MackExplicit RelFacts RelClaims RelClaims2 EmergeClaims EmergeClaims2.
Import ListNotations.
Open Scope list_scope.
Open Scope nat_scope.

Lemma mean_scaled c l : mean (map (Qcmult c) l) = (c * mean l)%Qc.
Proof.
  unfold mean. rewrite map_length, <- (map_id l) at 1. rewrite map_map, qsum_map_mulc, map_id. unfold Qcdiv. ring.
Qed.
Lemma inner_scaled c lo hi l : (0 < c)%Qc -> inner (c * lo) (c * hi) (map (Qcmult c) l) = map (Qcmult c) (inner lo hi l).
Proof.
  intro Hc. assert (E : forall x y, qceqb (c * x) (c * y) = qceqb x y).
  { intros x y. destruct (qceqb_spec (c * x) (c * y)) as [Q|Q], (qceqb_spec x y) as [N|N]; auto; try congruence. exfalso. apply N.
    apply (f_equal (fun z => / c * z)%Qc) in Q. rewrite !Qcmult_assoc, !(Qcmult_comm (/ c) c), !Qcmult_inv_r, !Qcmult_1_l in Q; auto; apply qc_pos_neq; auto. }
  unfold inner. induction l as [|x l IH]; auto. cbn [map filter]. rewrite !E, IH. destruct (_ && _); auto.
Qed.
Lemma medial_scaled c l q : (0 < c)%Qc -> medial_avg (map Fin l) = Ok (Fin q) -> medial_avg (map Fin (map (Qcmult c) l)) = Ok (Fin (c * q)%Qc).
Proof.
  intros Hc E. destruct l as [|x l']; [discriminate|]. set (l := x :: l') in *.
  assert (Mo : forall a b, (a <= b)%Qc -> (c * a <= c * b)%Qc).
  { intros a b H. rewrite !(Qcmult_comm c). apply Qcmult_le_compat_r; auto. apply Qclt_le_weak; auto. }
  destruct (min_max l) as (lo & hi & A1 & A2 & A3); [discriminate|].
  destruct (qceqb_spec lo hi) as [D|D].
  - assert (All : forall y, In y l -> y = lo).
    { intros y Hy. destruct (A3 y Hy). apply Qcle_antisym; auto. subst; auto. }
    rewrite (medial_equal l lo) in E by (auto; discriminate). inversion E; subst.
    apply medial_equal; [discriminate|]. intros y Hy. apply in_map_iff in Hy as (z & <- & Hz). rewrite (All z Hz). auto.
  - assert (Dc : (c * lo)%Qc <> (c * hi)%Qc).
    { intro Q. apply D. apply (f_equal (fun z => / c * z)%Qc) in Q.
      rewrite !Qcmult_assoc, !(Qcmult_comm (/ c) c), !Qcmult_inv_r, !Qcmult_1_l in Q; auto; apply qc_pos_neq; auto. }
    destruct l' as [|y [|z r]].
    + simpl in A1, A2. destruct A1 as [<-|[]], A2 as [<-|[]]. congruence.
    + assert (Dxy : (c * x)%Qc <> (c * y)%Qc).
      { simpl in A1, A2. destruct A1 as [<-|[<-|[]]], A2 as [<-|[<-|[]]]; auto; congruence. }
      assert (Dx : x <> y) by congruence.
      change (map Fin l) with [Fin x; Fin y] in E. rewrite medial_pair in E by auto. inversion E; subst.
      change (map Fin (map (Qcmult c) l)) with [Fin (c * x)%Qc; Fin (c * y)%Qc]. rewrite medial_pair by auto.
      do 2 f_equal. unfold Qcdiv. ring.
    + rewrite (medial_inner l lo hi) in E by (auto; simpl; lia).
      rewrite (medial_inner _ (c * lo)%Qc (c * hi)%Qc).
      * rewrite inner_scaled by auto. destruct (inner lo hi l) as [|p i] eqn:Ei; [discriminate|]. inversion E; subst.
        rewrite <- mean_scaled. reflexivity.
      * rewrite map_length. simpl. lia.
      * apply in_map. auto.
      * apply in_map. auto.
      * auto.
      * intros u Hu. apply in_map_iff in Hu as (t & <- & Ht). destruct (A3 t Ht). auto.
Qed.

Section Cols.
  Variables (n : nat) (C : nat -> nat -> Qc) (g : nat -> Qc).
  Hypothesis P : positive n C.
  Hypothesis Pg : forall j, j < n -> (0 < g j)%Qc.
  Let C' i j := (g j * C i j)%Qc.
  Let h j := (g (S j) / g j)%Qc.
  Lemma pd_pos : positive n C'.
  Proof. intros i j H. apply qc_mul_pos; auto. apply Pg. lia. Qed.
  Lemma pd_h j : j < n - 1 -> (0 < h j)%Qc.
  Proof. intro H. apply qc_div_pos; apply Pg; lia. Qed.
  Lemma pd_link i j : i + S j < n -> (C' i (S j) / C' i j = h j * (C i (S j) / C i j))%Qc.
  Proof. intro H. unfold C', h. field. split; apply qc_pos_neq; [apply P|apply Pg]; lia. Qed.

  Lemma pd_links w k j : j < n - 1 -> map (fun i => link C' i j) (kept n w k j) = map (Qcmult (h j)) (map (fun i => link C i j) (kept n w k j)).
  Proof.
    intro Hj. rewrite map_map. apply map_ext_in. intros i Hi. unfold kept in Hi. apply filter_In in Hi as [Hi _]. apply in_rows in Hi.
    apply pd_link. lia.
  Qed.
  Lemma pd_avg gm w a k j q : homogeneous_mean gm -> (forall j, j < n - 1 -> w (n - 2 - j) j = true) -> j < n - 1 ->
    avgval n C w gm a k j = Fin q -> avgval n C' w gm a k j = Fin (h j * q)%Qc.
  Proof.
    intros G Hl Hj E. assert (Hh := pd_h j Hj). destruct a; unfold avgval in *.
    - rewrite pd_links, mean_scaled by auto. injection E as <-. auto.
    - rewrite pd_links by auto. apply G; auto.
      + intro Q. apply map_eq_nil in Q. assert (In (n - 2 - j) (kept n w k j)); [|rewrite Q in *; contradiction].
        unfold kept. apply filter_In. split; auto. replace (n - 2 - j) with (n - 1 - j - 1) by lia. apply rows_last. lia.
      + intros x I. apply in_map_iff in I as (i & <- & Hi). unfold kept in Hi. apply filter_In in Hi as [Hi _]. apply in_rows in Hi.
        apply qc_div_pos; apply P; lia.
    - rewrite pd_links by auto. destruct (medial_avg (map Fin (map (fun i => link C i j) (kept n w k j)))) as [x|e] eqn:Em; [|discriminate].
      subst x. rewrite (medial_scaled _ _ q) by auto. auto.
    - injection E as <-. f_equal. unfold C', h.
      rewrite (qsum_map_mulc (g (S j)) (fun i => C i (S j))), (qsum_map_mulc (g j) (fun i => C i j)).
      unfold Qcdiv. rewrite Qcinv_mult_distr. ring.
  Qed.

  Lemma pd_prod (f f' : nat -> Qc) k l : k + l < n -> (forall j, k <= j < k + l -> f' j = (h j * f j)%Qc) ->
    (g k * prodf k l f' = g (k + l)%nat * prodf k l f)%Qc.
  Proof.
    revert k. induction l as [|l IH]; intros k H E.
    - unfold prodf. cbn. rewrite Nat.add_0_r. ring.
    - rewrite !prodf_Sl, E by lia. replace (k + S l) with (S k + l) by lia.
      transitivity (f k * (g (S k) * prodf (S k) l f'))%Qc.
      + unfold h. field. apply qc_pos_neq, Pg. lia.
      + rewrite IH by (auto; try lia; intros; apply E; lia). ring.
  Qed.
  Lemma pd_ult (f f' : nat -> Qc) i : i < n -> (forall j, j < n - 1 -> f' j = (h j * f j)%Qc) -> f' (n - 1) = f (n - 1) ->
    (C' i (n - 1 - i)%nat * prodf (n - 1 - i) (S i) f' = g (n - 1)%nat * (C i (n - 1 - i)%nat * prodf (n - 1 - i) (S i) f))%Qc.
  Proof.
    intros Hi E El. rewrite !prodf_Sr. replace (n - 1 - i + i) with (n - 1) by lia. rewrite El.
    assert (Q := pd_prod f f' (n - 1 - i) i ltac:(lia) ltac:(intros; apply E; lia)). replace (n - 1 - i + i) with (n - 1) in Q by lia.
    unfold C'. transitivity (C i (n - 1 - i)%nat * f (n - 1)%nat * (g (n - 1 - i)%nat * prodf (n - 1 - i) i f'))%Qc; [ring|]. rewrite Q. ring.
  Qed.

  Lemma pd_xf W al j : (forall i j, i + j < n - 1 -> (0 <= W i j)%Qc) -> (forall j, j < n - 1 -> exists i, i + j < n - 1 /\ (0 < W i j)%Qc) ->
    j < n - 1 -> xf n C' W al j = (h j * xf n C W al j)%Qc.
  Proof.
    intros Wn Wc Hj. unfold xf. destruct (Nat.ltb_spec (S j) n) as [L|L]; [|lia].
    assert (Pa : (0 < g j ^ al)%Qc) by (apply qpow_pos, Pg; lia).
    rewrite (sumf_mulc_ext 0 (n - 1 - j) (g j ^ al * h j)%Qc (fun i => W i j * C' i j ^ al * (C' i (S j) / C' i j))%Qc
               (fun i => W i j * C i j ^ al * (C i (S j) / C i j))%Qc).
    - rewrite (sumf_mulc_ext 0 (n - 1 - j) (g j ^ al)%Qc (fun i => W i j * C' i j ^ al)%Qc (fun i => W i j * C i j ^ al)%Qc).
      + set (a := (g j ^ al)%Qc) in *. set (s := sumf 0 (n - 1 - j) (fun i => W i j * C i j ^ al)%Qc).
        assert (Ns : s <> 0%Qc) by (apply qc_pos_neq, xden_pos; auto). set (hh := h j). clearbody hh.
        field. split; auto. apply qc_pos_neq; auto.
      + intros i Hi. unfold C'. rewrite qpow_mul. ring.
    - intros i Hi. rewrite pd_link by lia. unfold C'. rewrite qpow_mul. ring.
  Qed.
End Cols.

(** What every result of this shape satisfies. *)
Lemma restates_intro n C g (f f' : nat -> Qc) (r r' : cl_result) : positive n C -> (forall j, j < n -> (0 < g j)%Qc) ->
  map snd (c_ldfs r) = map (fun j => Fin (f j)) (seq 0 n) -> map snd (c_ldfs r') = map (fun j => Fin (f' j)) (seq 0 n) ->
  (forall j, j < n - 1 -> f' j = (g (S j) / g j * f j)%Qc) -> f' (n - 1) = f (n - 1) -> 0 < n ->
  map s_latest (c_rows r) = map (fun i => Fin (C i (n - 1 - i)%nat)) (seq 0 n) ->
  map s_latest (c_rows r') = map (fun i => Fin (g (n - 1 - i)%nat * C i (n - 1 - i)%nat)%Qc) (seq 0 n) ->
  map s_ultimate (c_rows r) = map (fun i => Fin (C i (n - 1 - i)%nat * prodf (n - 1 - i) (S i) f)%Qc) (seq 0 n) ->
  map s_ultimate (c_rows r') = map (fun i => Fin (g (n - 1 - i)%nat * C i (n - 1 - i)%nat * prodf (n - 1 - i) (S i) f')%Qc) (seq 0 n) ->
  restates n g r r'.
Proof.
  intros P Pg L L' E El Hn T T' U U'. unfold restates. split; [|split; [|split]].
  - intros j Hj. rewrite L, L', !nth_map_seq by lia. cbn [plus vmul]. rewrite E by auto. auto.
  - rewrite L, L', !nth_map_seq by lia. cbn [plus]. congruence.
  - intros i Hi. rewrite T, T', !nth_map_seq by lia. reflexivity.
  - rewrite U, U', map_map. apply map_seq_ext. intros i Hi. cbn [vmul]. f_equal.
    apply (pd_ult n C g Pg f f' i); auto; lia.
Qed.

Lemma c89_base gm m m' n C (g : nat -> Qc) ind (w : nat -> nat -> bool) v cl s (tail : Qc) r (f : nat -> Qc) :
  regular m n C -> regular m' n (fun i j => g j * C i j)%Qc -> positive n C -> (forall j, j < n -> (0 < g j)%Qc) -> 2 < n ->
  tail_fits (m_cols m) -> tail_fits (m_cols m') -> clvi m = Ok cl -> homogeneous_mean gm ->
  (forall i j, i + j < n - 1 -> cell ind i j = Fin (if w i j then 1 else 0)%Qc) ->
  (forall j, j < n - 1 -> w (n - 2 - j) j = true) ->
  snd (base_cl gm (mkTri m "origin" "dev" v) cl ind (SelLabel s) (Fin tail)) = Ok r ->
  map snd (c_ldfs r) = map (fun j => Fin (f j)) (seq 0 n) ->
  exists r', snd (base_cl gm (mkTri m' "origin" "dev" v) cl ind (SelLabel s) (Fin tail)) = Ok r' /\ restates n g r r'.
Proof.
  intros R R' P Pg Hn Ev Ev' D G Hi Hl B L.
  assert (D' := clvi_same m m' n C _ cl R R' ltac:(lia) D).
  destruct (base_label_inv gm m n C ind w v cl s tail r f R P Hn Ev D Hi Hl B L) as (-> & a & k & Es & I & Av & Ft).
  subst s. set (f' := fun j => (if j <? n - 1 then g (S j) / g j * f j else tail)%Qc).
  assert (F1 : forall j, j < n - 1 -> f' j = (g (S j) / g j * f j)%Qc) by (intros j Hj; unfold f'; rewrite ltb_if by auto; auto).
  assert (F2 : f' (n - 1) = tail) by (unfold f'; rewrite nltb_if by lia; auto).
  destruct (base_cl_label gm m' n (fun i j => g j * C i j)%Qc ind w v cl a k tail f' R' (pd_pos n C g P Pg) Hn Ev' D' Hi Hl I) as (r' & B' & L').
  - intros j Hj. rewrite F1 by auto. apply pd_avg; auto.
  - auto.
  - exists r'. rewrite B'. split; auto.
    destruct (base_pure_inv gm m' n _ v cl ind _ _ _ r' f' R' ltac:(lia) D' B' L') as (-> & _).
    apply (restates_intro n C g f f'); auto; try lia; unfold base_pure; cbn [c_ldfs c_rows]; rewrite ?map_map; cbn [snd s_latest s_ultimate]; try reflexivity.
    congruence.
Qed.

Lemma c89_mack m m' n C (g : nat -> Qc) ind W al v cl tail tail' k :
  regular m n C -> regular m' n (fun i j => g j * C i j)%Qc -> positive n C -> (forall j, j < n -> (0 < g j)%Qc) -> 3 < n ->
  tail_fits (m_cols m) -> tail_fits (m_cols m') -> clvi m = Ok cl -> weights ind n W ->
  mack_cl (mkTri m "origin" "dev" v) cl ind al tail = Ok k ->
  exists k', mack_cl (mkTri m' "origin" "dev" v) cl ind al tail' = Ok k' /\ restates n g (k_cl k) (k_cl k').
Proof.
  intros R R' P Pg Hn Ev Ev' D Hw K.
  assert (D' := clvi_same m m' n C _ cl R R' ltac:(lia) D).
  rewrite (mack_explicit m n C ind W al v cl tail R P Hn Ev D Hw) in K. injection K as <-.
  eexists. split; [apply (mack_explicit m' n _ ind W al v cl tail' R' (pd_pos n C g P Pg) Hn Ev' D' Hw)|].
  destruct Hw as (Wcell & Wn & Wc).
  apply (restates_intro n C g (xf n C W al) (xf n (fun i j => g j * C i j)%Qc W al)); auto; try lia;
    unfold mack_pure; cbn [k_cl c_ldfs c_rows]; rewrite ?map_map; cbn [snd s_latest s_ultimate]; try reflexivity.
  - intros j Hj. apply pd_xf; auto.
  - unfold xf. rewrite !nltb_if by lia. auto.
Qed.
