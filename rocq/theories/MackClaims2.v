(** Proofs of C28-C33, C50. *)

From Coq Require Import String QArith Qcanon ZArith List Bool Lia Permutation Sorting.Sorted.
From Verif Require Import Val Frame Triangle A2A Base Mack ListLib QcLib Spec TblFacts ConvFacts TriClaims4 RegFacts AvgFacts
  AvgClaims2 BaseClaims MackFacts MackClaims.
Import ListNotations.
Open Scope list_scope.
Open Scope nat_scope.

Lemma weights_init m n C : regular m n C -> positive n C -> 1 < n -> weights (a2aind_init m) n (fun _ _ => 1%Qc).
Proof.
  intros R P Hn. apply regular_rmat in R as (E & So & Sd & Lo & Ld). split; [|split].
  - intros i j Hi Hj. rewrite E. unfold a2aind_init. rewrite (r_a2a _ _ n C) by (auto; lia).
    unfold rmat. cbn [m_cells]. unfold mk. rewrite map_map. rewrite nth_map_seq by lia. rewrite map_map.
    rewrite nth_map_seq by lia. cbn [plus]. unfold rc. destruct (Nat.ltb_spec (i + j) (n - 1)); auto.
  - intros. apply Qclt_le_weak, qc_0_lt_1.
  - intros j Hj. exists 0. split; [lia|apply qc_0_lt_1].
Qed.

Lemma c29 m n C ind W al v cl tail : regular m n C -> positive n C -> 3 < n -> tail_fits (m_cols m) ->
  clvi m = Ok cl -> weights ind n W ->
  exists k, mack_cl (mkTri m "origin" "dev" v) cl ind al tail = Ok k /\
    c_ldfs (k_cl k) = map (fun j => (nth j (m_cols m) 0%Z,
      Fin (if S j <? n then
             sumf 0 (n - 1 - j) (fun i => W i j * C i j ^ al * (C i (S j) / C i j))
             / sumf 0 (n - 1 - j) (fun i => W i j * C i j ^ al)
           else 1)%Qc)) (seq 0 n).
Proof.
  intros R P Hn Ev Hcl (Wi & Wn & Wc).
  destruct (mack_eq m n C R Hn P Ev ind W Wi Wn Wc al v cl Hcl tail) as (r & _ & _ & E & K).
  eexists. split; [exact K|]. cbn [k_cl]. rewrite E. cbn [c_ldfs]. reflexivity.
Qed.

Lemma sumf_filter (w : nat -> bool) a n (g : nat -> Qc) :
  sumf a n (fun i => (if w i then 1 else 0) * g i)%Qc = qsum (map g (filter w (seq a n))).
Proof.
  revert a. induction n; intro a; auto. rewrite sumf_Sl, IHn. cbn [seq filter]. destruct (w a); cbn [map qsum]; ring.
Qed.

Lemma c29_indicator m n C ind (w : nat -> nat -> bool) al v cl tail : regular m n C -> positive n C -> 3 < n -> tail_fits (m_cols m) ->
  clvi m = Ok cl -> weights ind n (fun i j => if w i j then 1 else 0)%Qc ->
  exists k, mack_cl (mkTri m "origin" "dev" v) cl ind al tail = Ok k /\
    c_ldfs (k_cl k) = map (fun j => (nth j (m_cols m) 0%Z,
      Fin (if S j <? n then
             let kept := filter (fun i => w i j) (seq 0 (n - 1 - j)) in
             qsum (map (fun i => C i j ^ al * (C i (S j) / C i j)) kept) / qsum (map (fun i => C i j ^ al) kept)
           else 1)%Qc)) (seq 0 n).
Proof.
  intros R P Hn Ev Hcl Hw. destruct (c29 m n C ind _ al v cl tail R P Hn Ev Hcl Hw) as (k & K & L).
  exists k. split; auto. rewrite L. apply map_seq_ext. intros j Hj. cbv zeta. rewrite <- !sumf_filter.
  destruct (S j <? n); auto. do 2 f_equal. apply (f_equal2 Qcdiv); apply sumf_ext; intros; ring.
Qed.

(** alpha = 2: least squares. *)
Lemma c29_least_squares n C W j g : j < n - 1 ->
  (forall i, i + j < n - 1 -> (0 <= W i j)%Qc) ->
  (0 < sumf 0 (n - 1 - j) (fun i => W i j * C i j ^ 2))%Qc ->
  (forall i, i + j < n - 1 -> (0 < C i j)%Qc) ->
  let f := (sumf 0 (n - 1 - j) (fun i => W i j * C i j ^ 2 * (C i (S j) / C i j))
             / sumf 0 (n - 1 - j) (fun i => W i j * C i j ^ 2))%Qc in
  (sumf 0 (n - 1 - j) (fun i => W i j * ((C i (S j) - f * C i j) * (C i (S j) - f * C i j)))
   <= sumf 0 (n - 1 - j) (fun i => W i j * ((C i (S j) - g * C i j) * (C i (S j) - g * C i j))))%Qc.
Proof.
  intros Hj Wn Dp Cp f. set (N := n - 1 - j) in *.
  set (D := sumf 0 N (fun i => W i j * C i j ^ 2)%Qc) in *.
  assert (E1 : sumf 0 N (fun i => W i j * C i j ^ 2 * (C i (S j) / C i j))%Qc = sumf 0 N (fun i => W i j * (C i j * C i (S j)))%Qc).
  { apply sumf_ext. intros i Hi. rewrite qpow2. assert (C i j <> 0)%Qc by (apply qc_pos_neq, Cp; unfold N in Hi; lia).
    field. auto. }
  assert (F : (f * D = sumf 0 N (fun i => W i j * (C i j * C i (S j))))%Qc).
  { unfold f. fold D. rewrite qc_div_mul by (apply qc_pos_neq; auto). auto. }
  assert (X : forall h, sumf 0 N (fun i => W i j * ((C i (S j) - h * C i j) * (C i (S j) - h * C i j)))%Qc
     = (sumf 0 N (fun i => W i j * (C i (S j) * C i (S j))) - ((1 + 1) * h) * sumf 0 N (fun i => W i j * (C i j * C i (S j))) + h * h * D)%Qc).
  { intro h. unfold D. rewrite <- !sumf_mulc. rewrite <- sumf_sub, <- sumf_add. apply sumf_ext. intros i Hi.
    rewrite qpow2. ring. }
  rewrite (X f), (X g), <- F. generalize (sumf 0 N (fun i => W i j * (C i (S j) * C i (S j)))%Qc). intro A.
  assert (K : (0 <= (g - f) * (g - f) * D)%Qc).
  { apply qc_mul_nonneg; [apply qc_sq_nonneg|apply Qclt_le_weak; auto]. }
  assert (K2 : (A - (1 + 1) * g * (f * D) + g * g * D = A - (1 + 1) * f * (f * D) + f * f * D + (g - f) * (g - f) * D)%Qc)
    by ring.
  rewrite K2. revert K. generalize ((g - f) * (g - f) * D)%Qc (A - (1 + 1) * f * (f * D) + f * f * D)%Qc. intros. qlra.
Qed.

(** ** C28 *)

Lemma c28_gen gm m n C v cl tail al label f : regular m n C -> positive n C -> 3 < n -> tail_fits (m_cols m) ->
  clvi m = Ok cl ->
  (forall j, j < n - 1 -> (sumf 0 (n - 1 - j) (fun i => 1 * C i j ^ al * (C i (S j) / C i j))
             / sumf 0 (n - 1 - j) (fun i => 1 * C i j ^ al))%Qc = f j) ->
  (exists r, base_cl gm (mkTri m "origin" "dev" v) cl (a2aind_init m) (SelLabel label) (Fin 1%Qc) = (SelLabel label, Ok r) /\
     c_ldfs r = map (fun j => (nth j (m_cols m) 0%Z, Fin (if S j <? n then f j else 1)%Qc)) (seq 0 n)) ->
  exists r k, base_cl gm (mkTri m "origin" "dev" v) cl (a2aind_init m) (SelLabel label) (Fin 1%Qc) = (SelLabel label, Ok r) /\
    mack_cl (mkTri m "origin" "dev" v) cl (a2aind_init m) al tail = Ok k /\
    c_ldfs (k_cl k) = c_ldfs r /\ c_rows (k_cl k) = c_rows r /\ c_total (k_cl k) = c_total r /\
    c_trisqrd (k_cl k) = c_trisqrd r.
Proof.
  intros R P Hn Ev Hcl Hf (r & B & Lr). assert (Wt := weights_init m n C R P ltac:(lia)). destruct Wt as (Wi & Wn & Wc).
  destruct (mack_eq m n C R Hn P Ev _ _ Wi Wn Wc al v cl Hcl tail) as (r' & Ch & _ & E & K).
  exists r. eexists. split; [exact B|]. split; [exact K|]. cbn [k_cl].
  apply base_cl_inv in B as (_ & B). 
  assert (El : c_ldfs r = fser (m_cols m) n (mf n C (fun _ _ => 1%Qc) al)).
  { rewrite Lr. unfold fser. apply map_seq_ext. intros j Hj. do 2 f_equal. unfold mf.
    destruct (Nat.ltb_spec (S j) n); auto. rewrite <- Hf by lia. reflexivity. }
  rewrite El in B.
  assert (Q := r_chain_ladder (m_idx m) (m_cols m) n C).
  destruct (regular_rmat m n C R) as (Em & So & Sd & Lo & Ld).
  specialize (Q So Sd Lo Ld ltac:(lia) (mf n C (fun _ _ => 1%Qc) al) v (Fin 1%Qc)).
  rewrite <- Em in Q.
  assert (Ec : cl = map (fun j => n - 1 - j) (seq 0 n)).
  { assert (Z := r_clvi (m_idx m) (m_cols m) n C Lo Ld ltac:(lia)). rewrite <- Em in Z. congruence. }
  rewrite <- Ec in Q. rewrite Q in B. injection B as <-. rewrite E. cbn. auto.
Qed.

Lemma c28 gm m n C v cl tail : regular m n C -> positive n C -> 3 < n -> tail_fits (m_cols m) -> clvi m = Ok cl ->
  forall al label, (al, label) = (1, "all-weighted"%string) \/ (al, label) = (0, "all-simple"%string) ->
  exists r k, base_cl gm (mkTri m "origin" "dev" v) cl (a2aind_init m) (SelLabel label) (Fin 1%Qc) = (SelLabel label, Ok r) /\
    mack_cl (mkTri m "origin" "dev" v) cl (a2aind_init m) al tail = Ok k /\
    c_ldfs (k_cl k) = c_ldfs r /\ c_rows (k_cl k) = c_rows r /\ c_total (k_cl k) = c_total r /\
    c_trisqrd (k_cl k) = c_trisqrd r.
Proof.
  intros R P Hn Ev Hcl al label [H|H]; injection H as -> ->.
  - apply (c28_gen gm m n C v cl tail 1 _ (fun j => sumf 0 (n - 1 - j) (fun i => C i (S j)) / sumf 0 (n - 1 - j) (fun i => C i j))%Qc); auto.
    + intros j Hj. apply (f_equal2 Qcdiv); apply sumf_ext; intros i Hi; cbn [Qcpower]; [|ring].
      assert (C i j <> 0)%Qc by (apply qc_pos_neq, P; lia). field. auto.
    + apply (c23_all_weighted gm m n C v cl 1%Qc); auto. lia.
  - apply (c28_gen gm m n C v cl tail 0 _ (fun j => mean (map (fun i => (C i (S j) / C i j)%Qc) (seq 0 (n - 1 - j))))); auto.
    + intros j Hj. unfold mean. rewrite map_length, seq_length. apply (f_equal2 Qcdiv).
      * apply sumf_ext. intros i Hi. cbn [Qcpower]. ring.
      * rewrite (sumf_ext _ _ _ (fun _ => 1%Qc)) by (intros; cbn [Qcpower]; ring). rewrite sumf_const. ring.
    + destruct (c21_base_simple gm m n C (a2aind_init m) (fun _ _ => true) v cl 1%Qc) as (r & B & L); auto; [lia| |].
      * intros i j L. destruct (regular_rmat m n C R) as (Em & So & Sd & Lo & Ld). rewrite Em. apply ind_init; auto. lia.
      * exists r. split; auto. rewrite L. apply map_seq_ext. intros j Hj. do 2 f_equal.
        destruct (S j <? n); auto. rewrite filter_all by auto. auto.
Qed.

(** ** C50 *)
Lemma c50 t cl ind al tail tail' k : mack_cl t cl ind al tail = Ok k ->
  exists k', mack_cl t cl ind al tail' = Ok k' /\
    c_ldfs (k_cl k') = c_ldfs (k_cl k) /\ c_rows (k_cl k') = c_rows (k_cl k) /\ c_total (k_cl k') = c_total (k_cl k) /\
    c_trisqrd (k_cl k') = c_trisqrd (k_cl k) /\ k_devpvar k' = k_devpvar k /\ k_ldfvar k' = k_ldfvar k /\
    k_proc k' = k_proc k /\ k_param k' = k_param k /\ k_mse k' = k_mse k /\ k_mse_total k' = k_mse_total k.
Proof.
  unfold mack_cl. intro H.
  destruct (mack_ldfs t ind al (Fin 1%Qc)) as [l|] eqn:E1; cbn [bind] in *; [|discriminate].
  unfold chain_ladder in *. 
  destruct (ultimates t (cldfs l)) as [u|]; cbn [bind] in *; [|discriminate].
  destruct (reserves t u) as [rs|]; cbn [bind] in *; [|discriminate].
  destruct (maturity _ _) as [mt|]; cbn [bind] in *; [|discriminate].
  destruct (latest_by_origin t) as [lo|]; cbn [bind] in *; [|discriminate].
  destruct (trisqrd _ _ _) as [sq|]; cbn [bind] in *; [|discriminate].
  destruct (devp_variance _ _ _ _) as [dv|]; cbn [bind] in *; [|discriminate].
  destruct (ldf_variance _ _ _ _) as [lv|]; cbn [bind] in *; [|discriminate].
  destruct (negb _); [discriminate|]. injection H as <-. eexists. split; [reflexivity|]. cbn. repeat split; auto.
Qed.
