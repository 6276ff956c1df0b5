(** Proofs of C93: the triangles whose residuals can be resampled. *)

From Coq Require Import String QArith Qcanon ZArith List Bool Lia.
From Verif Require Import Val Frame Triangle A2A Base Mack Boot ListLib QcLib Spec Spec2 BuildFacts RegFacts MackFacts BaseClaims BootLib
  BootFit BootClaims.
Import ListNotations.
Open Scope string_scope.
Open Scope list_scope.
Open Scope nat_scope.

Section Exact.
  Variables (m : lmat) (n : nat) (C : nat -> nat -> Qc).
  Hypothesis R : regular m n C.
  Hypothesis P : positive n C.
  Hypothesis Hn : 2 < n.
  Hypothesis Ev : tail_fits (m_cols m).
  Variables (ind : list (list val)) (w : nat -> nat -> bool).
  Hypothesis Hi : forall i j, i + j < n - 1 -> cell ind i j = Fin (if w i j then 1 else 0)%Qc.
  Hypothesis Hl : forall j, j < n - 1 -> w (n - 2 - j) j = true.
  Variables (gm : list val -> val) (rt : val -> val).
  Hypothesis Rt : root_like rt.
  Let f := vol_factor n C.
  Let Fp : forall j, j < n - 1 -> (0 < f j)%Qc.
  Proof. intros j Hj. unfold f. apply vol_pos; auto; lia. Qed.

  Lemma adjc_pos : exists a, (0 < a)%Qc /\ adjc m rt = Fin a.
  Proof.
    unfold adjc. destruct (regular_rmat m n C R) as (E & So & Sd & Lo & Ld).
    assert (Dp : (0 < dof m)%Z) by (rewrite E; apply r_dof_pos; auto; lia).
    assert (Np : (0 < Z.of_nat (nbr_cells m))%Z).
    { rewrite E, r_nbr_cells by (auto; lia). assert (H := Nat.div_le_mono 2 (n * (n + 1)) 2 ltac:(lia) ltac:(nia)).
      change (2 / 2) with 1 in H. lia. }
    unfold vz. rewrite vdiv_fin by (apply qc_pos_neq; replace 0%Qc with (qz 0) by reflexivity; apply qz_lt; auto).
    destruct Rt as (_ & _ & Rp & _). apply Rp. apply qc_div_pos; replace 0%Qc with (qz 0) by reflexivity; apply qz_lt; auto.
  Qed.

  (** A residual is dropped exactly if the fitted increment is the actual one. *)
  Lemma keep_iff i j : i + j < n ->
    keepv (vmul (adjc m rt) (rus n C f rt i j)) = false <-> incr_of C i j = incr_of (fitc n C f) i j.
  Proof.
    intro L. destruct adjc_pos as (a & Ap & ->). unfold rus. rewrite ltb_if by auto. fold f.
    set (x := incr_of C i j). set (y := incr_of (fitc n C f) i j).
    destruct Rt as (_ & R0 & Rp & _). destruct (qceqb_spec y 0) as [Q|Q].
    - assert (Ey : abs_ y = 0%Qc) by (rewrite Q; reflexivity). rewrite Ey, R0, Q.
      destruct (qceqb_spec x 0) as [Q'|Q'].
      + rewrite Q'. split; auto.
      + split; [|intro; contradiction]. replace (x - 0)%Qc with x by ring. cbn [vdiv]. 
        assert (E0 : qceqb 0 0 = true) by reflexivity. 
        intro H. exfalso. revert H. unfold vdiv, keepv. cbn.
        unfold qsgn. destruct (Qclt_le_dec 0 x) as [G|G].
        * assert (Hs : (x ?= 0)%Qc = Gt) by (apply Qcgt_alt; auto). assert (Ha : (a ?= 0)%Qc = Gt) by (apply Qcgt_alt; auto).
          rewrite Hs. cbn. unfold qsgn. rewrite Ha. cbn. discriminate.
        * assert (G' : (x < 0)%Qc) by (apply Qcle_lt_or_eq in G as [G|G]; auto; contradiction).
          assert (Hs : (x ?= 0)%Qc = Lt) by (apply Qclt_alt; auto). assert (Ha : (a ?= 0)%Qc = Gt) by (apply Qcgt_alt; auto).
          rewrite Hs. cbn. unfold qsgn. rewrite Ha. cbn. discriminate.
    - assert (Ay : (0 < abs_ y)%Qc).
      { unfold abs_. destruct (qcltb_spec y 0) as [A|A].
        - apply Qclt_minus_iff in A. replace (0 + - y)%Qc with (- y)%Qc in A by ring. auto.
        - apply Qcnot_lt_le in A. apply Qcle_lt_or_eq in A as [A|A]; auto. exfalso. auto. }
      destruct (Rp _ Ay) as (r & Hr & ->). rewrite vdiv_fin by (apply qc_pos_neq; auto). cbn [vmul].
      unfold keepv. cbn [isnan negb andb veqb]. destruct (qceqb_spec (a * ((x - y) / r))%Qc 0) as [A|A]; cbn [negb].
      + split; auto. intros _. apply Qcmult_integral in A as [A|A]; [exfalso; apply (qc_pos_neq _ Ap A)|].
        assert (B : (x - y = (x - y) / r * r)%Qc) by (field; apply qc_pos_neq; auto). rewrite A in B.
        transitivity (x - y + y)%Qc; [ring|]. rewrite B. ring.
      + split; [discriminate|]. intro Q'. exfalso. apply A. rewrite Q'. unfold Qcdiv. ring.
  Qed.

  Lemma sd_empty : List.length (sampling_dist (ra m n C rt)) = 0 <->
    forall i j, i + j < n -> incr_of C i j = incr_of (fitc n C f) i j.
  Proof.
    rewrite (c40_dist m n C R P Hn rt Rt). unfold ra. cbn [m_cells]. fold f. split.
    - intros H i j L. apply keep_iff; auto.
      destruct (keepv (vmul (adjc m rt) (rus n C f rt i j))) eqn:K; auto. exfalso.
      assert (In (vmul (adjc m rt) (rus n C f rt i j)) (filter keepv (List.concat (mk n n (fun i j => vmul (adjc m rt) (rus n C f rt i j)))))).
      { apply filter_In. split; auto. apply in_concat. exists (map (fun j => vmul (adjc m rt) (rus n C f rt i j)) (seq 0 n)). split.
        - unfold mk. apply (in_map (fun i => map (fun j => vmul (adjc m rt) (rus n C f rt i j)) (seq 0 n))). apply in_seq. lia.
        - apply (in_map (fun j => vmul (adjc m rt) (rus n C f rt i j))). apply in_seq. lia. }
      destruct (filter _ _); [contradiction|discriminate].
    - intro H. destruct (filter _ _) as [|v l] eqn:E; auto. exfalso. assert (I' : In v (v :: l)) by (left; auto).
      rewrite <- E in I'. apply filter_In in I' as (A & K). apply in_concat in A as (row & A & B). unfold mk in A.
      apply in_map_iff in A as (i & <- & A). apply in_map_iff in B as (j & <- & B). apply in_seq in A. apply in_seq in B.
      destruct (Nat.ltb_spec (i + j) n) as [L|L].
      + rewrite (proj2 (keep_iff i j L) (H i j L)) in K. discriminate.
      + unfold rus in K. destruct (Nat.ltb_spec (i + j) n); [lia|]. destruct adjc_pos as (a & _ & Ea). rewrite Ea in K. discriminate.
  Qed.

  Lemma exact_iff : (forall i j, i + j < n -> incr_of C i j = incr_of (fitc n C f) i j) <->
    exists g, forall i j, i + S j < n -> C i (S j) = (C i j * g j)%Qc.
  Proof.
    split.
    - intro H. exists f. assert (E : forall j i, i + j < n -> C i j = fitc n C f i j).
      { induction j as [|j IH]; intros i L; [apply (H i 0); lia|].
        assert (Q := H i (S j) L). cbn [incr_of] in Q. rewrite <- IH in Q by lia.
        transitivity (C i (S j) - C i j + C i j)%Qc; [ring|]. rewrite Q. ring. }
      intros i j L. rewrite !E by lia. apply fitc_step; auto.
    - intros (g & H).
      assert (Eg : forall j, S j < n -> f j = g j).
      { intros j L. unfold f, vol_factor. rewrite (sumf_ext 0 (n - 1 - j) (fun i => C i (S j)) (fun i => g j * C i j)%Qc).
        - rewrite sumf_mulc. field. apply qc_pos_neq. apply sumf_pos; [lia|]. intros i B. apply P. lia.
        - intros i B. rewrite H by lia. ring. }
      assert (E : forall d i j, i + j + d = n - 1 -> C i j = fitc n C f i j).
      { induction d as [|d IH]; intros i j L.
        - replace j with (n - 1 - i) by lia. rewrite fitc_last. auto.
        - assert (Q := IH i (S j) ltac:(lia)). rewrite H in Q by lia. rewrite fitc_step in Q by (auto; lia).
          rewrite <- Eg in Q by lia. assert (N := qc_pos_neq _ (Fp j ltac:(lia))).
          transitivity (C i j * f j / f j)%Qc; [field; auto|]. rewrite Q. field. auto. }
      intros i j L. destruct j; cbn [incr_of].
      + apply (E (n - 1 - i)). lia.
      + rewrite (E (n - 1 - i - S j) i (S j)), (E (n - 1 - i - j) i j) by lia. auto.
  Qed.

  Lemma c93 cl rl sims par rng e :
    boot_cl gm rt (mkTri m "origin" "dev" "value") cl rl ind sims par rng = Err e <->
    e = ValueError /\ par = false /\ 0 < sims /\ exists g, forall i j, i + S j < n -> C i (S j) = (C i j * g j)%Qc.
  Proof.
    rewrite (boot_eq m n C R P Hn Ev ind w Hi Hl gm rt cl rl sims par rng). cbv zeta.
    rewrite <- exact_iff, <- sd_empty.
    destruct par; cbn [negb andb]; [split; [discriminate|intros (_ & Q & _); discriminate]|].
    destruct (Nat.ltb_spec 0 sims) as [A|A]; cbn [andb]; [|split; [discriminate|intros (_ & _ & Q & _); lia]].
    destruct (Nat.eqb_spec (List.length (sampling_dist (ra m n C rt))) 0) as [B|B].
    - split; [intro Q; injection Q as <-; auto|intros (-> & _); auto].
    - split; [discriminate|intros (_ & _ & _ & Q); contradiction].
  Qed.
End Exact.
