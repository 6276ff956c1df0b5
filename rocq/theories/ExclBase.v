(** Further proofs of C21: base_cl with every label. *)

From Coq Require Import String QArith Qcanon ZArith List Bool Lia Sorting.Sorted.
From Verif Require Import Val Frame Triangle A2A Base ListLib QcLib Spec SpecEmerge CumFacts RegFacts AvgFacts AvgClaims AvgClaims2
  BaseClaims RelFacts RelClaims2 EmergeClaims BooksClaims.
Import ListNotations.
Open Scope list_scope.
Open Scope nat_scope.

Lemma find_label_ext {A} (s : string) (g h : avgtype * nat -> A) (l : list (avgtype * nat)) :
  (forall sp, In sp l -> avg_label (fst sp) (snd sp) = s -> g sp = h sp) ->
  find (fun p => String.eqb (fst p) s) (map (fun sp => (avg_label (fst sp) (snd sp), g sp)) l)
  = find (fun p => String.eqb (fst p) s) (map (fun sp => (avg_label (fst sp) (snd sp), h sp)) l).
Proof.
  induction l as [|sp l IH]; intro H; auto. cbn [map find fst]. destruct (String.eqb_spec (avg_label (fst sp) (snd sp)) s) as [E|E].
  - rewrite (H sp); auto. left. auto.
  - apply IH. intros. apply H; auto. right. auto.
Qed.

Lemma nth_error_seq_lt k j : j < k -> nth_error (seq 0 k) j = Some j.
Proof. intro H. rewrite (nth_error_nth' _ 0) by (rewrite seq_length; auto). rewrite seq_nth by auto. auto. Qed.

Lemma c21_weighted_labels gm m n C ind (w : nat -> nat -> bool) v cl s tail : regular m n C -> positive n C -> 1 < n ->
  (forall i j, i + j < n - 1 -> cell ind i j = Fin (if w i j then 1 else 0)%Qc) ->
  (forall j, j < n - 1 -> w (n - 2 - j) j = true) -> volume_weighted s ->
  base_cl gm (mkTri m "origin" "dev" v) cl ind (SelLabel s) tail
  = base_cl gm (mkTri m "origin" "dev" v) cl (a2aind_init m) (SelLabel s) tail.
Proof.
  intros R P Hn Hi Hl Vw. unfold base_cl. cbn [select_ldfs t_mat].
  assert (E : ldfs_of_label gm m ind s tail = ldfs_of_label gm m (a2aind_init m) s tail); [|rewrite E; auto].
  unfold ldfs_of_label. rewrite (avgs_rows gm m n C ind w R P Hn Hi Hl).
  assert (R' := R). apply regular_rmat in R' as (Er & So & Sd & Lo & Ld).
  rewrite (avgs_rows gm m n C (a2aind_init m) (fun _ _ => true) R P Hn).
  - cbn [bind]. rewrite (find_label_ext s _ (fun sp => map (avgval n C (fun _ _ => true) gm (fst sp) (snd sp)) (seq 0 (n - 1)))); [reflexivity|].
    intros [a k] _ Es. cbn [fst snd] in *. symmetry in Es. apply (weighted_label s a k Vw) in Es. subst a. reflexivity.
  - intros i j H. rewrite Er. apply ind_init; auto; lia.
  - auto.
Qed.

Lemma c21_label_raises gm m n C ind (w : nat -> nat -> bool) v cl s tail j : regular m n C -> positive n C -> 2 < n ->
  (forall i j, i + j < n - 1 -> cell ind i j = Fin (if w i j then 1 else 0)%Qc) ->
  j < n - 1 -> w (n - 2 - j) j = false ->
  base_cl gm (mkTri m "origin" "dev" v) cl ind (SelLabel s) tail = (SelLabel s, Err IndexError).
Proof.
  intros R P Hn Hi Hj Hl. unfold base_cl. cbn [select_ldfs t_mat]. unfold ldfs_of_label.
  rewrite (c21_latest_raises gm m n C ind w j R P Hn Hi Hj Hl). reflexivity.
Qed.

Lemma c21_labels gm m n C ind (w : nat -> nat -> bool) v cl s tail r : regular m n C -> positive n C -> 2 < n -> tail_fits (m_cols m) ->
  (forall i j, i + j < n - 1 -> cell ind i j = Fin (if w i j then 1 else 0)%Qc) ->
  (forall j, j < n - 1 -> w (n - 2 - j) j = true) ->
  snd (base_cl gm (mkTri m "origin" "dev" v) cl ind (SelLabel s) tail) = Ok r ->
  exists avgs, a2a_avgs gm m ind = Ok avgs /\ List.length (c_ldfs r) = n /\
    (forall j, j < n - 1 -> entry avgs s j = Some (nth j (map snd (c_ldfs r)) NaN)) /\
    nth (n - 1) (map snd (c_ldfs r)) NaN = tail.
Proof.
  intros R P Hn Ev Hi Hl B.
  destruct (base_cl gm (mkTri m "origin" "dev" v) cl ind (SelLabel s) tail) as [sel' o] eqn:E. cbn [snd] in B. subst o.
  apply base_cl_inv in E as (S1 & _). cbn [t_mat select_ldfs] in S1. injection S1 as S0 S1.
  destruct (label_inv gm m n C ind w s tail _ R P Hn Ev Hi Hl S1) as (a & k & Es & I & Lf).
  eexists. split; [apply (avgs_rows gm m n C ind w R P ltac:(lia) Hi Hl)|]. rewrite Lf, map_length, seq_length, map_map. cbn [snd].
  split; auto. split.
  - intros j Hj. rewrite nth_map_seq by lia. cbn [plus]. destruct (Nat.ltb_spec (S j) n); [|lia].
    subst s. unfold entry.
    rewrite (find_label (fun sp => map (avgval n C w gm (fst sp) (snd sp)) (seq 0 (n - 1)))) by auto. cbn [snd fst].
    rewrite nth_error_map, nth_error_seq_lt by lia. reflexivity.
  - rewrite nth_map_seq by lia. cbn [plus]. destruct (Nat.ltb_spec (S (n - 1)) n); [lia|auto].
Qed.
