(** Proofs about "replace missing actuals" (the loop at the end of [totri]). *)

From Coq Require Import String QArith Qcanon ZArith List Bool Lia Permutation Sorting.Sorted.
From Verif Require Import Val Frame Triangle QcLib ListLib Spec BuildFacts CumFacts.
Import ListNotations.
Open Scope list_scope.
Open Scope nat_scope.

(** Cell [j] of a filled row. *)
Fixpoint fillc (c : nat -> val) (ti : nat -> bool) (j : nat) : val :=
  match j with
  | O => if isnan (c O) then Fin 1%Qc else c O
  | S j' => if negb (ti j) && isnan (c j) then fillc c ti j' else c j
  end.

(** Row view: [fill_row] computes [fillc]. *)
Lemma nth_fill_rest (c : nat -> val) (ti : nat -> bool) n : forall a,
  fill_rest (fillc c ti a) (map ti (seq (S a) n)) (map c (seq (S a) n))
  = map (fillc c ti) (seq (S a) n).
Proof.
  induction n as [|n IH]; intro a; simpl; auto.
  f_equal. rewrite <- IH. f_equal.
Qed.

Lemma fill_row_map (c : nat -> val) (ti : nat -> bool) n :
  fill_row (map ti (seq 0 n)) (map c (seq 0 n)) = map (fillc c ti) (seq 0 n).
Proof.
  destruct n as [|n]; simpl; auto. f_equal. exact (nth_fill_rest c ti n 0).
Qed.

(** ** Last valid rows *)

Lemma last_valid_map_seq (c : nat -> val) n k : last_valid (map c (seq 0 n)) = Some k <->
  k < n /\ c k <> NaN /\ forall i, k < i < n -> c i = NaN.
Proof.
  rewrite last_valid_some, map_length, seq_length. split.
  - intros (H & A & B). rewrite nth_map_seq in A by auto. repeat split; auto.
    intros i Hi. specialize (B i). rewrite nth_map_seq in B by lia. apply B. lia.
  - intros (H & A & B). repeat split; auto.
    + rewrite nth_map_seq; auto.
    + intros j Hj. destruct (Nat.lt_ge_cases j n).
      * rewrite nth_map_seq by auto. apply B. lia.
      * apply nth_overflow. rewrite map_length, seq_length. auto.
Qed.

Definition col_last (nr : nat) (f : nat -> nat -> val) (cl : nat -> nat) (j : nat) : Prop :=
  cl j < nr /\ f (cl j) j <> NaN /\ forall i, cl j < i < nr -> f i j = NaN.

Lemma clvi_cells_mk nr nc f cl : (forall j, j < nc -> col_last nr f cl j) ->
  clvi_cells nr nc (mk nr nc f) = Ok (map cl (seq 0 nc)).
Proof.
  intro H. unfold clvi_cells. apply mapM_ok. intros j Hj. apply in_seq in Hj.
  assert (E : map (fun i => cell (mk nr nc f) i j) (seq 0 nr) = map (fun i => f i j) (seq 0 nr)).
  { apply map_ext_in. intros i Hi. apply in_seq in Hi. apply cell_mk; lia. }
  rewrite E. destruct (H j) as (A & B & C); [lia|].
  assert (L : last_valid (map (fun i => f i j) (seq 0 nr)) = Some (cl j)).
  { apply last_valid_map_seq. auto. }
  rewrite L. auto.
Qed.

Lemma clvi_mk_inv nr nc f cs : clvi_cells nr nc (mk nr nc f) = Ok cs ->
  length cs = nc /\ forall j, j < nc -> col_last nr f (fun j => nth j cs 0) j.
Proof.
  intro H. unfold clvi_cells in H. split.
  - apply mapM_length in H. rewrite seq_length in H. auto.
  - intros j Hj. assert (M := mapM_nth _ _ _ j 0 0 H). rewrite seq_length in M. specialize (M Hj).
    rewrite seq_nth in M by auto. simpl in M.
    assert (E : map (fun i => cell (mk nr nc f) i j) (seq 0 nr) = map (fun i => f i j) (seq 0 nr)).
    { apply map_ext_in. intros i Hi. apply in_seq in Hi. apply cell_mk; lia. }
    rewrite E in M. destruct (last_valid (map (fun i => f i j) (seq 0 nr))) as [k|] eqn:L; [|discriminate].
    apply last_valid_map_seq in L. inversion M. unfold col_last. rewrite <- H1. auto.
Qed.

(** ** [fill] *)

Lemma fill00_mk nr nc f : 0 < nr -> 0 < nc ->
  fill00 (mk nr nc f) =
  mk nr nc (fun i j => if (i =? 0) && (j =? 0) then (if isnan (f 0 0) then Fin 1%Qc else f 0 0)
                       else f i j).
Proof.
  intros Hr Hc. destruct nr as [|nr]; [lia|]. destruct nc as [|nc]; [lia|].
  unfold mk. simpl. f_equal.
  - f_equal. apply map_ext_in. intros j Hj. apply in_seq in Hj.
    destruct j; [lia|]. auto.
  - apply map_ext_in. intros i Hi. apply in_seq in Hi. destruct i; [lia|]. reflexivity.
Qed.

(** The filled triangle, given the last valid row of every column. *)
Lemma fill_mk os ds o d v f cl : 0 < length os -> 0 < length ds ->
  (forall j, j < length ds -> col_last (length os) f cl j) ->
  exists c, fill (mkTri (mkMat os ds (mk (length os) (length ds) f)) o d v) =
  Ok (mkObj (mkTri (mkMat os ds (mk (length os) (length ds)
        (fun i => fillc (f i) (fun j => cl j <? i)))) o d v) c)
  /\ (1 < length ds -> c = Some (map cl (seq 0 (length ds)))).
Proof.
  intros Hr Hc H. unfold fill. cbn [t_mat m_idx m_cols m_cells ncols nrows t_o t_d t_v].
  unfold ncols, nrows. cbn [m_idx m_cols].
  destruct (Nat.ltb_spec (length ds) 2) as [L|L].
  - exists None. split; [|lia]. do 4 f_equal. assert (E : length ds = 1) by lia. rewrite E.
    unfold mk. rewrite map_map. apply map_ext. intro i. reflexivity.
  - rewrite fill00_mk by auto.
    rewrite (clvi_cells_mk _ _ _ cl).
    + cbn [bind]. exists (Some (map cl (seq 0 (length ds)))). split; auto. do 4 f_equal.
      unfold triind, mk. rewrite map_length, seq_length.
      rewrite combine_map_lr, map_map. apply map_ext. intro i. cbn [fst snd].
      rewrite <- fill_row_map. f_equal. apply map_ext_in. intros j Hj. apply in_seq in Hj.
      rewrite nth_map_seq by lia. auto.
    + intros j Hj. destruct (H j Hj) as (A & B & C). repeat split; auto.
      * destruct ((cl j =? 0) && (j =? 0)) eqn:E; auto.
        apply andb_true_iff in E as [E1 E2]. apply Nat.eqb_eq in E1, E2.
        destruct (isnan (f 0 0)) eqn:N; [discriminate|]. apply isnan_false in N. auto.
      * intros i Hi. assert (E : (i =? 0) = false) by (apply Nat.eqb_neq; lia).
        rewrite E. simpl. auto.
Qed.

Lemma fillc_keep c ti j : c j <> NaN -> fillc c ti j = c j.
Proof.
  intro H. destruct j; simpl; apply isnan_false in H; rewrite H; auto.
  rewrite andb_false_r. auto.
Qed.
Lemma fillc_below c ti j : 0 < j -> ti j = true -> fillc c ti j = c j.
Proof. intros H T. destruct j; [lia|]. simpl. rewrite T. auto. Qed.
Lemma fillc_step c ti j : ti (S j) = false -> c (S j) = NaN -> fillc c ti (S j) = fillc c ti j.
Proof. intros T N. simpl. rewrite T, N. auto. Qed.
(** Carried forward from column [a] when everything in between is missing. *)
Lemma fillc_carry c ti a j : a <= j -> (forall k, a < k <= j -> ti k = false /\ c k = NaN) ->
  fillc c ti j = fillc c ti a.
Proof.
  induction j as [|j IH]; intros Ha H.
  - assert (a = 0) by lia. subst. auto.
  - destruct (Nat.eq_dec a (S j)); [subst; auto|].
    destruct (H (S j)) as [T N]; [lia|]. rewrite fillc_step by auto. apply IH; [lia|].
    intros k Hk. apply H. lia.
Qed.
Lemma fillc_init c ti j : c 0 = NaN -> (forall k, 0 < k <= j -> ti k = false /\ c k = NaN) ->
  fillc c ti j = Fin 1%Qc.
Proof.
  intros N H. rewrite (fillc_carry c ti 0) by (auto; lia). simpl. rewrite N. auto.
Qed.
(** Populated whenever no column to the left is "below". *)
Lemma fillc_populated c ti j : (forall k, 0 < k <= j -> ti k = false) ->
  fillc c ti j = Fin 1%Qc \/ exists k, k <= j /\ c k <> NaN /\ fillc c ti j = c k.
Proof.
  induction j as [|j IH]; intro H.
  - simpl. destruct (isnan (c 0)) eqn:E; [left; auto | right; exists 0].
    apply isnan_false in E. auto.
  - destruct (isnan (c (S j))) eqn:E.
    + apply isnan_true in E. rewrite fillc_step; auto; [|apply H; lia].
      destruct IH as [IH|(k & A & B & C)]; [intros; apply H; lia|left; auto|].
      right. exists k. split; [lia|]. auto.
    + apply isnan_false in E. right. exists (S j). split; [lia|]. split; auto. apply fillc_keep; auto.
Qed.
