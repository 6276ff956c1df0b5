(** C07 in terms of labels. *)

From Coq Require Import String Ascii QArith Qcanon ZArith List Bool Lia Permutation Sorting.Sorted.
From Verif Require Import Val Frame Triangle QcLib ListLib Spec BuildFacts CumFacts FillFacts
  TotriFacts TblFacts TriClaims ConvFacts TriClaims2 TriClaims4.
Import ListNotations.
Open Scope list_scope.
Open Scope nat_scope.

Lemma next_in_pos ds d d' : zsorted ds -> next_in ds d d' ->
  exists j, S j < length ds /\ d = nth j ds 0%Z /\ d' = nth (S j) ds 0%Z.
Proof.
  intros Sd (A & B & C & D). destruct (label_pos _ _ A) as (j & Hj & ->).
  destruct (label_pos _ _ B) as (k & Hk & ->). apply zsorted_nth_lt in C; auto.
  exists j. assert (E : k = S j).
  { destruct (Nat.eq_dec k (S j)); auto. exfalso.
    assert (I : In (nth (S j) ds 0%Z) ds) by (apply nth_In; lia).
    destruct (D _ I) as [Q|Q]; apply zsorted_nth_le in Q; auto; lia. }
  subst. auto.
Qed.
Lemma first_in_pos' ds d : zsorted ds -> first_in ds d -> 0 < length ds /\ d = nth 0 ds 0%Z.
Proof.
  intros Sd (A & B). destruct (label_pos _ _ A) as (j & Hj & ->).
  assert (j = 0) by (apply (first_in_pos ds); auto). subst. split; auto.
Qed.

Lemma c07_incr m os ds f : increasing os -> increasing ds -> os <> [] -> holds m os ds f ->
  gap_free os ds f -> finite_cells os ds f -> covered os ds f -> positive_first os ds f ->
  exists mi g,
    to_incr (mkTri m "origin" "dev" "value") = Ok (mkTri mi "origin" "dev" "value") /\
    holds mi os ds g /\
    (forall o d, In o os -> first_in ds d -> g o d = f o d) /\
    (forall o d d', In o os -> next_in ds d d' -> g o d' = vsub (f o d') (f o d)) /\
    to_cum (mkTri mi "origin" "dev" "value") = Ok (mkTri m "origin" "dev" "value").
Proof.
  intros So Sd No H G F C P. destruct (c07a os ds So Sd m f No H G F C P) as (mi & A & B & D).
  exists mi, (dif ds f). repeat split; auto.
  - exact (proj1 B).
  - exact (proj1 (proj2 B)).
  - exact (proj1 (proj2 (proj2 B))).
  - exact (proj1 (proj2 (proj2 (proj2 B)))).
  - exact (proj2 (proj2 (proj2 (proj2 B)))).
  - intros o d Ho Hd. destruct (first_in_pos' ds d Sd Hd) as (L & ->). apply dif_0; auto using zsorted_nodup.
  - intros o d d' Ho Hn. destruct (next_in_pos ds d d' Sd Hn) as (j & L & -> & ->).
    apply dif_S; auto using zsorted_nodup.
Qed.

Lemma c07_cum m os ds g : increasing os -> increasing ds -> os <> [] -> holds m os ds g ->
  gap_free os ds g -> finite_cells os ds g -> covered os ds g -> positive_first os ds g ->
  exists mc f,
    to_cum (mkTri m "origin" "dev" "value") = Ok (mkTri mc "origin" "dev" "value") /\
    holds mc os ds f /\
    (forall o d, In o os -> In d ds -> g o d = NaN -> f o d = NaN) /\
    (forall o d, In o os -> In d ds -> g o d <> NaN ->
       f o d = val_sum (map (g o) (filter (fun x => (x <=? d)%Z) ds))) /\
    to_incr (mkTri mc "origin" "dev" "value") = Ok (mkTri m "origin" "dev" "value").
Proof.
  intros So Sd No H G F C P. destruct (c07b os ds So Sd m g No H G F C P) as (mc & A & B & D).
  exists mc, (cumc os ds g). split; auto. split; auto. split; [|split]; auto.
  - intros o d _ _ Q. apply cumc_nan. rewrite Q. auto.
  - intros o d Ho Hd N. unfold cumc. assert (N' := N). apply isnan_false in N'. rewrite N'.
    rewrite running_total_tbl by auto.
    assert (Q : forall l, (forall x, In x l -> g o x <> NaN) -> nan_sum (map (g o) l) = val_sum (map (g o) l)).
    { induction l as [|x l IH]; simpl; intro Hl; auto.
      assert (E := Hl x (or_introl eq_refl)). apply isnan_false in E. rewrite E. f_equal. apply IH.
      intros; apply Hl; right; auto. }
    apply Q. intros x Hx. apply filter_In in Hx as [Hx L]. apply Z.leb_le in L.
    destruct (Z.eq_dec x d); [subst; auto|]. apply (G o x d); auto. lia.
Qed.

Lemma c13 :
  forall (m : lmat) (os ds : list Z) (f : Z -> Z -> val) (n : nat) (v : string),
    increasing os -> increasing ds -> holds m os ds f ->
    List.length os = n -> List.length ds = n -> (0 < n)%nat ->
    (forall i j, (i < n)%nat -> (j < n)%nat ->
       (f (nth i os 0%Z) (nth j ds 0%Z) <> NaN <-> (i + j < n)%nat)) ->
    let t := mkTri m "origin" "dev" v in
    diagonal t 0 = latest t /\
    (forall k, (k < n)%nat -> diagonal t (- Z.of_nat k) =
       Ok (map (fun i => mkrec (nth i os 0%Z) (nth (n - 1 - k - i) ds 0%Z)
                 (f (nth i os 0%Z) (nth (n - 1 - k - i) ds 0%Z))) (seq 0 (n - k)))) /\
    (forall off, (Z.of_nat n - 1 < Z.abs off)%Z -> diagonal t off = Err ValueError) /\
    (forall k, (0 < k < n)%nat -> diagonal t (Z.of_nat k) = Err KeyError).
Proof.
  intros m os ds f n v So Sd H Lo Ld Hn R t. split; [|split; [|split]].
  - change (diagonal t 0) with (diagonal t (- Z.of_nat 0)). unfold t.
    rewrite (reg_diagonal m os ds f n v) by auto. rewrite (reg_latest m os ds f n v) by auto.
    rewrite !Nat.sub_0_r. auto.
  - intros. apply reg_diagonal; auto.
  - intros. apply (reg_diagonal_big m os ds f n v); auto.
  - intros. apply (reg_diagonal_pos m os ds f n v); auto.
Qed.
