(** Ultimates on triangles of any shape (C23). *)

From Coq Require Import String QArith Qcanon ZArith List Bool Lia Sorting.Sorted.
From Verif Require Import Val Frame Triangle A2A Base ListLib QcLib Spec TriClaims4 RegFacts BaseClaims CumExact.
Import ListNotations.
Open Scope string_scope.
Open Scope list_scope.
Open Scope nat_scope.

Lemma ult_eq m os ds f v xs (g : nat -> Qc) : increasing os -> increasing ds -> holds m os ds f ->
  (forall o, In o os -> exists d, In d ds /\ f o d <> NaN) -> increasing xs -> 0 < length xs ->
  let cd := cldfs (map (fun j => (nth j xs 0%Z, Fin (g j))) (seq 0 (length xs))) in
  (length xs = length os ->
   exists D, (forall i, i < length os -> last_observed ds f (nth i os 0%Z) (D i)) /\
     ultimates (mkTri m "origin" "dev" v) cd = Ok (map (fun i => (nth i os 0%Z,
       vmul (f (nth i os 0%Z) (D i)) (Fin (prodf (length os - 1 - i) (S i) g)))) (seq 0 (length os)))) /\
  (length xs <> length os -> 1 < length xs -> 1 < length os -> ultimates (mkTri m "origin" "dev" v) cd = Err ValueError).
Proof.
  intros So Sd Hh Cv Sx Px cd.
  destruct (c11 m os ds f v So Sd Hh Cv) as (l & _ & Ho & Hl & Lb & _).
  assert (Ll : length l = length os) by (rewrite <- Ho, map_length; auto).
  assert (Ecd : map snd cd = map (fun k => Fin (prodf k (length xs - k) g)) (seq 0 (length xs))).
  { unfold cd. assert (E := r_cldfs xs (length xs)). unfold fser in E. rewrite E by auto. rewrite map_map. auto. }
  unfold ultimates. rewrite Lb. cbn [bind]. rewrite map_map. cbn [snd]. rewrite Ecd, rev_map_seq. unfold bmul.
  rewrite !map_length, seq_length, Ll. split.
  - intro E. rewrite E, Nat.eqb_refl. cbn [bind].
    set (r0 := ((0, 0)%Z, NaN) : rec).
    assert (On : forall i, i < length os -> r_o (nth i l r0) = nth i os 0%Z).
    { intros i Hi. rewrite <- Ho. symmetry. apply (map_nth r_o l r0 i). }
    exists (fun i => r_d (nth i l r0)). split.
    + intros i Hi. rewrite <- On by auto. apply Hl. apply nth_In. lia.
    + assert (El : map (fun x => r_v x) l = map (fun i => f (nth i os 0%Z) (r_d (nth i l r0))) (seq 0 (length os))).
      { rewrite <- (map_nth_seq_fst l r0) at 1. rewrite map_map, Ll. apply map_seq_ext. intros i Hi.
        rewrite <- On by lia. apply Hl. apply nth_In. lia. }
      rewrite El, combine_map_seq, map_map. cbn [fst snd]. rewrite map_length, seq_length. unfold nrows. cbn [t_mat].
      destruct Hh as (Hi & _). rewrite Hi, Nat.eqb_refl. f_equal.
      rewrite <- (map_nth_seq os) at 1. rewrite combine_map_seq.
      etransitivity; [apply zsorted_zvsort; rewrite map_map; cbn [fst]; rewrite map_nth_seq; auto|].
      apply map_seq_ext. intros i Hi'. do 4 f_equal. lia.
  - intros N P1 P2. destruct (Nat.eqb_spec (length os) (length xs)) as [Q|Q]; [congruence|].
    destruct l as [|a [|b l]]; [simpl in Ll; lia|simpl in Ll; lia|].
    destruct (length xs) as [|[|k]]; [lia|lia|]. cbn [map seq]. reflexivity.
Qed.

Lemma c23_any gm m os ds f v cl ind sel tail sel' r xs (g : nat -> Qc) :
  increasing os -> increasing ds -> holds m os ds f ->
  (forall o, In o os -> exists d, In d ds /\ f o d <> NaN) -> increasing xs -> 1 < length xs -> 1 < length os ->
  base_cl gm (mkTri m "origin" "dev" v) cl ind sel tail = (sel', Ok r) ->
  c_ldfs r = map (fun j => (nth j xs 0%Z, Fin (g j))) (seq 0 (length xs)) ->
  length xs = length os /\
  forall row i, In row (c_rows r) -> i < length os -> s_origin row = nth i os 0%Z ->
    exists d, last_observed ds f (nth i os 0%Z) d /\ s_latest row = f (nth i os 0%Z) d /\
      s_ultimate row = vmul (f (nth i os 0%Z) d) (Fin (prodf (length os - 1 - i) (S i) g)).
Proof.
  intros So Sd Hh Cv Sx P1 P2 H Hf. assert (Lt := c23_latest gm m os ds f v cl ind sel tail sel' r So Sd Hh Cv H).
  apply base_cl_inv in H as (_ & H).
  apply chain_ladder_inv in H as (ult & rsv & mat & lt & sq & U & _ & _ & _ & _ & E & _).
  rewrite Hf in U. destruct (ult_eq m os ds f v xs g So Sd Hh Cv Sx ltac:(lia)) as (A & B). cbv zeta in A, B.
  destruct (Nat.eq_dec (length xs) (length os)) as [Q|Q]; [|rewrite B in U by auto; discriminate].
  split; auto. destruct (A Q) as (D & HD & EU). rewrite EU in U. injection U as <-.
  intros row i Hr Hi Ho. exists (D i). split; [auto|].
  destruct (Lt row Hr) as (d & Hd & Ed). rewrite Ho in Hd, Ed.
  assert (d = D i).
  { specialize (HD i Hi). destruct Hd as (I1 & N1 & M1), HD as (I2 & N2 & M2).
    destruct (Z.lt_trichotomy d (D i)) as [L|[L|L]]; auto; exfalso.
    - apply N2, M1; auto.
    - apply N1, M2; auto. }
  subst d. split; auto. rewrite E in Hr. apply in_map_iff in Hr as ([o mt] & <- & _). cbn [s_origin s_ultimate fst snd] in *. subst o.
  apply (slookup_map (fun i => nth i os 0%Z)
    (fun i => vmul (f (nth i os 0%Z) (D i)) (Fin (prodf (length os - 1 - i) (S i) g)))); [|apply in_seq; lia].
  rewrite map_nth_seq. apply zsorted_nodup. auto.
Qed.
