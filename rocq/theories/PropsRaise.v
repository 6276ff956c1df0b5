(** C96.  Higher latest losses never lower an estimate. *)

From Coq Require Import String Ascii QArith Qcanon ZArith List Bool Lia Sorting.Sorted.
From Verif Require Import Val Frame Triangle A2A Base Mack QcLib Spec SpecRel SpecRaise ExTri AvgFacts PropsRel RaiseClaims.
Import ListNotations.
Open Scope list_scope.
Open Scope nat_scope.

(** ** C96.  Two triangles with the same losses, except that some latest losses of the
    second are higher ([latest_raised]), and the same included link ratios: no factor, no
    ultimate and no total of the second is lower; if every factor is at least 1, no
    reserve is either.  For the medial averages this needs that the included link ratios
    of a period are distinct ([no_ties]); see the theorem after it.  [mean_like],
    [monotone_mean]: what is used of the geometric mean. *)
Theorem C96_base_cl_latest_raised_partial :
  forall (gm : list val -> val) (m m' : lmat) (n : nat) (C C' : nat -> nat -> Qc) (ind ind' : list (list val)) (w : nat -> nat -> bool)
         (v : string) (cl cl' : list nat) (s : string) (tail : Qc) (r r' : cl_result) (f f' : nat -> Qc),
  regular m n C -> positive n C -> 2 < n -> tail_fits (m_cols m) -> clvi m = Ok cl ->
  regular m' n C' -> positive n C' -> tail_fits (m_cols m') -> clvi m' = Ok cl' ->
  (forall i j, i + j < n - 1 -> cell ind i j = Fin (if w i j then 1 else 0)%Qc) ->
  (forall i j, i + j < n - 1 -> cell ind' i j = Fin (if w i j then 1 else 0)%Qc) ->
  (forall j, j < n - 1 -> w (n - 2 - j) j = true) ->
  mean_like gm -> monotone_mean gm -> (0 <= tail)%Qc -> latest_raised n C C' ->
  (medial_label s -> no_ties n C w /\ no_ties n C' w) ->
  snd (base_cl gm (mkTri m "origin" "dev" v) cl ind (SelLabel s) (Fin tail)) = Ok r ->
  snd (base_cl gm (mkTri m' "origin" "dev" v) cl' ind' (SelLabel s) (Fin tail)) = Ok r' ->
  map snd (c_ldfs r) = map (fun j => Fin (f j)) (seq 0 n) ->
  map snd (c_ldfs r') = map (fun j => Fin (f' j)) (seq 0 n) ->
  not_lower (map snd (c_ldfs r)) (map snd (c_ldfs r')) /\
  not_lower (map s_ultimate (c_rows r)) (map s_ultimate (c_rows r')) /\
  not_lower [snd (fst (c_total r))] [snd (fst (c_total r'))] /\
  ((forall j, j < n -> (1 <= f j)%Qc) ->
   not_lower (map s_reserve (c_rows r)) (map s_reserve (c_rows r')) /\ not_lower [snd (c_total r)] [snd (c_total r')]).
Proof. exact base_raise. Qed.
Print Assumptions C96_base_cl_latest_raised_partial.

(** mack_cl, for every alpha and every choice of weights. *)
Theorem C96_mack_cl_latest_raised :
  forall (m m' : lmat) (n : nat) (C C' : nat -> nat -> Qc) (ind : list (list val)) (W : nat -> nat -> Qc) (alpha : nat)
         (v : string) (cl cl' : list nat) (tail : val) (k k' : mack_result),
  regular m n C -> positive n C -> 3 < n -> tail_fits (m_cols m) -> clvi m = Ok cl -> weights ind n W ->
  regular m' n C' -> positive n C' -> tail_fits (m_cols m') -> clvi m' = Ok cl' -> latest_raised n C C' ->
  mack_cl (mkTri m "origin" "dev" v) cl ind alpha tail = Ok k ->
  mack_cl (mkTri m' "origin" "dev" v) cl' ind alpha tail = Ok k' ->
  not_lower (map snd (c_ldfs (k_cl k))) (map snd (c_ldfs (k_cl k'))) /\
  not_lower (map s_ultimate (c_rows (k_cl k))) (map s_ultimate (c_rows (k_cl k'))) /\
  not_lower [snd (fst (c_total (k_cl k)))] [snd (fst (c_total (k_cl k')))] /\
  ((forall x, In x (map snd (c_ldfs (k_cl k))) -> exists q, x = Fin q /\ (1 <= q)%Qc) ->
   not_lower (map s_reserve (c_rows (k_cl k))) (map s_reserve (c_rows (k_cl k'))) /\
   not_lower [snd (c_total (k_cl k))] [snd (c_total (k_cl k'))]).
Proof. exact mack_raise. Qed.
Print Assumptions C96_mack_cl_latest_raised.

(** Triangles that differ only in the latest loss of the fourth origin. *)
Definition rs_rows (x : Z) : list (list Z) := [[100; 150; 160; 170; 180]; [100; 200; 210; 220]; [100; 300; 310]; [100; x]; [100]]%Z.
Definition rs_C (x : Z) (i j : nat) : Qc := qz (nth j (nth i (rs_rows x) []) 0%Z).
Definition rs_m (x : Z) : lmat := mkMat [2001; 2002; 2003; 2004; 2005]%Z [12; 24; 36; 48; 60]%Z
  (map (fun i => map (fun j => if i + j <? 5 then Fin (rs_C x i j) else NaN) (seq 0 5)) (seq 0 5)).
Lemma rs_regular x : regular (rs_m x) 5 (rs_C x).
Proof.
  split; [repeat constructor|]. split; [repeat constructor|]. do 3 (split; [reflexivity|]). split.
  - intros row H. unfold rs_m in H. cbn [m_cells] in H. apply in_map_iff in H as (i & <- & _). rewrite map_length, seq_length. reflexivity.
  - intros i j Hi Hj. do 5 (destruct i as [|i]; [do 5 (destruct j as [|j]; [reflexivity|]); lia|]). lia.
Qed.
Lemma rs_positive x : (0 < x)%Z -> positive 5 (rs_C x).
Proof.
  intros Hx i j H.
  do 5 (destruct i as [|i]; [do 5 (destruct j as [|j]; [first [vm_compute; reflexivity|change 0%Qc with (qz 0); apply qz_lt; cbn; lia|lia]|]); lia|]). lia.
Qed.
Lemma rs_raised x y : (x <= y)%Z -> latest_raised 5 (rs_C x) (rs_C y).
Proof.
  intro H. split.
  - intros i j Hij. do 4 (destruct i as [|i]; [do 4 (destruct j as [|j]; [first [reflexivity|lia]|]); lia|]). lia.
  - intros i Hi. do 5 (destruct i as [|i]; [first [apply Qcle_refl|apply qz_le; cbn; lia]|]). lia.
Qed.
Lemma rs_fits x : tail_fits (m_cols (rs_m x)).
Proof. split; [intros j Hj; cbn in Hj; do 3 (destruct j as [|j]; [cbn; lia|]); lia|exists 0; cbn; lia]. Qed.
Lemma ex_gm_monotone : monotone_mean ex_gm.
Proof.
  intros l l' q q' N P F E E'. unfold ex_gm in *. assert (N' : l' <> []) by (destruct F; [contradiction|discriminate]).
  rewrite vmean_fin in E, E' by auto. injection E as <-. injection E' as <-.
  assert (L : length l = length l') by (clear - F; induction F; cbn; congruence).
  rewrite L. unfold Qcdiv. apply Qcmult_le_compat_r.
  - clear - F. induction F; cbn [qsum]; [apply Qcle_refl|]. qlra.
  - apply Qclt_le_weak, qc_inv_pos, qn_pos. destruct l'; [contradiction|cbn; lia].
Qed.

(** Without that hypothesis the claim is false of the medial averages: 'all-medial' leaves
    out every link ratio equal to the lowest.  Of the first link ratios 1.5, 2, 3 and 1.5 it
    keeps 2 alone; with the fourth raised to 1.75 it averages 2 and 1.75.  So a higher latest
    loss of the fourth origin lowers the first factor, the estimate of the youngest origin
    and, here, the total of all reserves. *)
Theorem C96_medial_with_ties_refuted :
  regular (rs_m 150) 5 (rs_C 150) /\ positive 5 (rs_C 150) /\ regular (rs_m 175) 5 (rs_C 175) /\ positive 5 (rs_C 175) /\
  latest_raised 5 (rs_C 150) (rs_C 175) /\ tail_fits (m_cols (rs_m 150)) /\
  match snd (base_cl ex_gm (mkTri (rs_m 150) "origin" "dev" "value") [4; 3; 2; 1; 0] (a2aind_init (rs_m 150)) (SelLabel "all-medial") (vz 1)),
        snd (base_cl ex_gm (mkTri (rs_m 175) "origin" "dev" "value") [4; 3; 2; 1; 0] (a2aind_init (rs_m 175)) (SelLabel "all-medial") (vz 1)) with
  | Ok r, Ok r' =>
      vltb (nth 0 (map snd (c_ldfs r')) NaN) (nth 0 (map snd (c_ldfs r)) NaN) = true /\
      vltb (nth 4 (map s_ultimate (c_rows r')) NaN) (nth 4 (map s_ultimate (c_rows r)) NaN) = true /\
      vltb (nth 4 (map s_reserve (c_rows r')) NaN) (nth 4 (map s_reserve (c_rows r)) NaN) = true /\
      vltb (snd (c_total r')) (snd (c_total r)) = true
  | _, _ => False
  end.
Proof.
  split; [apply rs_regular|]. split; [apply rs_positive; lia|]. split; [apply rs_regular|]. split; [apply rs_positive; lia|].
  split; [apply rs_raised; lia|]. split; [apply rs_fits|]. vm_compute. repeat split.
Qed.
Print Assumptions C96_medial_with_ties_refuted.

(** The hypotheses are met with distinct link ratios: here the estimate of the youngest
    origin rises. *)
Lemma rs_no_ties x : x = 160%Z \/ x = 190%Z -> no_ties 5 (rs_C x) (fun _ _ => true).
Proof.
  intros Hx i i' j H H' _ _ D.
  destruct Hx as [->| ->]; (do 4 (destruct i as [|i]; [do 4 (destruct i' as [|i']; [do 4 (destruct j as [|j];
    [first [lia|congruence|intro Q; apply (f_equal this) in Q; vm_compute in Q; discriminate Q]|]); lia|]); lia|])); lia.
Qed.
Example C96_nonvacuous :
  regular (rs_m 160) 5 (rs_C 160) /\ positive 5 (rs_C 160) /\ clvi (rs_m 160) = Ok [4; 3; 2; 1; 0] /\
  regular (rs_m 190) 5 (rs_C 190) /\ positive 5 (rs_C 190) /\ clvi (rs_m 190) = Ok [4; 3; 2; 1; 0] /\
  latest_raised 5 (rs_C 160) (rs_C 190) /\ mean_like ex_gm /\ monotone_mean ex_gm /\
  no_ties 5 (rs_C 160) (fun _ _ => true) /\ no_ties 5 (rs_C 190) (fun _ _ => true) /\
  match snd (base_cl ex_gm (mkTri (rs_m 160) "origin" "dev" "value") [4; 3; 2; 1; 0] (a2aind_init (rs_m 160)) (SelLabel "all-medial") (vz 1)),
        snd (base_cl ex_gm (mkTri (rs_m 190) "origin" "dev" "value") [4; 3; 2; 1; 0] (a2aind_init (rs_m 190)) (SelLabel "all-medial") (vz 1)) with
  | Ok r, Ok r' => vltb (nth 4 (map s_ultimate (c_rows r)) NaN) (nth 4 (map s_ultimate (c_rows r')) NaN) = true
  | _, _ => False
  end.
Proof.
  split; [apply rs_regular|]. split; [apply rs_positive; lia|]. split; [reflexivity|].
  split; [apply rs_regular|]. split; [apply rs_positive; lia|]. split; [reflexivity|].
  split; [apply rs_raised; lia|]. split; [apply ex_gm_mean_like|]. split; [apply ex_gm_monotone|].
  split; [apply rs_no_ties; auto|]. split; [apply rs_no_ties; auto|]. vm_compute. reflexivity.
Qed.
