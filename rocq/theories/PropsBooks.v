(** C88 (two books of business together) and C89 (development periods restated). *)

From Coq Require Import String Ascii QArith Qcanon ZArith List Bool Lia Sorting.Sorted.
From Verif Require Import Val Frame Triangle A2A Base Mack QcLib Spec SpecEmerge SpecBooks SpecPeriod ExTri ExMack BooksClaims PeriodClaims.
Import ListNotations.
Open Scope list_scope.
Open Scope nat_scope.

(** ** C88.  Two triangles and the triangle of their cell by cell sums, estimated with the
    same volume-weighted average (the default): [combines], see SpecBooks.v. *)
Theorem C88_base_cl_books :
  forall (gm : list val -> val) (m1 m2 m : lmat) (n : nat) (A B : nat -> nat -> Qc) (ind1 ind2 ind : list (list val))
         (w1 w2 w : nat -> nat -> bool) (v : string) (cl : list nat) (s : string) (tail : Qc) (r1 r2 : cl_result),
  regular m1 n A -> regular m2 n B -> regular m n (fun i j => A i j + B i j)%Qc -> positive n A -> positive n B -> 2 < n ->
  tail_fits (m_cols m1) -> tail_fits (m_cols m2) -> tail_fits (m_cols m) -> clvi m = Ok cl -> volume_weighted s -> (0 <= tail)%Qc ->
  (forall i j, i + j < n - 1 -> cell ind1 i j = Fin (if w1 i j then 1 else 0)%Qc) -> (forall j, j < n - 1 -> w1 (n - 2 - j) j = true) ->
  (forall i j, i + j < n - 1 -> cell ind2 i j = Fin (if w2 i j then 1 else 0)%Qc) -> (forall j, j < n - 1 -> w2 (n - 2 - j) j = true) ->
  (forall i j, i + j < n - 1 -> cell ind i j = Fin (if w i j then 1 else 0)%Qc) -> (forall j, j < n - 1 -> w (n - 2 - j) j = true) ->
  snd (base_cl gm (mkTri m1 "origin" "dev" v) cl ind1 (SelLabel s) (Fin tail)) = Ok r1 ->
  snd (base_cl gm (mkTri m2 "origin" "dev" v) cl ind2 (SelLabel s) (Fin tail)) = Ok r2 ->
  exists r, snd (base_cl gm (mkTri m "origin" "dev" v) cl ind (SelLabel s) (Fin tail)) = Ok r /\ combines n r1 r2 r.
Proof. exact c88_base. Qed.
Print Assumptions C88_base_cl_books.

(** mack_cl with alpha = 1 (the default) and any choice of link ratios made for all three. *)
Theorem C88_mack_cl_books :
  forall (m1 m2 m : lmat) (n : nat) (A B : nat -> nat -> Qc) (ind : list (list val)) (W : nat -> nat -> Qc)
         (v : string) (cl : list nat) (tail : val) (k1 k2 : mack_result),
  regular m1 n A -> regular m2 n B -> regular m n (fun i j => A i j + B i j)%Qc -> positive n A -> positive n B -> 3 < n ->
  tail_fits (m_cols m1) -> tail_fits (m_cols m2) -> tail_fits (m_cols m) -> clvi m = Ok cl -> weights ind n W ->
  mack_cl (mkTri m1 "origin" "dev" v) cl ind 1 tail = Ok k1 -> mack_cl (mkTri m2 "origin" "dev" v) cl ind 1 tail = Ok k2 ->
  exists k, mack_cl (mkTri m "origin" "dev" v) cl ind 1 tail = Ok k /\ combines n (k_cl k1) (k_cl k2) (k_cl k).
Proof. exact c88_mack. Qed.
Print Assumptions C88_mack_cl_books.

(** A second book beside the triangle of ExTri, and both together. *)
Definition bk_rows : list (list Z) := [[40; 100; 150; 180]; [30; 60; 120]; [60; 150]; [20]]%Z.
Definition bk_C (i j : nat) : Qc := qz (nth j (nth i bk_rows []) 0%Z).
Definition bk_m : lmat := mkMat [2001; 2002; 2003; 2004]%Z [12; 24; 36; 48]%Z
  [[vz 40; vz 100; vz 150; vz 180]; [vz 30; vz 60; vz 120; NaN]; [vz 60; vz 150; NaN; NaN]; [vz 20; NaN; NaN; NaN]].
Definition bk_sum : lmat := mkMat [2001; 2002; 2003; 2004]%Z [12; 24; 36; 48]%Z
  [[vz 140; vz 250; vz 330; vz 369]; [vz 140; vz 236; vz 320; NaN]; [vz 150; vz 270; NaN; NaN]; [vz 150; NaN; NaN; NaN]].
Lemma bk_regular : regular bk_m 4 bk_C.
Proof.
  split; [repeat constructor|]. split; [repeat constructor|]. do 3 (split; [reflexivity|]). split.
  - intros row H. repeat (destruct H as [<-|H]; [reflexivity|]). contradiction.
  - intros i j Hi Hj. do 4 (destruct i as [|i]; [do 4 (destruct j as [|j]; [reflexivity|]); lia|]). lia.
Qed.
Lemma bk_sum_regular : regular bk_sum 4 (fun i j => ex_C i j + bk_C i j)%Qc.
Proof.
  split; [repeat constructor|]. split; [repeat constructor|]. do 3 (split; [reflexivity|]). split.
  - intros row H. repeat (destruct H as [<-|H]; [reflexivity|]). contradiction.
  - intros i j Hi Hj. do 4 (destruct i as [|i]; [do 4 (destruct j as [|j]; [vm_compute; reflexivity|]); lia|]). lia.
Qed.
Lemma bk_positive : positive 4 bk_C.
Proof.
  intros i j H. do 4 (destruct i as [|i]; [do 4 (destruct j as [|j]; [first [reflexivity|lia]|]); lia|]). lia.
Qed.
Example C88_nonvacuous : regular bk_m 4 bk_C /\ regular bk_sum 4 (fun i j => ex_C i j + bk_C i j)%Qc /\ positive 4 bk_C /\
  tail_fits (m_cols bk_m) /\ tail_fits (m_cols bk_sum) /\ clvi bk_sum = Ok [3; 2; 1; 0] /\ volume_weighted "weighted-2" /\
  match snd (base_cl ex_gm (mkTri ex_m "origin" "dev" "value") [3; 2; 1; 0] ex_ind (SelLabel "weighted-2") (vz 1)),
        snd (base_cl ex_gm (mkTri bk_m "origin" "dev" "value") [3; 2; 1; 0] ex_ind (SelLabel "weighted-2") (vz 1)),
        snd (base_cl ex_gm (mkTri bk_sum "origin" "dev" "value") [3; 2; 1; 0] ex_ind (SelLabel "weighted-2") (vz 1)) with
  | Ok r1, Ok r2, Ok r => vltb (nth 0 (factors_of r1) NaN) (nth 0 (factors_of r) NaN) = true /\
                          vltb (nth 0 (factors_of r) NaN) (nth 0 (factors_of r2) NaN) = true
  | _, _, _ => False
  end.
Proof.
  split; [apply bk_regular|]. split; [apply bk_sum_regular|]. split; [apply bk_positive|].
  split; [apply ex_spaced|]. split; [apply ex_spaced|]. split; [vm_compute; reflexivity|].
  split; [right; exists 2; reflexivity|]. vm_compute. split; reflexivity.
Qed.

(** It is not so for the other averages: two books with the same simple average, and a
    smaller one for both together. *)
Definition sb_A (i j : nat) : Qc := qz (nth j (nth i [[100; 100; 100]; [10; 30]; [50]]%Z []) 0%Z).
Definition sb_B (i j : nat) : Qc := qz (nth j (nth i [[10; 30; 30]; [100; 100]; [50]]%Z []) 0%Z).
Definition sb_mat (C : nat -> nat -> Qc) : lmat := mkMat [2001; 2002; 2003]%Z [12; 24; 36]%Z
  (map (fun i => map (fun j => if i + j <? 3 then Fin (C i j) else NaN) (seq 0 3)) (seq 0 3)).
Lemma sb_regular C : regular (sb_mat C) 3 C.
Proof.
  split; [repeat constructor|]. split; [repeat constructor|]. do 3 (split; [reflexivity|]). split.
  - intros row H. unfold sb_mat in H. cbn [m_cells] in H. apply in_map_iff in H as (i & <- & _). rewrite map_length, seq_length. reflexivity.
  - intros i j Hi Hj. do 3 (destruct i as [|i]; [do 3 (destruct j as [|j]; [reflexivity|]); lia|]). lia.
Qed.
Theorem C88_simple_average_refuted :
  exists (m1 m2 m : lmat) (A B : nat -> nat -> Qc) (cl : list nat) (r1 r2 r : cl_result),
    regular m1 3 A /\ regular m2 3 B /\ regular m 3 (fun i j => A i j + B i j)%Qc /\ positive 3 A /\ positive 3 B /\
    tail_fits (m_cols m) /\ clvi m = Ok cl /\
    snd (base_cl ex_gm (mkTri m1 "origin" "dev" "value") cl (a2aind_init m1) (SelLabel "all-simple") (vz 1)) = Ok r1 /\
    snd (base_cl ex_gm (mkTri m2 "origin" "dev" "value") cl (a2aind_init m2) (SelLabel "all-simple") (vz 1)) = Ok r2 /\
    snd (base_cl ex_gm (mkTri m "origin" "dev" "value") cl (a2aind_init m) (SelLabel "all-simple") (vz 1)) = Ok r /\
    factors_of r1 = factors_of r2 /\ ~ between (nth 0 (factors_of r1) NaN) (nth 0 (factors_of r2) NaN) (nth 0 (factors_of r) NaN).
Proof.
  set (sb_S := fun i j => (sb_A i j + sb_B i j)%Qc).
  assert (Q : exists r1 r2 r,
    snd (base_cl ex_gm (mkTri (sb_mat sb_A) "origin" "dev" "value") [2; 1; 0] (a2aind_init (sb_mat sb_A)) (SelLabel "all-simple") (vz 1)) = Ok r1 /\
    snd (base_cl ex_gm (mkTri (sb_mat sb_B) "origin" "dev" "value") [2; 1; 0] (a2aind_init (sb_mat sb_B)) (SelLabel "all-simple") (vz 1)) = Ok r2 /\
    snd (base_cl ex_gm (mkTri (sb_mat sb_S) "origin" "dev" "value") [2; 1; 0] (a2aind_init (sb_mat sb_S)) (SelLabel "all-simple") (vz 1)) = Ok r /\
    vlistb (factors_of r1) (factors_of r2) = true /\
    vltb (nth 0 (factors_of r) NaN) (nth 0 (factors_of r1) NaN) = true /\ vltb (nth 0 (factors_of r) NaN) (nth 0 (factors_of r2) NaN) = true).
  { do 3 eexists. split; [vm_compute; reflexivity|]. split; [vm_compute; reflexivity|]. split; [vm_compute; reflexivity|].
    vm_compute. repeat split; reflexivity. }
  destruct Q as (r1 & r2 & r & Q1 & Q2 & Q3 & Q4 & Q5 & Q6).
  exists (sb_mat sb_A), (sb_mat sb_B), (sb_mat sb_S), sb_A, sb_B, [2; 1; 0], r1, r2, r.
  do 3 (split; [apply sb_regular|]).
  split. { intros i j H. do 3 (destruct i as [|i]; [do 3 (destruct j as [|j]; [first [reflexivity|lia]|]); lia|]). lia. }
  split. { intros i j H. do 3 (destruct i as [|i]; [do 3 (destruct j as [|j]; [first [reflexivity|lia]|]); lia|]). lia. }
  split. { split; [intros j Hj; cbn in Hj; destruct j as [|j]; [cbn; lia|lia]|exists 0; cbn; lia]. }
  split; [vm_compute; reflexivity|]. do 3 (split; [assumption|]). split; [apply vlistb_eq; assumption|].
  intros (p & q & y & E1 & E2 & E3 & [(H1 & _)|(H1 & _)]); rewrite ?E1, ?E2, ?E3 in *.
  - cbn in Q5. destruct (qcltb_spec y p) as [L|L]; [|discriminate]. apply (Qclt_not_le _ _ L H1).
  - cbn in Q6. destruct (qcltb_spec y q) as [L|L]; [|discriminate]. apply (Qclt_not_le _ _ L H1).
Qed.
Print Assumptions C88_simple_average_refuted.

(** ** C89.  The losses of every development period multiplied by a factor of the period:
    [restates], see SpecPeriod.v; for every average, and for mack_cl with every alpha and
    every choice of link ratios.  [homogeneous_mean]: what is used of the geometric mean. *)
Theorem C89_base_cl_periods :
  forall (gm : list val -> val) (m m' : lmat) (n : nat) (C : nat -> nat -> Qc) (g : nat -> Qc) (ind : list (list val))
         (w : nat -> nat -> bool) (v : string) (cl : list nat) (s : string) (tail : Qc) (r : cl_result) (f : nat -> Qc),
  regular m n C -> regular m' n (fun i j => g j * C i j)%Qc -> positive n C -> (forall j, j < n -> (0 < g j)%Qc) -> 2 < n ->
  tail_fits (m_cols m) -> tail_fits (m_cols m') -> clvi m = Ok cl -> homogeneous_mean gm ->
  (forall i j, i + j < n - 1 -> cell ind i j = Fin (if w i j then 1 else 0)%Qc) ->
  (forall j, j < n - 1 -> w (n - 2 - j) j = true) ->
  snd (base_cl gm (mkTri m "origin" "dev" v) cl ind (SelLabel s) (Fin tail)) = Ok r ->
  map snd (c_ldfs r) = map (fun j => Fin (f j)) (seq 0 n) ->
  exists r', snd (base_cl gm (mkTri m' "origin" "dev" v) cl ind (SelLabel s) (Fin tail)) = Ok r' /\ restates n g r r'.
Proof. exact c89_base. Qed.
Print Assumptions C89_base_cl_periods.

Theorem C89_mack_cl_periods :
  forall (m m' : lmat) (n : nat) (C : nat -> nat -> Qc) (g : nat -> Qc) (ind : list (list val)) (W : nat -> nat -> Qc) (alpha : nat)
         (v : string) (cl : list nat) (tail tail' : val) (k : mack_result),
  regular m n C -> regular m' n (fun i j => g j * C i j)%Qc -> positive n C -> (forall j, j < n -> (0 < g j)%Qc) -> 3 < n ->
  tail_fits (m_cols m) -> tail_fits (m_cols m') -> clvi m = Ok cl -> weights ind n W ->
  mack_cl (mkTri m "origin" "dev" v) cl ind alpha tail = Ok k ->
  exists k', mack_cl (mkTri m' "origin" "dev" v) cl ind alpha tail' = Ok k' /\ restates n g (k_cl k) (k_cl k').
Proof. exact c89_mack. Qed.
Print Assumptions C89_mack_cl_periods.

Definition pd_g (j : nat) : Qc := qz (nth j [1; 2; 3; 10] 1)%Z.
Definition pd_m : lmat := mkMat (m_idx ex_m) (m_cols ex_m)
  [[vz 100; vz 300; vz 540; vz 1890]; [vz 110; vz 352; vz 600; NaN]; [vz 90; vz 240; NaN; NaN]; [vz 130; NaN; NaN; NaN]].
Lemma pd_regular : regular pd_m 4 (fun i j => pd_g j * ex_C i j)%Qc.
Proof.
  split; [repeat constructor|]. split; [repeat constructor|]. do 3 (split; [reflexivity|]). split.
  - intros row H. repeat (destruct H as [<-|H]; [reflexivity|]). contradiction.
  - intros i j Hi Hj. do 4 (destruct i as [|i]; [do 4 (destruct j as [|j]; [vm_compute; reflexivity|]); lia|]). lia.
Qed.
Lemma ex_gm_homogeneous : homogeneous_mean ex_gm.
Proof.
  intros l c q Hc N _ E. unfold ex_gm in *. rewrite QcLib.vmean_fin in * by (destruct l; [congruence|discriminate]).
  injection E as <-. f_equal. exact (mean_scaled c l).
Qed.
Example C89_nonvacuous : regular pd_m 4 (fun i j => pd_g j * ex_C i j)%Qc /\ (forall j, j < 4 -> (0 < pd_g j)%Qc) /\ homogeneous_mean ex_gm /\
  match snd (base_cl ex_gm (mkTri pd_m "origin" "dev" "value") [3; 2; 1; 0] ex_ind (SelLabel "all-simple") (vz 1)),
        snd (base_cl ex_gm (mkTri ex_m "origin" "dev" "value") [3; 2; 1; 0] ex_ind (SelLabel "all-simple") (vz 1)) with
  | Ok r', Ok r => vlistb (map s_ultimate (c_rows r')) (map (vmul (vz 10)) (map s_ultimate (c_rows r))) = true
  | _, _ => False
  end.
Proof.
  split; [apply pd_regular|]. split; [intros j H; do 4 (destruct j as [|j]; [vm_compute; reflexivity|]); lia|].
  split; [apply ex_gm_homogeneous|]. vm_compute. reflexivity.
Qed.
