(** Triangles with zero losses: C68. *)

From Coq Require Import String Ascii QArith Qcanon ZArith List Bool Lia.
From Verif Require Import Val Frame Triangle A2A Base QcLib Spec SpecZero ExTri ZeroClaims.
Import ListNotations.
Open Scope list_scope.
Open Scope nat_scope.

(** ** C68.  Losses may be zero or negative.  The averages exist exactly when in every
    development period the last link ratio before the first 0/0 is positive; otherwise
    the call raises IndexError. *)
Theorem C68_averages_exist_iff :
  forall (gm : list val -> val) (m : lmat) (n : nat) (C : nat -> nat -> Qc),
  regular m n C -> 2 < n -> links_everywhere n C ->
  ((exists avgs, a2a_avgs gm m (a2aind_init m) = Ok avgs) <->
   forall j k, j < n - 1 -> defined_run n C j k -> 0 < k /\ grows (C (k - 1) j) (C (k - 1) (S j))) /\
  (forall e, a2a_avgs gm m (a2aind_init m) = Err e -> e = IndexError).
Proof. exact c68_iff. Qed.
Print Assumptions C68_averages_exist_iff.

(** Then base_cl has the ratios of column sums as factors; otherwise base_cl raises
    IndexError, whatever average is asked for. *)
Theorem C68_base_cl :
  forall (gm : list val -> val) (m : lmat) (n : nat) (C : nat -> nat -> Qc) (v : string) (cl : list nat) (tail : Qc),
  regular m n C -> 2 < n -> links_everywhere n C -> tail_fits (m_cols m) -> clvi m = Ok cl ->
  (forall j, j < n - 1 -> sumf 0 (n - 1 - j) (fun i => C i j) <> 0%Qc) ->
  ((forall j k, j < n - 1 -> defined_run n C j k -> 0 < k /\ grows (C (k - 1) j) (C (k - 1) (S j))) ->
   exists r, base_cl gm (mkTri m "origin" "dev" v) cl (a2aind_init m) (SelLabel "all-weighted") (Fin tail)
               = (SelLabel "all-weighted", Ok r) /\
     c_ldfs r = map (fun j => (nth j (m_cols m) 0%Z,
        Fin (if S j <? n then sumf 0 (n - 1 - j) (fun i => C i (S j)) / sumf 0 (n - 1 - j) (fun i => C i j)
             else tail)%Qc)) (seq 0 n)) /\
  (forall j k s, j < n - 1 -> defined_run n C j k -> ~ (0 < k /\ grows (C (k - 1) j) (C (k - 1) (S j))) ->
   base_cl gm (mkTri m "origin" "dev" v) cl (a2aind_init m) (SelLabel s) (Fin tail) = (SelLabel s, Err IndexError)).
Proof. exact c68_base. Qed.
Print Assumptions C68_base_cl.

(** The weighted average is over all origins; the others only use the positive link
    ratios of the origins before the first 0/0. *)
Theorem C68_averages_used :
  forall (gm : list val -> val) (m : lmat) (n : nat) (C : nat -> nat -> Qc) (avgs : list (string * list val)),
  regular m n C -> 2 < n -> links_everywhere n C ->
  a2a_avgs gm m (a2aind_init m) = Ok avgs ->
  forall j k, j < n - 1 -> defined_run n C j k ->
   (sumf 0 (n - 1 - j) (fun i => C i j) <> 0%Qc ->
    entry avgs "all-weighted" j
    = Some (Fin (sumf 0 (n - 1 - j) (fun i => C i (S j)) / sumf 0 (n - 1 - j) (fun i => C i j))%Qc)) /\
   ((forall i, i < k -> C i j <> 0%Qc) ->
    let links := filter (fun q => qcltb 0 q) (map (fun i => (C i (S j) / C i j)%Qc) (seq 0 k)) in
    entry avgs "all-simple" j = Some (Fin (mean links)) /\
    entry avgs "all-geometric" j = Some (gm (map Fin links)) /\
    exists v, medial_avg (map Fin links) = Ok v /\ entry avgs "all-medial" j = Some v).
Proof. exact c68_used. Qed.
Print Assumptions C68_averages_used.

(** Two triangles of four origins.  In the first, the second origin starts with 0, 0
    (a 0/0 and an infinite link ratio); in the second, the oldest does. *)
Definition z_rows : list (list Z) := [[10; 20; 30; 40]; [0; 0; 8]; [4; 5]; [7]]%Z.
Definition z_rows' : list (list Z) := [[0; 0; 30; 40]; [6; 5; 8]; [3; 9]; [7]]%Z.
Definition z_C (rows : list (list Z)) (i j : nat) : Qc := qz (nth j (nth i rows []) 0%Z).
Definition z_m (rows : list (list Z)) : lmat := mkMat [2001; 2002; 2003; 2004]%Z [1; 2; 3; 4]%Z
  (map (fun i => map (fun j => if i + j <? 4 then Fin (z_C rows i j) else NaN) (seq 0 4)) (seq 0 4)).
Lemma z_regular rows : regular (z_m rows) 4 (z_C rows).
Proof.
  repeat split; simpl m_idx; simpl m_cols; auto.
  - repeat constructor.
  - repeat constructor.
  - intros row H. apply in_map_iff in H as (i & <- & _). rewrite map_length. reflexivity.
  - intros i j Hi Hj. do 4 (destruct i as [|i]; [do 4 (destruct j as [|j]; [reflexivity|]); lia|]). lia.
Qed.
Lemma z_spaced rows : tail_fits (m_cols (z_m rows)).
Proof. split; [intros j Hj; cbn in Hj; do 2 (destruct j as [|j]; [cbn; lia|]); lia|exists 0; cbn; lia]. Qed.

Example C68_nonvacuous :
  links_everywhere 4 (z_C z_rows) /\ links_everywhere 4 (z_C z_rows') /\
  (forall j, j < 3 -> sumf 0 (3 - j) (fun i => z_C z_rows i j) <> 0%Qc) /\
  defined_run 4 (z_C z_rows) 0 1 /\ defined_run 4 (z_C z_rows') 0 0 /\
  clvi (z_m z_rows) = Ok [3; 2; 1; 0] /\
  match snd (base_cl ex_gm (mkTri (z_m z_rows) "origin" "dev" "value") [3; 2; 1; 0] (a2aind_init (z_m z_rows))
               (SelLabel "all-weighted") (vz 1)) with
  | Ok r => vlistb (map snd (c_ldfs r)) [vdiv (vz 25) (vz 14); vdiv (vz 38) (vz 20); vdiv (vz 40) (vz 30); vz 1] = true
  | Err _ => False
  end /\
  snd (base_cl ex_gm (mkTri (z_m z_rows') "origin" "dev" "value") [3; 2; 1; 0] (a2aind_init (z_m z_rows'))
               (SelLabel "all-weighted") (vz 1)) = Err IndexError /\
  (* the third origin's 5/4 is ignored by the simple average of the first period *)
  match a2a_avgs ex_gm (z_m z_rows) (a2aind_init (z_m z_rows)) with
  | Ok a => entry a "all-simple" 0 = Some (vz 2) /\ entry a "all-weighted" 0 = Some (vdiv (vz 25) (vz 14))
  | Err _ => False
  end.
Proof.
  assert (U : forall rows i j, qceqb (z_C rows i j) 0 && qceqb (z_C rows i (S j)) 0 = false -> ~ undefined_link (z_C rows) i j).
  { intros rows i j H [A B]. rewrite A, B in H. discriminate. }
  assert (U' : forall rows i j, qceqb (z_C rows i j) 0 && qceqb (z_C rows i (S j)) 0 = true -> undefined_link (z_C rows) i j).
  { intros rows i j H. apply andb_true_iff in H as [A B]. split; apply qceqb_eq; auto. }
  split; [|split; [|split; [|split; [|split; [|split; [|split; [|split]]]]]]].
  - split; intros i Hi.
    + destruct i as [|[|[|i]]]; [exists 0|exists 1|exists 0|lia]; (split; [lia|apply U; vm_compute; reflexivity]).
    + destruct i as [|[|[|i]]]; [exists 0|exists 0|exists 0|lia]; (split; [lia|apply U; vm_compute; reflexivity]).
  - split; intros i Hi.
    + destruct i as [|[|[|i]]]; [exists 1|exists 0|exists 0|lia]; (split; [lia|apply U; vm_compute; reflexivity]).
    + destruct i as [|[|[|i]]]; [exists 1|exists 0|exists 0|lia]; (split; [lia|apply U; vm_compute; reflexivity]).
  - intros j Hj. destruct j as [|[|[|j]]]; [vm_compute; discriminate..|lia].
  - split; [lia|]. split.
    + intros i Hi. destruct i; [|lia]. apply U. vm_compute. reflexivity.
    + intros _. apply U'. vm_compute. reflexivity.
  - split; [lia|]. split; [intros; lia|]. intros _. apply U'. vm_compute. reflexivity.
  - vm_compute. reflexivity.
  - vm_compute. reflexivity.
  - vm_compute. reflexivity.
  - assert (Q : match a2a_avgs ex_gm (z_m z_rows) (a2aind_init (z_m z_rows)) with
      | Ok a => match entry a "all-simple" 0, entry a "all-weighted" 0 with
                | Some x, Some y => vlistb [x; y] [vz 2; vdiv (vz 25) (vz 14)]
                | _, _ => false end
      | Err _ => false end = true) by (vm_compute; reflexivity).
    destruct (a2a_avgs ex_gm (z_m z_rows) (a2aind_init (z_m z_rows))) as [a|]; [|discriminate].
    destruct (entry a "all-simple" 0) as [x|]; [|discriminate].
    destruct (entry a "all-weighted" 0) as [y|]; [|discriminate].
    apply vlistb_eq in Q. injection Q as -> ->. auto.
Qed.
