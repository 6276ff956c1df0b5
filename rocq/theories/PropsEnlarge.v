(** C78: assignments to labels outside the link ratio table. *)

From Coq Require Import String QArith Qcanon ZArith List Bool Lia.
From Verif Require Import Val Frame Triangle A2A Base Mack State SpecState ListLib QcLib Spec Enlarge ExTri EnlargeClaims EnlargeMid.
Import ListNotations.
Open Scope string_scope.
Open Scope list_scope.
Open Scope nat_scope.

(** Assignments to periods of the table, and to origins of the table or later ones (the
    youngest origin has no link ratio): the averages and base_cl are those of the
    indicators last assigned to the cells of the table; the others have no effect. *)
Theorem C78_later_origins : forall m : lmat, increasing (m_idx m) -> increasing (m_cols m) ->
  forall (gm : list val -> val) (l : list (Z * Z * val)) (ind : list (list val)) (v : string) (cl : list nat) (s : string) (tail : val),
  let I := m_idx (a2a m) in let A := m_cols (a2a m) in
  (forall a, In a l -> In (snd (fst a)) A /\ (In (fst (fst a)) I \/ forall o, In o I -> (o < fst (fst a))%Z)) ->
  (forall i j, i < List.length I -> j < List.length A ->
     nth j (nth i ind []) NaN = match last_value l (nth i I 0%Z) (nth j A 0%Z) with
                                | Some v => v | None => nth j (nth i (a2aind_init m) []) NaN end) ->
  avgs_in gm m (frame_after m l) = a2a_avgs gm m ind /\
  base_cl_in gm (mkTri m "origin" "dev" v) cl (frame_after m l) s tail
  = snd (base_cl gm (mkTri m "origin" "dev" v) cl ind (SelLabel s) tail).
Proof. exact c78_base_late. Qed.
Print Assumptions C78_later_origins.

(** One assignment to a period that is not in the table (such as the last development
    period), or to an origin before the first, and every later a2a_avgs and base_cl with
    a named average raises IndexError, whatever is assigned afterwards. *)
Theorem C78_outside_refuted : forall m : lmat, increasing (m_idx m) -> increasing (m_cols m) ->
  forall (gm : list val -> val) (l : list (Z * Z * val)) (a : Z * Z * val) (v : string) (cl : list nat) (s : string) (tail : val),
  let I := m_idx (a2a m) in let A := m_cols (a2a m) in
  In a l -> ~ In (snd (fst a)) A \/ (forall o, In o I -> (fst (fst a) < o)%Z) /\ 0 < List.length A ->
  avgs_in gm m (frame_after m l) = Err IndexError /\
  base_cl_in gm (mkTri m "origin" "dev" v) cl (frame_after m l) s tail = Err IndexError.
Proof. exact c78_base_fail. Qed.
Print Assumptions C78_outside_refuted.

(** Assignments to periods of the table and to any origins.  If one of them is to an
    origin that the table has not, the link ratios of all later origins are lost: the
    averages and base_cl are those of a table whose indicators are missing there, and
    those last assigned before it. *)
Theorem C78_any_origins : forall m : lmat, increasing (m_idx m) -> increasing (m_cols m) ->
  forall (gm : list val -> val) (l : list (Z * Z * val)) (ind : list (list val)) (v : string) (cl : list nat) (s : string) (tail : val),
  let I := m_idx (a2a m) in let A := m_cols (a2a m) in
  let cut i := exists a, In a l /\ ~ In (fst (fst a)) I /\ (fst (fst a) < nth i I 0)%Z in
  (forall a, In a l -> In (snd (fst a)) A) ->
  (forall i j, i < List.length I -> j < List.length A -> cut i -> nth j (nth i ind []) NaN = NaN) ->
  (forall i j, i < List.length I -> j < List.length A -> ~ cut i ->
     nth j (nth i ind []) NaN = match last_value l (nth i I 0%Z) (nth j A 0%Z) with
                                | Some v => v | None => nth j (nth i (a2aind_init m) []) NaN end) ->
  avgs_in gm m (frame_after m l) = a2a_avgs gm m ind /\
  base_cl_in gm (mkTri m "origin" "dev" v) cl (frame_after m l) s tail
  = snd (base_cl gm (mkTri m "origin" "dev" v) cl ind (SelLabel s) tail).
Proof. exact c78_base_any. Qed.
Print Assumptions C78_any_origins.

(** On a triangle without the origin 2003: assigning to it removes the link ratio of
    2004, and with it changes an average. *)
Definition gap_m : lmat := mkMat [2001; 2002; 2004; 2005]%Z (m_cols ex_m) (m_cells ex_m).
Definition gap_l : list (Z * Z * val) := [(2003, 12, vz 0)]%Z.
Definition gap_ind : list (list val) :=
  [[vz 1; vz 1; vz 1]; [vz 1; vz 1; vz 0]; [NaN; NaN; NaN]].
Example C78_any_origins_nonvacuous :
  let I := m_idx (a2a gap_m) in let A := m_cols (a2a gap_m) in
  let cut i := exists a, In a gap_l /\ ~ In (fst (fst a)) I /\ (fst (fst a) < nth i I 0)%Z in
  I = [2001; 2002; 2004]%Z /\ A = [12; 24; 36]%Z /\
  (forall a, In a gap_l -> In (snd (fst a)) A) /\
  (forall i j, i < 3 -> j < 3 -> cut i -> nth j (nth i gap_ind []) NaN = NaN) /\
  (forall i j, i < 3 -> j < 3 -> ~ cut i ->
     nth j (nth i gap_ind []) NaN = match last_value gap_l (nth i I 0%Z) (nth j A 0%Z) with
                                | Some v => v | None => nth j (nth i (a2aind_init gap_m) []) NaN end) /\
  is_ok (avgs_in ex_gm gap_m (frame_after gap_m gap_l)) = true /\
  nth 0 (snd (nth 0 (match avgs_in ex_gm gap_m (frame_after gap_m gap_l) with Ok l => l | Err _ => [] end) (""%string, []))) NaN
  <> nth 0 (snd (nth 0 (match a2a_avgs ex_gm gap_m (a2aind_init gap_m) with Ok l => l | Err _ => [] end) (""%string, []))) NaN.
Proof.
  cbv zeta.
  assert (E1 : m_idx (a2a gap_m) = [2001; 2002; 2004]%Z) by (vm_compute; reflexivity).
  assert (E2 : m_cols (a2a gap_m) = [12; 24; 36]%Z) by (vm_compute; reflexivity).
  rewrite E1, E2. split; [auto|]. split; [auto|]. split; [|split; [|split; [|split]]].
  - intros a [<-|[]]. simpl. auto.
  - intros i j Hi Hj (a & [<-|[]] & _ & H). cbn [fst] in H.
    do 2 (destruct i as [|i]; [cbn in H; lia|]). destruct i as [|i]; [|lia].
    do 3 (destruct j as [|j]; [reflexivity|]). lia.
  - intros i j Hi Hj H.
    do 2 (destruct i as [|i]; [do 3 (destruct j as [|j]; [vm_compute; reflexivity|]); lia|]).
    exfalso. apply H. destruct i as [|i]; [|lia]. exists (2003, 12, vz 0)%Z. split; [left; auto|]. cbn. split; lia.
  - vm_compute. reflexivity.
  - assert (K : veqb (nth 0 (snd (nth 0 (match avgs_in ex_gm gap_m (frame_after gap_m gap_l) with Ok l => l | Err _ => [] end) (""%string, []))) NaN)
      (nth 0 (snd (nth 0 (match a2a_avgs ex_gm gap_m (a2aind_init gap_m) with Ok l => l | Err _ => [] end) (""%string, []))) NaN) = false)
      by (vm_compute; reflexivity).
    intro E. rewrite E in K. revert K. vm_compute. discriminate.
Qed.

(** The table after the assignments holds the values last assigned, and grows by the
    labels that were missing. *)
Theorem C78_table : forall m : lmat, increasing (m_idx m) -> increasing (m_cols m) -> forall l : list (Z * Z * val),
  let F := frame_after m l in
  NoDup (m_idx F) /\ NoDup (m_cols F) /\
  (forall o, In o (m_idx F) <-> In o (m_idx (a2a m)) \/ exists a, In a l /\ fst (fst a) = o) /\
  (forall d, In d (m_cols F) <-> In d (m_cols (a2a m)) \/ exists a, In a l /\ snd (fst a) = d) /\
  (forall o d, mget F o d = match last_value l o d with Some v => v | None => mget (ind_frame m) o d end).
Proof. exact after_inv. Qed.
Print Assumptions C78_table.

(** On ex_m (origins 2001-2004, periods 12-48; the table has 2001-2003 and 12-36): the
    youngest origin and an excluded ratio; the last period. *)
Definition late_l : list (Z * Z * val) := [(2004, 12, vz 0); (2002, 12, vz 0)]%Z.
Definition out_l : list (Z * Z * val) := [(2001, 48, vz 0); (2001, 12, vz 1)]%Z.
Example C78_nonvacuous :
  m_idx (a2a ex_m) = [2001; 2002; 2003]%Z /\ m_cols (a2a ex_m) = [12; 24; 36]%Z /\
  (forall a, In a late_l -> In (snd (fst a)) (m_cols (a2a ex_m)) /\
     (In (fst (fst a)) (m_idx (a2a ex_m)) \/ forall o, In o (m_idx (a2a ex_m)) -> (o < fst (fst a))%Z)) /\
  (forall i j, i < 3 -> j < 3 ->
     nth j (nth i (upd2 (a2aind_init ex_m) 1 0 (vz 0)) []) NaN
     = match last_value late_l (nth i [2001; 2002; 2003]%Z 0%Z) (nth j [12; 24; 36]%Z 0%Z) with
       | Some v => v | None => nth j (nth i (a2aind_init ex_m) []) NaN end) /\
  is_ok (avgs_in ex_gm ex_m (frame_after ex_m late_l)) = true /\
  avgs_in ex_gm ex_m (frame_after ex_m out_l) = Err IndexError /\
  (exists a, In a out_l /\ ~ In (snd (fst a)) (m_cols (a2a ex_m))).
Proof.
  assert (E1 : m_idx (a2a ex_m) = [2001; 2002; 2003]%Z) by (vm_compute; reflexivity).
  assert (E2 : m_cols (a2a ex_m) = [12; 24; 36]%Z) by (vm_compute; reflexivity).
  rewrite E1, E2. split; [auto|]. split; [auto|]. split; [|split; [|split; [|split]]].
  - intros a [<-|[<-|[]]]; cbn [fst snd]; (split; [simpl; auto|]); [right|left; simpl; auto].
    intros o H. simpl in H. lia.
  - intros i j Hi Hj. do 3 (destruct i as [|i]; [do 3 (destruct j as [|j]; [vm_compute; reflexivity|]); lia|]). lia.
  - vm_compute. reflexivity.
  - vm_compute. reflexivity.
  - exists (2001, 48, vz 0)%Z. split; [left; auto|]. simpl. lia.
Qed.
