(** C77: the triangles the chain ladder estimators accept. *)

From Coq Require Import String QArith Qcanon ZArith List Bool Lia.
From Verif Require Import Val Frame Triangle A2A Base Mack ListLib QcLib Spec SpecAccept ExTri AcceptClaims.
Import ListNotations.
Open Scope string_scope.
Open Scope list_scope.
Open Scope nat_scope.

(** Factors given as a list or array: on a triangle in which every origin is observed,
    with n - 1 factors for n periods, base_cl returns a result exactly when there are
    as many origins as periods (or a single period); otherwise it raises ValueError. *)
Theorem C77_list_accepts :
  forall (m : lmat) (os ds : list Z) (f : Z -> Z -> val) (v : string) (cl : list nat),
  increasing os -> increasing ds -> holds m os ds f ->
  (forall o, In o os -> exists d, In d ds /\ f o d <> NaN) -> clvi m = Ok cl ->
  forall (gm : list val -> val) (ind : list (list val)) (l : list val) (tail : val),
  0 < List.length ds -> List.length l = List.length ds - 1 ->
  (List.length os = List.length ds \/ List.length ds = 1 ->
     exists r, snd (base_cl gm (mkTri m "origin" "dev" v) cl ind (SelSeq l) tail) = Ok r) /\
  (List.length os <> List.length ds -> List.length ds <> 1 ->
     snd (base_cl gm (mkTri m "origin" "dev" v) cl ind (SelSeq l) tail) = Err ValueError).
Proof. exact c77_list. Qed.
Print Assumptions C77_list_accepts.

(** The same for every usable selection, a label of the table of averages, a list or
    a Series, when there is a link ratio in every period but the last. *)
Theorem C77_base_accepts :
  forall (m : lmat) (os ds : list Z) (f : Z -> Z -> val) (v : string) (cl : list nat),
  increasing os -> increasing ds -> holds m os ds f ->
  (forall o, In o os -> exists d, In d ds /\ f o d <> NaN) -> clvi m = Ok cl ->
  forall (gm : list val -> val) (ind : list (list val)) (avgs : list (string * list val)) (sel : sel_arg) (tail : val),
  a2a_avgs gm m ind = Ok avgs -> 0 < List.length ds -> List.length (m_cols (a2a m)) = List.length ds - 1 ->
  usable (map fst avgs) (List.length ds) sel ->
  (List.length os = List.length ds \/ List.length ds = 1 ->
     exists r, snd (base_cl gm (mkTri m "origin" "dev" v) cl ind sel tail) = Ok r) /\
  (List.length os <> List.length ds -> List.length ds <> 1 ->
     snd (base_cl gm (mkTri m "origin" "dev" v) cl ind sel tail) = Err ValueError).
Proof. exact c77_base. Qed.
Print Assumptions C77_base_accepts.

(** mack_cl raises ValueError on every triangle with three or more periods whose number
    of origins is not its number of periods. *)
Theorem C77_mack_needs_square :
  forall (m : lmat) (os ds : list Z) (f : Z -> Z -> val) (v : string) (cl : list nat),
  increasing os -> increasing ds -> holds m os ds f ->
  (forall o, In o os -> exists d, In d ds /\ f o d <> NaN) ->
  forall (ind : list (list val)) (alpha : nat) (tail : val),
  2 < List.length ds -> List.length (m_cols (a2a m)) = List.length ds - 1 ->
  List.length os <> List.length ds ->
  mack_cl (mkTri m "origin" "dev" v) cl ind alpha tail = Err ValueError.
Proof. exact c77_mack. Qed.
Print Assumptions C77_mack_needs_square.

(** With one or two periods mack_cl, and base_cl with the name of an average, raise
    IndexError whatever the losses ... *)
Theorem C77_two_periods :
  forall (m : lmat) (os ds : list Z) (f : Z -> Z -> val) (v : string) (cl : list nat),
  increasing os -> increasing ds -> holds m os ds f ->
  (forall o, In o os -> exists d, In d ds /\ f o d <> NaN) ->
  forall (gm : list val -> val) (ind : list (list val)) (s : string) (tail : val) (alpha : nat),
  0 < List.length ds <= 2 -> List.length (m_cols (a2a m)) = List.length ds - 1 ->
  mack_cl (mkTri m "origin" "dev" v) cl ind alpha tail = Err IndexError /\
  forall avgs, a2a_avgs gm m ind = Ok avgs -> In s (map fst avgs) ->
    snd (base_cl gm (mkTri m "origin" "dev" v) cl ind (SelLabel s) tail) = Err IndexError.
Proof. exact c77_short. Qed.
Print Assumptions C77_two_periods.

(** ... and so does mack_cl with three. *)
Theorem C77_mack_three_periods :
  forall (m : lmat) (C : nat -> nat -> Qc) (v : string) (cl : list nat) (alpha : nat) (tail : val),
  regular m 3 C -> positive 3 C -> tail_fits (m_cols m) -> clvi m = Ok cl ->
  mack_cl (mkTri m "origin" "dev" v) cl (a2aind_init m) alpha tail = Err IndexError.
Proof. exact c77_three. Qed.
Print Assumptions C77_mack_three_periods.

(** A trapezoid: four origins, three periods. *)
Definition trap : lmat := mkMat [2001; 2002; 2003; 2004]%Z [12; 24; 36]%Z
  [[vz 100; vz 150; vz 180]; [vz 110; vz 176; vz 200]; [vz 90; vz 120; NaN]; [vz 95; NaN; NaN]].
Definition trap_f (o d : Z) : val := match cell_at trap o d with Some x => x | None => NaN end.
Definition three : lmat := mkMat [2001; 2002; 2003]%Z [12; 24; 36]%Z
  [[vz 100; vz 150; vz 180]; [vz 110; vz 176; NaN]; [vz 90; NaN; NaN]].
Definition three_C (i j : nat) : Qc := match i, j with
  | 0, 0 => qz 100 | 0, 1 => qz 150 | 0, _ => qz 180 | 1, 0 => qz 110 | 1, _ => qz 176 | _, _ => qz 90 end.
Definition two : lmat := mkMat [2001; 2002]%Z [12; 24]%Z [[vz 100; vz 150]; [vz 110; NaN]].
Definition two_f (o d : Z) : val := match cell_at two o d with Some x => x | None => NaN end.

Example C77_nonvacuous :
  (holds trap [2001; 2002; 2003; 2004]%Z [12; 24; 36]%Z trap_f /\
   (forall o, In o [2001; 2002; 2003; 2004]%Z -> exists d, In d [12; 24; 36]%Z /\ trap_f o d <> NaN) /\
   clvi trap = Ok [3; 2; 1] /\ List.length (m_cols (a2a trap)) = 2 /\
   match a2a_avgs ex_gm trap (a2aind_init trap) with
   | Ok avgs => existsb (String.eqb "all-weighted") (map fst avgs) = true | Err _ => False end /\
   snd (base_cl ex_gm (mkTri trap "origin" "dev" "value") [3; 2; 1] (a2aind_init trap) (SelLabel "all-weighted") (vz 1)) = Err ValueError) /\
  (regular three 3 three_C /\ positive 3 three_C /\ tail_fits (m_cols three) /\ clvi three = Ok [2; 1; 0]) /\
  (holds two [2001; 2002]%Z [12; 24]%Z two_f /\
   (forall o, In o [2001; 2002]%Z -> exists d, In d [12; 24]%Z /\ two_f o d <> NaN) /\ List.length (m_cols (a2a two)) = 1 /\
   match a2a_avgs ex_gm two (a2aind_init two) with
   | Ok avgs => existsb (String.eqb "all-weighted") (map fst avgs) = true | Err _ => False end).
Proof.
  split; [|split].
  - split.
    { repeat split; auto.
      + intros row H. simpl in H. repeat (destruct H as [<-|H]; [reflexivity|]). contradiction.
      + intros i j Hi Hj. simpl in Hi, Hj. do 4 (destruct i as [|i]; [do 3 (destruct j as [|j]; [vm_compute; reflexivity|]); lia|]). lia. }
    split; [|split; [vm_compute; reflexivity|split; [vm_compute; reflexivity|split; vm_compute; reflexivity]]].
    intros o H. exists 12%Z. split; [left; auto|]. simpl in H. repeat (destruct H as [<-|H]; [discriminate|]). contradiction.
  - split; [|split; [|split; [|vm_compute; reflexivity]]].
    + repeat split; simpl; auto.
      * repeat constructor.
      * repeat constructor.
      * intros row H. repeat (destruct H as [<-|H]; [reflexivity|]). contradiction.
      * intros i j Hi Hj. do 3 (destruct i as [|i]; [do 3 (destruct j as [|j]; [reflexivity|]); lia|]). lia.
    + intros i j L. destruct i as [|[|[|i]]], j as [|[|[|j]]]; try lia; reflexivity.
    + split; [intros j Hj; cbn in Hj; do 2 (destruct j as [|j]; [cbn; lia|]); lia|exists 0; cbn; lia].
  - split; [|split; [|split; vm_compute; reflexivity]].
    { repeat split; auto.
      + intros row H. simpl in H. repeat (destruct H as [<-|H]; [reflexivity|]). contradiction.
      + intros i j Hi Hj. simpl in Hi, Hj. do 2 (destruct i as [|i]; [do 2 (destruct j as [|j]; [vm_compute; reflexivity|]); lia|]). lia. }
    intros o H. exists 12%Z. split; [left; auto|]. simpl in H. repeat (destruct H as [<-|H]; [discriminate|]). contradiction.
Qed.
