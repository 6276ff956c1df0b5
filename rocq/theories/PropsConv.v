(** C04 and C08, exactly. *)

From Coq Require Import String QArith Qcanon ZArith List Bool Lia Sorting.Sorted.
From Verif Require Import Val Frame Triangle QcLib Spec SpecCum SpecStack ExTri StackClaims ConvIff.
Import ListNotations.
Open Scope list_scope.
Open Scope string_scope.
Open Scope nat_scope.

(** ** C04.  The cells of the cumulative triangle of stacked companies, each in development order: every company
    reporting a cell contributes its running total plus the whole totals of the origin for all companies above it. *)
Theorem C04_stacked_exactly :
  forall (f : frame) (o d v : string) (cs : list (list rec)),
    o <> d -> o <> v -> d <> v -> o <> "cumval" -> d <> "cumval" -> v <> "cumval" ->
    let l := List.concat cs in
    table_in f o d v l -> l <> [] -> (forall c, In c cs -> all_finite c /\ dev_sorted c) ->
    exists ob, totri f "cum" "incr" "tabular" o d v = Ok ob /\
      forall og dv, recorded l og dv ->
        cell_at (t_mat (ob_tri ob)) og dv = Some (stacked (earliest l dv) (Fin 0%Qc) cs og dv).
Proof. exact c04_stacked. Qed.
Print Assumptions C04_stacked_exactly.

(** With positive losses every cell that all of two or more companies report is too large. *)
Theorem C04_stacked_overstated :
  forall (f : frame) (o d v : string) (c1 c2 : list rec) (cs : list (list rec)),
    o <> d -> o <> v -> d <> v -> o <> "cumval" -> d <> "cumval" -> v <> "cumval" ->
    let l := List.concat (c1 :: c2 :: cs) in
    table_in f o d v l -> l <> [] -> (forall c, In c (c1 :: c2 :: cs) -> positive_losses c /\ dev_sorted c) ->
    exists ob, totri f "cum" "incr" "tabular" o d v = Ok ob /\
      forall og dv, (forall c, In c (c1 :: c2 :: cs) -> recorded c og dv) ->
        exists x y, cell_at (t_mat (ob_tri ob)) og dv = Some (Fin x) /\
          val_sum (map (fun c => running_total c og dv) (c1 :: c2 :: cs)) = Fin y /\ (y < x)%Qc.
Proof. exact c04_overstated. Qed.
Print Assumptions C04_stacked_overstated.

(** Two companies with 10, 5 and 100, 50 in the same origin: 10 + (15 + 100) = 125 and 15 + (15 + 150) = 180,
    instead of 110 and 165. *)
Definition st1 : list rec := [mkrec 1 1 (vz 10); mkrec 1 2 (vz 5)].
Definition st2 : list rec := [mkrec 1 1 (vz 100); mkrec 1 2 (vz 50)].
Example C04_stacked_nonvacuous :
  table_in (recs_frame "ay" "age" "paid" (List.concat [st1; st2])) "ay" "age" "paid" (List.concat [st1; st2]) /\
  (forall c, In c [st1; st2] -> positive_losses c /\ dev_sorted c) /\
  (forall c, In c [st1; st2] -> recorded c 1 2) /\
  vsame (stacked (earliest (List.concat [st1; st2]) 1) (Fin 0%Qc) [st1; st2] 1 1) (vz 125) = true /\
  vsame (stacked (earliest (List.concat [st1; st2]) 2) (Fin 0%Qc) [st1; st2] 1 2) (vz 180) = true /\
  exists ob, totri (recs_frame "ay" "age" "paid" (List.concat [st1; st2])) "cum" "incr" "tabular" "ay" "age" "paid" = Ok ob /\
    vmatb (m_cells (t_mat (ob_tri ob))) [[vz 125; vz 180]] = true.
Proof.
  split; [|split; [|split; [|split; [|split]]]].
  - repeat split; simpl; auto. repeat constructor; simpl; intuition discriminate.
  - intros c [<-|[<-|[]]]; split; try (repeat (constructor; simpl; try (intro; discriminate); try lia)).
    + intros r [<-|[<-|[]]]; eexists; (split; [reflexivity|reflexivity]).
    + intros r [<-|[<-|[]]]; eexists; (split; [reflexivity|reflexivity]).
  - intros c [<-|[<-|[]]]; vm_compute; auto.
  - vm_compute. reflexivity.
  - vm_compute. reflexivity.
  - eexists. split; vm_compute; reflexivity.
Qed.

(** ** C08.  For every finite table in development order: cumulating the incremental triangle gives the cumulative
    triangle exactly when no missing cell was filled, and every origin with records after the first period has a
    positive first value (or none). *)
Theorem C08_iff :
  forall (f : frame) (l : list rec),
    table_in f "origin" "dev" "value" l -> l <> [] -> all_finite l -> dev_sorted l ->
    exists ob ob' t, totri f "incr" "incr" "tabular" "origin" "dev" "value" = Ok ob /\
      totri f "cum" "incr" "tabular" "origin" "dev" "value" = Ok ob' /\
      to_cum (ob_tri ob) = Ok t /\
      (t = ob_tri ob' <->
        (forall o d, In o (map r_o l) -> In d (map r_d l) -> recorded l o d \/ cut_off l o d) /\
        (forall r r', In r l -> In r' l -> r_o r = r_o r' -> first_dev l (r_d r) -> (r_d r < r_d r')%Z ->
           vltb (Fin 0%Qc) (r_v r) = true)).
Proof. exact c08_iff. Qed.
Print Assumptions C08_iff.

(** A negative first value of an origin without later records does no harm. *)
Definition c08x_recs : list rec := [mkrec 1 1 (vz 10); mkrec 1 2 (vz 5); mkrec 2 1 (vz (-3))].
Example C08_iff_nonvacuous :
  table_in (recs_frame "origin" "dev" "value" c08x_recs) "origin" "dev" "value" c08x_recs /\
  all_finite c08x_recs /\ dev_sorted c08x_recs /\
  (forall o d, In o (map r_o c08x_recs) -> In d (map r_d c08x_recs) -> recorded c08x_recs o d \/ cut_off c08x_recs o d) /\
  (forall r r', In r c08x_recs -> In r' c08x_recs -> r_o r = r_o r' -> first_dev c08x_recs (r_d r) -> (r_d r < r_d r')%Z ->
     vltb (Fin 0%Qc) (r_v r) = true).
Proof.
  split; [|split; [|split; [|split]]].
  - repeat split; simpl; auto. repeat constructor; simpl; intuition discriminate.
  - intros r H. simpl in H. intuition; subst; eexists; reflexivity.
  - repeat (constructor; simpl; try (intro; discriminate); try lia).
  - intros o d Ho Hd. cbn in Ho, Hd. unfold recorded.
    assert (Co : o = 1%Z \/ o = 2%Z) by intuition. assert (Cd : d = 1%Z \/ d = 2%Z) by intuition.
    destruct Co as [->| ->], Cd as [->| ->]; try (left; vm_compute; tauto).
    right. exists 2%Z. split; [vm_compute; tauto|]. split; [lia|]. split; [|split].
    + intros [_ W]. specialize (W 1%Z). cbn in W. assert (2 <= 1)%Z by (apply W; auto). lia.
    + intros (o' & Ho' & W). cbn in W. destruct W as [W|[W|[W|[]]]]; injection W; intros; subst; lia.
    + intros e He W. assert (e = 2%Z) by lia. subst e. cbn in W. destruct W as [W|[W|[W|[]]]]; injection W; intros; discriminate.
  - intros r r' Hr Hr' Eo _ Lt. cbn in Hr, Hr'. intuition; subst; try reflexivity; cbn in Eo, Lt; try discriminate; lia.
Qed.
