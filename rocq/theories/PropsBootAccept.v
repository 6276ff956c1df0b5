(** C77, bootstrap: the triangles boot_cl accepts. *)

From Coq Require Import String QArith Qcanon ZArith List Bool Lia.
From Verif Require Import Val Frame Triangle A2A Base Mack Boot ListLib QcLib Spec Spec2 BootAccept ExTri PropsBase ExMack PropsBoot PropsAccept.
Import ListNotations.
Open Scope string_scope.
Open Scope list_scope.
Open Scope nat_scope.

(** Unlike base_cl and mack_cl, boot_cl does not ask for as many origins as periods:
    a parametric bootstrap of a gap-free triangle with three or more periods always
    returns, and the non-parametric one does unless there is no residual to draw. *)
Theorem C77_boot_accepts_any_shape :
  forall (m : lmat) (os ds : list Z) (f : Z -> Z -> val),
  increasing os -> increasing ds -> os <> [] -> holds m os ds f ->
  gap_free os ds f -> finite_cells os ds f -> covered os ds f -> positive_first os ds f ->
  forall (gm : list val -> val) (rt : val -> val) (cl rl : list nat) (ind : list (list val)) (avgs : list (string * list val))
         (sims : nat) (rng : list val -> (nat -> val) * (list (val * val) -> nat -> val)),
  a2a_avgs gm m ind = Ok avgs -> In "all-weighted" (map fst avgs) ->
  2 < List.length ds -> List.length (m_cols (a2a m)) = List.length ds - 1 ->
  exists b, boot_cl gm rt (mkTri m "origin" "dev" "value") cl rl ind sims true rng = Ok b /\
    (o_dist b <> [] -> boot_cl gm rt (mkTri m "origin" "dev" "value") cl rl ind sims false rng = Ok b) /\
    (o_dist b = [] -> 0 < sims -> boot_cl gm rt (mkTri m "origin" "dev" "value") cl rl ind sims false rng = Err ValueError).
Proof. exact boot_ok. Qed.
Print Assumptions C77_boot_accepts_any_shape.

(** With one or two periods it raises IndexError. *)
Theorem C77_boot_two_periods :
  forall (m : lmat) (ds : list Z) (gm : list val -> val) (rt : val -> val) (cl rl : list nat) (ind : list (list val))
         (avgs : list (string * list val)) (sims : nat) (par : bool)
         (rng : list val -> (nat -> val) * (list (val * val) -> nat -> val)),
  a2a_avgs gm m ind = Ok avgs -> In "all-weighted" (map fst avgs) ->
  0 < List.length ds <= 2 -> List.length (m_cols (a2a m)) = List.length ds - 1 ->
  boot_cl gm rt (mkTri m "origin" "dev" "value") cl rl ind sims par rng = Err IndexError.
Proof. exact boot_short. Qed.
Print Assumptions C77_boot_two_periods.

(** The trapezoid base_cl refuses is bootstrapped. *)
Example C77_boot_nonvacuous :
  let os := [2001; 2002; 2003; 2004]%Z in let ds := [12; 24; 36]%Z in
  increasing os /\ increasing ds /\ holds trap os ds trap_f /\ gap_free os ds trap_f /\ finite_cells os ds trap_f /\
  covered os ds trap_f /\ positive_first os ds trap_f /\
  match a2a_avgs ex_gm trap (a2aind_init trap) with Ok avgs => In "all-weighted" (map fst avgs) | Err _ => False end /\
  List.length (m_cols (a2a trap)) = 2 /\
  match boot_cl ex_gm ex_rt (mkTri trap "origin" "dev" "value") [3; 2; 1] [2; 2; 1; 0] (a2aind_init trap) 1 false ex_rng with
  | Ok b => List.length (o_summary b) = 4 /\ List.length (o_reserves b) = 4 | Err _ => False end.
Proof.
  cbv zeta.
  assert (Tf : forall o d, In o [2001; 2002; 2003; 2004]%Z -> In d [12; 24; 36]%Z ->
    trap_f o d = NaN \/ exists z, (0 < z)%Z /\ trap_f o d = vz z).
  { intros o d Ho Hd. simpl in Ho, Hd.
    repeat (destruct Ho as [<-|Ho]; [repeat (destruct Hd as [<-|Hd];
      [first [left; reflexivity|right; eexists; split; [|reflexivity]; reflexivity]|]); contradiction|]). contradiction. }
  split; [repeat constructor|]. split; [repeat constructor|].
  split; [exact (proj1 (proj1 C77_nonvacuous))|].
  split.
  { intros o d d' Ho Hd Hd' L N. simpl in Ho, Hd, Hd'.
    repeat (destruct Ho as [<-|Ho]; [repeat (destruct Hd as [<-|Hd];
      [repeat (destruct Hd' as [<-|Hd']; [first [discriminate|exfalso; apply N; reflexivity|lia]|]); contradiction|]); contradiction|]). contradiction. }
  split.
  { intros o d Ho Hd. destruct (Tf o d Ho Hd) as [->|(z & _ & ->)]; [auto|right; unfold vz; eauto]. }
  split.
  { split.
    - intros o Ho. exists 12%Z. split; [left; auto|]. simpl in Ho. repeat (destruct Ho as [<-|Ho]; [discriminate|]). contradiction.
    - intros d Hd. exists 2001%Z. split; [left; auto|]. simpl in Hd. repeat (destruct Hd as [<-|Hd]; [discriminate|]). contradiction. }
  split.
  { intros o d Ho Hd _. destruct (Tf o d Ho Hd) as [->|(z & Hz & ->)]; [auto|right].
    unfold vz, vltb. destruct (qcltb_spec 0 (qz z)) as [|Q]; auto. exfalso. apply Q. change 0%Qc with (qz 0). apply qz_lt. exact Hz. }
  split; [vm_compute; tauto|]. split; vm_compute; auto.
Qed.
