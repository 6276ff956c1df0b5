(** C15, exactly: which operations work under which column names. *)

From Coq Require Import String QArith Qcanon ZArith List Bool.
From Verif Require Import Val Frame Triangle A2A Base Mack Boot Spec ExTri NamesClaims.
Import ListNotations.
Open Scope string_scope.
Open Scope list_scope.
Open Scope nat_scope.

(** The name of the value column matters to boot_cl and to_cum only. *)
Theorem C15_value_name : forall (m : lmat) (v : string),
  let t := mkTri m "origin" "dev" v in let s := mkTri m "origin" "dev" "value" in
  latest t = latest s /\ latest_by_origin t = latest_by_origin s /\ latest_by_devp t = latest_by_devp s /\
  (forall k, diagonal t k = diagonal s k) /\
  (forall gm cl ind sel tail, base_cl gm t cl ind sel tail = base_cl gm s cl ind sel tail) /\
  (forall cl ind alpha tail, mack_cl t cl ind alpha tail = mack_cl s cl ind alpha tail) /\
  (v <> "value" -> forall gm sq cl rl ind sims par rng, exists e, boot_cl gm sq t cl rl ind sims par rng = Err e).
Proof.
  intros m v. split; [apply nv_latest|]. split; [apply nv_lo|]. split; [apply nv_ld|]. split; [apply nv_diag|].
  split; [apply nv_base|]. split; [apply nv_mack|]. intros H gm sq cl rl ind sims par rng.
  apply no_value_boot. exact H.
Qed.
Print Assumptions C15_value_name.

(** With another name of the origin or dev column none of these operations works. *)
Theorem C15_other_names : forall (t : tri), t_o t <> "origin" \/ t_d t <> "dev" ->
  latest t = Err KeyError /\ latest_by_origin t = Err KeyError /\ latest_by_devp t = Err KeyError /\
  (forall k, exists e, diagonal t k = Err e) /\
  (forall gm cl ind sel tail, exists e, snd (base_cl gm t cl ind sel tail) = Err e) /\
  (forall cl ind alpha tail, exists e, mack_cl t cl ind alpha tail = Err e) /\
  (forall gm sq cl rl ind sims par rng, exists e, boot_cl gm sq t cl rl ind sims par rng = Err e).
Proof.
  intros t H. split; [apply no_latest; auto|]. split; [apply no_lo; auto|]. split; [apply no_ld; auto|].
  split; [apply no_diag; auto|]. split; [apply no_base; auto|]. split; [apply no_mack; auto|apply no_boot; auto].
Qed.
Print Assumptions C15_other_names.

Theorem C15_to_tbl_iff : forall (t : tri) (dropna : bool), (exists f, to_tbl t dropna = Ok f) <-> t_o t = "origin".
Proof. exact to_tbl_iff. Qed.
Print Assumptions C15_to_tbl_iff.

Theorem C15_to_cum_iff : forall (f : frame) (o d v : string) (l : list rec),
  o <> d -> o <> v -> d <> v -> d <> "value" ->
  table_in f o d v l -> l <> [] -> all_finite l ->
  exists ob, totri f "incr" "incr" "tabular" o d v = Ok ob /\
    ((exists t, to_cum (ob_tri ob) = Ok t) <-> o = "origin" /\ d = "dev" /\ v = "value").
Proof. exact to_cum_iff. Qed.
Print Assumptions C15_to_cum_iff.

Definition nm_recs : list rec := [mkrec 1 12 (vz 10); mkrec 1 24 (vz 5); mkrec 2 12 (vz 20)].
Example C15_names_nonvacuous :
  table_in (recs_frame "origin" "dev" "paid" nm_recs) "origin" "dev" "paid" nm_recs /\ all_finite nm_recs /\
  exists ob, totri (recs_frame "origin" "dev" "paid" nm_recs) "cum" "incr" "tabular" "origin" "dev" "paid" = Ok ob /\
    (exists x, latest (ob_tri ob) = Ok x /\ length x = 2) /\
    t_v (ob_tri ob) = "paid".
Proof.
  split; [|split].
  - repeat split; simpl; auto. repeat constructor; simpl; intuition discriminate.
  - intros r H. simpl in H. intuition; subst; eexists; reflexivity.
  - eexists. split; [vm_compute; reflexivity|]. split; [eexists; split; vm_compute; reflexivity|reflexivity].
Qed.
