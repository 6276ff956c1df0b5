(** C70, C71: the data of the pictures. *)

From Coq Require Import String QArith Qcanon Qreals Reals Lra Lia ZArith List Bool.
From Verif Require Import Val QcLib Frame Triangle A2A Base Mack Dist Infer Plot Curve Spec SpecTail SpecCurve SpecDist.
From Verif Require Import QtlClaims CurveClaims ExTri ExMack PropsDist PropsTri2.
Import ListNotations.
Open Scope list_scope.
Local Open Scope R_scope.

(** ** C70.  The curve of an origin, or of the total, is 100 equally spaced points of the
    density of the law fitted to its reserve and standard error, from the .001 to the
    .999 quantile. *)
Theorem C70_normal_curve :
  forall (ppf : R -> R) (k : mack_result) (i : nat) (o : option Z) (r e : R),
  std_ppf ppf -> NoDup (map s_origin (c_rows (k_cl k))) ->
  nth_error (rv_index k) i = Some o ->
  nth_error (mack_reserves k) i = Some (FR r) -> nth_error (mack_std_errors k) i = Some (FR e) -> 0 < e ->
  exists loc scale cs,
    mean (normal loc scale) r /\ std_dev (normal loc scale) e /\
    mack_data_transform ppf "norm" k = Ok cs /\ density_curve (normal loc scale) (points o cs).
Proof. exact c70_normal. Qed.
Print Assumptions C70_normal_curve.

Theorem C70_lognormal_curve :
  forall (ppf : R -> R) (k : mack_result) (i : nat) (o : option Z) (r e : R),
  std_ppf ppf -> NoDup (map s_origin (c_rows (k_cl k))) ->
  nth_error (rv_index k) i = Some o ->
  nth_error (mack_reserves k) i = Some (FR r) -> nth_error (mack_std_errors k) i = Some (FR e) ->
  0 < r -> 0 < e ->
  exists s c cs,
    mean (lognormal s c) (Rmax r 1) /\ std_dev (lognormal s c) (Rmax r 1 * (e / r)) /\
    mack_data_transform ppf "lognorm" k = Ok cs /\ density_curve (lognormal s c) (points o cs).
Proof. exact c70_lognormal. Qed.
Print Assumptions C70_lognormal_curve.

(** A row without standard error (the oldest origin) has no curve. *)
Theorem C70_no_error_no_curve :
  forall (ppf : R -> R) (k : mack_result) (i : nat) (o : option Z) (r : R) (dist : string),
  dist = "norm"%string \/ dist = "lognorm"%string -> NoDup (map s_origin (c_rows (k_cl k))) ->
  nth_error (rv_index k) i = Some o ->
  nth_error (mack_reserves k) i = Some (FR r) -> nth_error (mack_std_errors k) i = Some (FR 0) ->
  exists cs, mack_data_transform ppf dist k = Ok cs /\ points o cs = [].
Proof. exact c70_no_error. Qed.
Print Assumptions C70_no_error_no_curve.

(** No picture with these curves is ever drawn: [plot ()] and [diagnostics ()] read
    columns that their tables do not have. *)
Theorem C70_plot_drawn_refuted : forall m cl k, exists e, mack_plot m cl k = Err e.
Proof. exact c70_plot_raises. Qed.
Print Assumptions C70_plot_drawn_refuted.
Theorem C70_diagnostics_drawn_refuted : forall ppf dist k, exists e, mack_diagnostics ppf dist k = Err e.
Proof. exact c70_diagnostics_raises. Qed.
Print Assumptions C70_diagnostics_drawn_refuted.

Example C70_nonvacuous :
  std_ppf lub_ppf /\ NoDup (map s_origin (c_rows (k_cl ex_k))) /\
  (exists o, nth_error (rv_index ex_k) 1 = Some (Some o)) /\
  (exists e, nth_error (mack_reserves ex_k) 1 = Some (FR 10) /\
     nth_error (mack_std_errors ex_k) 1 = Some (FR e) /\ 0 < 10 /\ 0 < e).
Proof.
  split; [apply lub_ppf_std|]. split; [vm_compute; repeat constructor; simpl; intuition discriminate|].
  split; [eexists; vm_compute; reflexivity|].
  destruct C34_nonvacuous as ((e & A & B & C & D) & _). exists e. repeat split; try assumption; lra.
Qed.
Local Close Scope R_scope.

(** ** C71.  The line of an origin joins its observed losses, in development order; the
    ticks are the observed development periods.  Both views. *)
Theorem C71_combined_lines :
  forall (m : lmat) (os ds : list Z) (f : Z -> Z -> val) (display : string),
    increasing os -> increasing ds -> holds m os ds f ->
    String.prefix "f" display = false ->
    (forall o, In o os -> exists d, In d ds /\ f o d <> NaN) ->
    exists ticks, plot_lines (mkTri m "origin" "dev" "value") display
      = Ok (map (fun o => (o, seen ds f o)) os, ticks) /\ ticks_of os ds f ticks.
Proof.
  intros m os ds f display So Sd H P Hc. apply c71_combined; try assumption.
  intros o Ho E. destruct (Hc o Ho) as (d & Hd & Hn). apply Hn. exact (proj1 (seen_none ds f o) E d Hd).
Qed.
Print Assumptions C71_combined_lines.

Theorem C71_faceted_lines :
  forall (m : lmat) (os ds : list Z) (f : Z -> Z -> val) (display : string),
    increasing os -> increasing ds -> holds m os ds f ->
    String.prefix "f" display = true ->
    exists ticks, plot_lines (mkTri m "origin" "dev" "value") display
      = Ok (map (fun o => (o, seen ds f o))
              (filter (fun o => match seen ds f o with [] => false | _ => true end) os), ticks) /\
      ticks_of os ds f ticks.
Proof. exact c71_faceted. Qed.
Print Assumptions C71_faceted_lines.

(** An origin without any observed loss: the combined view cannot be drawn. *)
Theorem C71_unobserved_origin_refuted :
  forall (m : lmat) (os ds : list Z) (f : Z -> Z -> val) (display : string) (o : Z),
    increasing os -> increasing ds -> holds m os ds f ->
    String.prefix "f" display = false -> In o os -> (forall d, In d ds -> f o d = NaN) ->
    plot_lines (mkTri m "origin" "dev" "value") display = Err KeyError.
Proof. exact c71_missing. Qed.
Print Assumptions C71_unobserved_origin_refuted.

Example C71_nonvacuous :
  increasing tri_os /\ increasing tri_ds /\ holds tri_mat tri_os tri_ds tri_f /\
  (exists l ticks, plot_lines (mkTri tri_mat "origin" "dev" "value") "combined" = Ok (l, ticks) /\
     List.length l = 3%nat /\ List.length ticks = 3%nat) /\
  (exists m ob, holds m [1; 2]%Z [1; 2]%Z (fun o d => if (o =? 1)%Z then NaN else vz d) /\
     plot_lines (mkTri m "origin" "dev" "value") "combined" = Err KeyError /\
     plot_lines (mkTri m "origin" "dev" "value") "faceted" = Ok ob).
Proof.
  split; [apply tri_increasing|]. split; [apply tri_increasing|]. split; [exact tri_holds|]. split.
  - eexists _, _. split; [vm_compute; reflexivity|]. split; reflexivity.
  - exists (mkMat [1; 2]%Z [1; 2]%Z [[NaN; NaN]; [vz 1; vz 2]]). eexists. split.
    + split; [reflexivity|]. split; [reflexivity|]. split; [reflexivity|]. split.
      * intros row [<-|[<-| []]]; reflexivity.
      * intros [|[|i]] [|[|j]] Hi Hj; cbn in Hi, Hj; try lia; reflexivity.
    + split; vm_compute; reflexivity.
Qed.
