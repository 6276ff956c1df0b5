(** C72, C73: the exhibits of the chain ladder and of the bootstrap. *)

From Coq Require Import String QArith Qcanon ZArith List Bool Lia.
From Verif Require Import Val QcLib Frame Triangle A2A Base Boot Quant Plot Panels Spec SpecQuant SpecPanels PanelClaims.
From Verif Require Import ExTri PropsPlot PropsQuant.
Import ListNotations.
Open Scope list_scope.
Open Scope nat_scope.

(** ** C72.  [plot ()] makes one panel per origin, in order, and one for the total.  The
    ticks of the x axis are the plotted periods; the y axis has five equidistant ticks
    from 0 to a bound above the largest loss of the panel (and below its double).  It
    fails exactly when the largest loss of some panel is not inside a decade. *)
Theorem C72_panels_partial :
  forall (m : lmat) (cl : list nat) (r : cl_result) (l : list plotrec),
  data_transform m cl r = Ok l -> (forall q, In q l -> exists x, q_loss q = Fin x) ->
  exists os, increasing os /\ (forall o, In o os <-> exists q, In q l /\ q_origin q = Some o) /\
  let labels := map Some os ++ [None] in
  (forall o, In o labels -> exists x, greatest_loss l o x) /\
  ((forall o x, In o labels -> greatest_loss l o x -> decade x) ->
     exists panels, base_plot m cl r = Ok panels /\ map n_label panels = labels /\
       forall p, In p panels ->
         n_points p = [] /\
         increasing (n_xticks p) /\ (forall d, In d (n_xticks p) <-> exists q, In q l /\ q_dev q = d) /\
         exists x u, greatest_loss l (n_label p) x /\
           n_yticks p = map (fun k => u * (qn k / qz 4))%Qc (seq 0 5) /\ (x < u)%Qc /\ (u < x + x)%Qc) /\
  ((exists o x, In o labels /\ greatest_loss l o x /\ ~ decade x) -> base_plot m cl r = Err ValueError).
Proof. exact c72. Qed.
Print Assumptions C72_panels_partial.

(** The panels stay empty: no loss is drawn in any of them, whatever the result. *)
Theorem C72_losses_drawn_refuted :
  forall m cl r panels p, base_plot m cl r = Ok panels -> In p panels -> n_points p = [].
Proof. exact c72_empty. Qed.
Print Assumptions C72_losses_drawn_refuted.

Example C72_nonvacuous :
  exists r, snd pl_run = Ok r /\ data_transform ex_m [3; 2; 1; 0] r = Ok pl_drawn /\
    List.length pl_drawn = 29 /\ (forall q, In q pl_drawn -> exists x, q_loss q = Fin x) /\
    exists panels, base_plot ex_m [3; 2; 1; 0] r = Ok panels /\
      map n_label panels = [Some 2001; Some 2002; Some 2003; Some 2004; None]%Z.
Proof.
  assert (H : match snd pl_run with
              | Ok r => match data_transform ex_m [3; 2; 1; 0] r with
                        | Ok l => (List.length l =? 29) && forallb (fun q => match q_loss q with Fin _ => true | _ => false end) l
                        | Err _ => false end &&
                        match base_plot ex_m [3; 2; 1; 0] r with
                        | Ok ps => forallb (fun p => same_label (fst p) (snd p))
                                     (combine (map n_label ps) [Some 2001; Some 2002; Some 2003; Some 2004; None]%Z) &&
                                   (List.length ps =? 5)
                        | Err _ => false end
              | Err _ => false end = true) by (vm_compute; reflexivity).
  unfold pl_drawn. destruct (snd pl_run) as [r|e]; [|discriminate]. exists r. split; [reflexivity|].
  apply andb_true_iff in H as (H1 & H2). destruct (data_transform ex_m [3; 2; 1; 0] r) as [l|e] eqn:E; [|discriminate].
  apply andb_true_iff in H1 as (H0 & H1). split; [reflexivity|]. split; [apply Nat.eqb_eq; exact H0|]. split.
  - intros q Hq. rewrite forallb_forall in H1. specialize (H1 q Hq). destruct (q_loss q); try discriminate. eexists; reflexivity.
  - destruct (base_plot ex_m [3; 2; 1; 0] r) as [ps|e]; [|discriminate]. exists ps. split; [reflexivity|].
    apply andb_true_iff in H2 as (H2 & H3). apply Nat.eqb_eq in H3.
    do 6 (destruct ps as [|? ps]; try discriminate). cbn in H2.
    repeat (apply andb_true_iff in H2; destruct H2 as (?L & H2)). cbn.
    repeat match goal with L : same_label ?x _ = true |- _ => destruct x; cbn in L; try discriminate end.
    repeat match goal with L : (_ =? _)%Z = true |- _ => apply Z.eqb_eq in L; subst end. reflexivity.
Qed.

(** ** C73.  [hist ()] shows, for each origin in order and for the total, the simulated
    reserves, a line at their median or at 0 if that is larger, and an axis up to 1.025
    times their maximum or 0.  The lines are the column of [get_quantiles (.5, lb=0)]. *)
Theorem C73_histograms :
  forall (rs : list rrec) (cols : list string),
  rs <> [] -> (forall r, In r rs -> exists x, v_reserve r = Fin x) ->
  let os := uniq Z.compare (map v_o rs) in
  exists panels cols', hist rs cols = Ok (panels, cols') /\
    Forall2 (fun l p => l = map Fin (fst (fst p)) /\
               (exists med, is_median (fst (fst p)) med /\ larger med 0%Qc (snd (fst p))) /\
               (exists mx top, is_max (fst (fst p)) mx /\ larger mx 0%Qc top /\ snd p = (top * (qz 41 / qz 40))%Qc))
            (samples rs os) panels /\
    boot_get_quantiles rs os [Fin (1 / qz 2)%Qc] Linear (Some 0%Qc)
      = Ok [("50th"%string, map (fun p => snd (fst p)) panels)].
Proof. exact c73. Qed.
Print Assumptions C73_histograms.

(** Drawing it changes the result: [reserve_dist] has a further column afterwards (once). *)
Theorem C73_result_unchanged_refuted :
  forall rs ps cols', hist rs reserve_columns = Ok (ps, cols') ->
    reserve_columns = ["sim"; "origin"; "latest"; "ultimate"; "reserve"]%string /\
    cols' = ["sim"; "origin"; "latest"; "ultimate"; "reserve"; "origin_index"]%string /\
    forall ps' cols'', hist rs cols' = Ok (ps', cols'') -> cols'' = cols' /\ ps' = ps.
Proof. exact c73_changes. Qed.
Print Assumptions C73_result_unchanged_refuted.

Example C73_nonvacuous :
  ex_rs <> [] /\ (forall r, In r ex_rs -> exists x, v_reserve r = Fin x) /\
  exists ps cols', hist ex_rs reserve_columns = Ok (ps, cols') /\
    map (fun p => this (snd (fst p))) ps = [3 # 1; 5 # 1; 8 # 1].
Proof.
  split; [discriminate|]. split.
  - intros r Hr. repeat (destruct Hr as [<-|Hr]; [eexists; reflexivity|]). destruct Hr.
  - eexists _, _. split; vm_compute; reflexivity.
Qed.
