(** Specification vocabulary for the plot of a bootstrap result (C76). *)

From Coq Require Import String QArith Qcanon ZArith List Bool.
From Verif Require Import Val QcLib SpecQuant BsPlot.
Import ListNotations.
Open Scope list_scope.

(** [v] is the [q]-quantile of the sample [l], interpolated linearly between the two
    order statistics around position [(length l - 1) q]. *)
Definition linear_quantile (l : list Qc) (q v : Qc) : Prop :=
  exists t k, order_stats l t /\ (k < List.length l)%nat /\
    let h := (qn (List.length l - 1) * q)%Qc in
    (qn k <= h <= qn (k + 1))%Qc /\
    v = (nth k t 0 + (h - qn k) * (nth (k + 1) t 0 - nth k t 0))%Qc.

(** The numbers among the entries of a column (missing entries are left out). *)
Definition numbers (l : list val) : list Qc := flat_map (fun v => match v with Fin q => [q] | _ => [] end) l.

(** The points of one line of the plot of one origin, in drawing order. *)
Definition points (l : list bandrec) (o : Z) (line : string) : list (Z * val) :=
  map (fun e => (e_dev e, e_loss e)) (filter (fun e => Z.eqb (e_origin e) o && String.eqb (e_line e) line) l).
