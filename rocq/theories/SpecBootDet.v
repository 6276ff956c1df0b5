(** What a column of summary statistics says of a list of numbers. *)

From Coq Require Import QArith Qcanon Qreals Reals List Bool.
From Verif Require Import Val QcLib Dist Spec2 BootDet.
Import ListNotations.
Open Scope list_scope.

(** The non-zero numbers among some values, in their order. *)
Definition nonzero_numbers (l : list val) : list Qc :=
  flat_map (fun v => match v with Fin q => if qceqb q 0 then [] else [q] | _ => [] end) l.
Definition total (l : list Qc) : Qc := fold_right Qcplus 0%Qc l.
(** Sum of the k-th powers of the deviations from [c]. *)
Definition dev_power (k : nat) (c : Qc) (l : list Qc) : Qc := total (map (fun x => (x - c) ^ k)%Qc l).

Definition describes (s : rstats) (l : list Qc) : Prop :=
  let n := qn (length l) in
  let c := (total l / n)%Qc in
  let m k := (dev_power k c l / n)%Qc in
  r_size s = length l /\ r_sum s = total l /\ r_ssqr s = total (map (fun x => x * x)%Qc l) /\
  (In (r_min s) l /\ forall x, In x l -> (r_min s <= x)%Qc) /\
  (In (r_max s) l /\ forall x, In x l -> (x <= r_max s)%Qc) /\
  r_mean s = c /\
  (exists q, r_med s = Fin q /\ is_median l q) /\
  (* sample variance and standard deviation *)
  (length l = 1%nat -> r_var s = NaN /\ r_std s = FNaN) /\
  ((2 <= length l)%nat -> exists v, r_var s = Fin v /\ v = (dev_power 2 c l / qn (length l - 1))%Qc /\
     (0 <= v)%Qc /\ r_std s = FR (sqrt (Q2R v))) /\
  (* skewness, excess kurtosis and coefficient of variation of the population *)
  (m 2%nat = 0%Qc -> r_skew s = FNaN /\ r_kurt s = NaN) /\
  (m 2%nat <> 0%Qc -> r_skew s = FR (Q2R (m 3%nat) / (sqrt (Q2R (m 2%nat)) ^ 3)) /\
     r_kurt s = Fin (m 4%nat / (m 2%nat * m 2%nat) - qn 3)%Qc) /\
  (c <> 0%Qc -> r_cov s = FR (sqrt (Q2R (m 2%nat)) / Q2R c)).
