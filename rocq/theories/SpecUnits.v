(** Specification for C92: results in another currency unit. *)

From Coq Require Import String QArith Qcanon Qreals Reals ZArith List.
From Verif Require Import Val Boot Dist BootSum.
Import ListNotations.
Open Scope list_scope.

(** A simulated record, a row of the summary, quantile columns: losses, reserves and
    standard errors are multiplied by c, coefficients of variation are not. *)
Definition rec_units (c : Qc) (r : rrec) : rrec :=
  mkR (v_sim r) (v_o r) (vmul (Fin c) (v_latest r)) (vmul (Fin c) (v_ultimate r)) (vmul (Fin c) (v_reserve r)).
Definition row_units (c : Qc) (r : brow) : brow :=
  mkBrow (w_origin r) (vmul (Fin c) (w_latest r)) (vmul (Fin c) (w_ultimate r)) (vmul (Fin c) (w_reserve r))
    (fscal (Q2R (this c)) (w_std_error r)) (w_cv r).
Definition columns_units (c : Qc) (l : list (string * list Qc)) : list (string * list Qc) :=
  map (fun p => (fst p, map (Qcmult c) (snd p))) l.

(** The square root of k^2 x is k times that of x, at the values [l] and their absolute
    values. *)
Definition root_units (rt : val -> val) (k : Qc) (l : list val) : Prop :=
  forall x, In x l -> rt (vmul (Fin (k * k)%Qc) x) = vmul (Fin k) (rt x) /\
                      rt (vmul (Fin (k * k)%Qc) (vabs x)) = vmul (Fin k) (rt (vabs x)).

(** Random numbers in other units.  Residuals k times as large: the residuals drawn are k
    times as large.  Gamma scales c = k^2 times as large, the shapes unchanged: the variates
    are c times as large.  (Resampling draws positions; numpy's gamma variates are the
    scale times a variate that depends on the shape.) *)
Definition draws_units (k : Qc) (rng : list val -> (nat -> val) * (list (val * val) -> nat -> val)) : Prop :=
  (forall l j, fst (rng (map (vmul (Fin k)) l)) j = vmul (Fin k) (fst (rng l) j)) /\
  (forall l ps j, snd (rng (map (vmul (Fin k)) l)) (map (fun p => (fst p, vmul (Fin (k * k)%Qc) (snd p))) ps) j
                  = vmul (Fin (k * k)%Qc) (snd (rng l) ps j)).
