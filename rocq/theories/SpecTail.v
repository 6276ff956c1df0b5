(** What "quantile", "probability of an interval" and "variance over all rankings"
    mean (C59-C61).  Independent of the code. *)

From Coq Require Import QArith Qcanon Reals List.
From Coquelicot Require Import Coquelicot.
From Verif Require Import Val QcLib SpecDist.
Import ListNotations.

Local Open Scope R_scope.
(** The probability that X, a function of a standard normal variate, is at most x; and
    that it lies between a and b. *)
Definition prob_le (X : R -> R) (x p : R) : Prop :=
  line (fun z => if Rle_dec (X z) x then phi z else 0) p.
Definition prob_between (X : R -> R) (a b p : R) : Prop :=
  line (fun z => if Rle_dec a (X z) then if Rle_dec (X z) b then phi z else 0 else 0) p.

(** scipy's [norm.cdf] and [norm.ppf] in exact arithmetic. *)
Definition std_cdf (cdf : R -> R) : Prop := forall x, prob_le (fun z => z) x (cdf x).
Definition std_ppf (ppf : R -> R) : Prop := forall q, 0 < q < 1 -> prob_le (fun z => z) (ppf q) q.

Close Scope R_scope.
Open Scope list_scope.

(** All orderings of a list. *)
Fixpoint picks {A} (l : list A) : list (A * list A) :=
  match l with
  | [] => []
  | x :: r => (x, r) :: map (fun p => (fst p, x :: snd p)) (picks r)
  end.
Fixpoint orderings {A} (n : nat) (l : list A) : list (list A) :=
  match n with
  | O => [[]]
  | S k => flat_map (fun p => map (cons (fst p)) (orderings k (snd p))) (picks l)
  end.

(** Average of [f] over a list. *)
Definition average {A} (f : A -> Qc) (l : list A) : Qc :=
  (fold_right (fun x s => f x + s) 0 l / qn (length l))%Qc.
(** Spearman's coefficient of the ranks 1, ..., N against the ranking [r]. *)
Definition spearman (N : nat) (r : list nat) : Qc :=
  (1 - qz 6 * fold_right (fun p s => (qn (fst p) - qn (snd p)) * (qn (fst p) - qn (snd p)) + s) 0 (combine (seq 1 N) r)
       / (qn N * qn N * qn N - qn N))%Qc.
