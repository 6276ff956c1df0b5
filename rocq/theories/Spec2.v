(** Specifications for the diagnostics (C44, C45), again without reference to the
    model's functions. *)

From Coq Require Import QArith Qcanon ZArith List Bool Lia Sorting.Sorted Permutation.
From Verif Require Import Val QcLib.
Import ListNotations.
Open Scope list_scope.
Open Scope nat_scope.

(** Average rank of the i-th of the N values x 0, ..., x (N-1): one more than the
    number of smaller values, ties sharing the mean of their ranks. *)
Definition avg_rank (x : nat -> Qc) (N i : nat) : Qc :=
  (qn (length (filter (fun j => qcltb (x j) (x i)) (seq 0 N)))
   + (qn (length (filter (fun j => qceqb (x j) (x i)) (seq 0 N))) + 1) / qz 2)%Qc.

(** Number of s-element subsets of n things: ways to get s successes. *)
Fixpoint choose (n s : nat) : nat :=
  match s, n with
  | O, _ => 1
  | S _, O => 0
  | S s', S n' => choose n' s + choose n' s'
  end.

(** Mean and variance of g(S) for S ~ Binomial(n, 1/2). *)
Definition mean_half (n : nat) (g : nat -> Qc) : Qc :=
  sumf 0 (S n) (fun s => qn (choose n s) / qz 2 ^ n * g s)%Qc.
Definition var_half (n : nat) (g : nat -> Qc) : Qc :=
  mean_half n (fun s => (g s - mean_half n g) * (g s - mean_half n g))%Qc.

(** [q] is the median of [l]: the middle element of the sorted list, or the mean of
    the two middle ones. *)
Definition is_median (l : list Qc) (q : Qc) : Prop :=
  exists s, Permutation l s /\ StronglySorted Qcle s /\ l <> [] /\
    q = ((nth ((length s - 1) / 2) s 0 + nth (length s / 2) s 0) / qz 2)%Qc.

(** Within the tolerance of numpy's [allclose] of the median [q]. *)
Definition abs_ (x : Qc) : Qc := if qcltb x 0 then (- x)%Qc else x.
Definition near (x q : Qc) : bool :=
  qcleb (abs_ (x - q)) (1 / qz 100000000 + 1 / qz 100000 * abs_ q)%Qc.

(** Number of development periods p < j with property [b] on calendar diagonal [j],
    that is, at origin j - 1 - p (0-based). *)
Definition on_diagonal (j : nat) (b : nat -> nat -> bool) : nat :=
  length (filter (fun p => b (j - 1 - p) p) (seq 0 j)).

(** ** Bootstrap *)

(** Incremental value of a cumulative table. *)
Definition incr_of (C : nat -> nat -> Qc) (i j : nat) : Qc :=
  match j with O => C i O | S k => (C i j - C i k)%Qc end.

(** The volume-weighted (all-weighted) factor from period [j] to [j+1]. *)
Definition vol_factor (n : nat) (C : nat -> nat -> Qc) (j : nat) : Qc :=
  (sumf 0 (n - 1 - j) (fun i => C i (S j)) / sumf 0 (n - 1 - j) (fun i => C i j))%Qc.

(** What is used of [np.sqrt]: 0 at 0, positive on positive numbers, NaN on negative
    numbers and NaN.  (Satisfied by the correctly rounded root of finite numbers.) *)
Definition root_like (rt : val -> val) : Prop :=
  rt NaN = NaN /\ rt (Fin 0%Qc) = Fin 0%Qc /\
  (forall q, (0 < q)%Qc -> exists r, (0 < r)%Qc /\ rt (Fin q) = Fin r) /\
  (forall q, (q < 0)%Qc -> rt (Fin q) = NaN).
