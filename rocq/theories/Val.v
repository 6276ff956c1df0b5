(** Numbers of the model.

    [val] models one float64 value as stored in a pandas column or triangle
    cell: NaN, the two infinities, or a finite number.  Finite numbers are the
    canonical rationals [Qc] of the standard library.

    Simplifications: no rounding, no overflow, no signed zero.  Apart from that
    the operations follow the IEEE-754 tables used by numpy and pandas. *)

From Coq Require Import QArith Qcanon ZArith List Bool Lia Lqa.
Import ListNotations.
Set Implicit Arguments.

(** ** Rationals *)

Open Scope Qc_scope.

Definition qz (z : Z) : Qc := Q2Qc (inject_Z z).
Definition qn (n : nat) : Qc := qz (Z.of_nat n).

(** Executable comparisons on [Qc]. *)
Definition qcltb (a b : Qc) : bool :=
  match (a ?= b) with Lt => true | _ => false end.
Definition qcleb (a b : Qc) : bool :=
  match (a ?= b) with Gt => false | _ => true end.
Definition qceqb (a b : Qc) : bool :=
  match (a ?= b) with Eq => true | _ => false end.

(** ** Extended values *)

Inductive val : Type :=
| NaN : val
| PInf : val
| NInf : val
| Fin : Qc -> val.

Definition vz (z : Z) : val := Fin (qz z).

(** numpy [np.isnan]. *)
Definition isnan (v : val) : bool := match v with NaN => true | _ => false end.

(** float64 negation. *)
Definition vneg (a : val) : val :=
  match a with
  | NaN => NaN | PInf => NInf | NInf => PInf | Fin x => Fin (- x)
  end.

(** float64 addition. *)
Definition vadd (a b : val) : val :=
  match a, b with
  | NaN, _ => NaN
  | _, NaN => NaN
  | PInf, NInf => NaN
  | NInf, PInf => NaN
  | PInf, _ => PInf
  | _, PInf => PInf
  | NInf, _ => NInf
  | _, NInf => NInf
  | Fin x, Fin y => Fin (x + y)
  end.

Definition vsub (a b : val) : val := vadd a (vneg b).

(** Sign of a value as used for products and quotients with infinities. *)
Inductive sgn := SPos | SZero | SNeg.
Definition qsgn (q : Qc) : sgn :=
  match (q ?= 0) with Gt => SPos | Eq => SZero | Lt => SNeg end.

Definition inf_of (s : sgn) : val :=
  match s with SPos => PInf | SZero => NaN | SNeg => NInf end.
Definition sflip (s : sgn) : sgn :=
  match s with SPos => SNeg | SZero => SZero | SNeg => SPos end.

(** float64 multiplication; [inf * 0 = nan]. *)
Definition vmul (a b : val) : val :=
  match a, b with
  | NaN, _ => NaN
  | _, NaN => NaN
  | Fin x, Fin y => Fin (x * y)
  | PInf, PInf => PInf | NInf, NInf => PInf
  | PInf, NInf => NInf | NInf, PInf => NInf
  | PInf, Fin y => inf_of (qsgn y)
  | NInf, Fin y => inf_of (sflip (qsgn y))
  | Fin x, PInf => inf_of (qsgn x)
  | Fin x, NInf => inf_of (sflip (qsgn x))
  end.

(** float64 division as numpy does it (warning, no exception):
    [0/0 = nan], [x/0 = +-inf]. *)
Definition vdiv (a b : val) : val :=
  match a, b with
  | NaN, _ => NaN
  | _, NaN => NaN
  | Fin x, Fin y =>
      match qsgn y with
      | SZero => inf_of (qsgn x)
      | _ => Fin (x / y)
      end
  | Fin _, _ => Fin 0
  | PInf, Fin y => match qsgn y with SNeg => NInf | _ => PInf end
  | NInf, Fin y => match qsgn y with SNeg => PInf | _ => NInf end
  | _, _ => NaN
  end.

(** float64 comparisons: false whenever an operand is NaN. *)
Definition vltb (a b : val) : bool :=
  match a, b with
  | NaN, _ => false
  | _, NaN => false
  | Fin x, Fin y => qcltb x y
  | NInf, NInf => false | NInf, _ => true
  | _, NInf => false
  | PInf, _ => false
  | Fin _, PInf => true
  end.

Definition vleb (a b : val) : bool :=
  match a, b with
  | NaN, _ => false
  | _, NaN => false
  | Fin x, Fin y => qcleb x y
  | NInf, _ => true
  | _, NInf => false
  | _, PInf => true
  | PInf, _ => false
  end.

(** IEEE equality. *)
Definition veqb (a b : val) : bool :=
  match a, b with
  | Fin x, Fin y => qceqb x y
  | PInf, PInf => true
  | NInf, NInf => true
  | _, _ => false
  end.

(** Equality of representations (NaN equals NaN); used to compare results. *)
Definition vsame (a b : val) : bool :=
  match a, b with
  | NaN, NaN => true
  | _, _ => veqb a b
  end.

(** pandas reductions skip NaN: [Series.sum()], [groupby.sum()] with the
    default [min_count=0] (an empty or all-NaN group sums to 0). *)
Fixpoint skipsum (l : list val) : val :=
  match l with
  | [] => Fin 0
  | v :: r => if isnan v then skipsum r else vadd v (skipsum r)
  end.

(** numpy [ndarray.sum()]: NaN propagates. *)
Definition vsum (l : list val) : val := fold_right vadd (Fin 0) l.

(** numpy [ndarray.mean()] of a non-empty array. *)
Definition vmean (l : list val) : val := vdiv (vsum l) (Fin (qn (length l))).

(** Results that may raise. *)
Inductive exn :=
| KeyError | ValueError | IndexError | AttributeError | NameError
| TypeError | UnboundLocalError | ZeroDivisionError | FileNotFoundError
| Unmodelled.  (* input outside the modelled domain; no claim is made *)

Inductive res (A : Type) :=
| Ok : A -> res A
| Err : exn -> res A.
Arguments Ok {A}. Arguments Err {A}.

Definition bind {A B} (r : res A) (f : A -> res B) : res B :=
  match r with Ok a => f a | Err e => Err e end.
Notation "'do' x <- e ; k" := (bind e (fun x => k))
  (at level 200, x pattern, e at level 100, k at level 200, right associativity).

Fixpoint mapM {A B} (f : A -> res B) (l : list A) : res (list B) :=
  match l with
  | [] => Ok []
  | a :: r => do b <- f a ; do bs <- mapM f r ; Ok (b :: bs)
  end.

Definition is_ok {A} (r : res A) : bool := match r with Ok _ => true | Err _ => false end.
