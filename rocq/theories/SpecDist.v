(** What the words "normal / lognormal with these parameters", "mean" and "standard
    deviation" mean.  Independent of the code. *)

From Coq Require Import Reals.
From Coquelicot Require Import Coquelicot.
Local Open Scope R_scope.

(** The density of the standard normal law. *)
Definition phi (z : R) : R := exp (- (z * z) / 2) / sqrt (2 * PI).

(** [line f l]: the (improper) integral of f over the whole real line is l. *)
Definition line (f : R -> R) (l : R) : Prop :=
  is_RInt_gen f (Rbar_locally m_infty) (Rbar_locally p_infty) l.

(** A quantity [X z] that is a function of a standard normal variate z.
    scipy's norm (loc, scale) is the law of loc + scale z and its
    lognorm (s, scale) the law of scale exp (s z). *)
Definition normal (loc scale : R) (z : R) : R := loc + scale * z.
Definition lognormal (s scale : R) (z : R) : R := scale * exp (s * z).

Definition mean (X : R -> R) (m : R) : Prop := line (fun z => X z * phi z) m.
Definition std_dev (X : R -> R) (d : R) : Prop :=
  0 <= d /\ exists m, mean X m /\ line (fun z => (X z - m) * (X z - m) * phi z) (d * d).
