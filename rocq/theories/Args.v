(** Model of the checks of the bootstrap's [procdist] argument,
    /repo/trikit/estimators/bootstrap.py 661-676.  Definitions only. *)

From Coq Require Import String QArith Qcanon ZArith List Bool Ascii.
From Verif Require Import Val Frame Triangle A2A Base Mack Boot.
Import ListNotations.
Open Scope string_scope.
Open Scope list_scope.

(** [str.strip()]: blanks removed at both ends. *)
Fixpoint drop_space (l : list ascii) : list ascii :=
  match l with
  | [] => []
  | c :: r => if is_space c then drop_space r else l
  end.
Definition strip (s : string) : list ascii :=
  rev (drop_space (rev (drop_space (list_ascii_of_string s)))).
(** Line 661: [procdist.strip().lower() == "gamma"] (ASCII letters). *)
Definition procdist_ok (s : string) : bool :=
  String.eqb (string_of_list_ascii (map lower1 (strip s))) "gamma".
(** The call with its [procdist]: the check (line 676) comes after the triangles have
    been resampled, before the process error is drawn. *)
Definition boot_call (gm : list val -> val) (sq : val -> val) (t : tri) (cl rl : list nat) (ind : list (list val))
    (sims : nat) (parametric : bool) (procdist : string)
    (rng : list val -> (nat -> val) * (list (val * val) -> nat -> val)) : res boot_result :=
  do b <- boot_cl gm sq t cl rl ind sims parametric rng ;
  if procdist_ok procdist then Ok b else Err ValueError.
