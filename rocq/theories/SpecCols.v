(** Specification vocabulary for quantile tables: which quantiles are shown, what their
    headers read, and of which samples they are quantiles.  Nothing here refers to the
    model of the code. *)

From Coq Require Import String Ascii QArith Qcanon ZArith List Sorting.Sorted.
From Verif Require Import Val SpecQuant.
Import ListNotations.
Open Scope list_scope.
Open Scope nat_scope.

(** [xs]: the wanted quantiles shown when a column is replaced by a later one with the
    same header: those whose header no larger wanted quantile has. *)
Definition shown_quantiles (hdr : Qc -> string) (q : list val) (two_sided : bool) (xs : list Qc) : Prop :=
  StronglySorted Qclt xs /\
  forall x, In x xs <-> wanted q two_sided x /\
                        forall y, wanted q two_sided y -> (x < y)%Qc -> hdr y <> hdr x.

(** Simulated reserves as (origin, simulation, reserve).  The sample of an origin are its
    reserves, that of the total ([None]) the sums by simulation. *)
Definition sample (recs : list (Z * nat * Qc)) (o : option Z) (l : list Qc) : Prop :=
  match o with
  | Some o => l = map snd (filter (fun r => (fst (fst r) =? o)%Z) recs)
  | None => exists sims, StronglySorted lt sims /\
      (forall s, In s sims <-> exists r, In r recs /\ snd (fst r) = s) /\
      l = map (fun s => fold_right Qcplus 0%Qc (map snd (filter (fun r => snd (fst r) =? s) recs))) sims
  end.

(** A decimal digit and its value. *)
Definition digit_value (c : ascii) : option Z :=
  let k := nat_of_ascii c in if (48 <=? k) && (k <=? 57) then Some (Z.of_nat (k - 48)) else None.
(** Value of a string of digits, read from the left. *)
Fixpoint read_digits (acc : Z) (l : list ascii) : option Z :=
  match l with
  | [] => Some acc
  | c :: r => match digit_value c with Some d => read_digits (10 * acc + d) r | None => None end
  end.
(** [l] is the plain decimal notation of [n / 10^5]: digits, and if there is a fraction a
    point and at most five further digits, the last one not 0. *)
Definition reads (l : list ascii) (n : Z) : Prop :=
  exists a f, a <> [] /\ l = a ++ match f with [] => [] | _ => "."%char :: f end /\
    List.length f <= 5 /\ (f <> [] -> last f "0"%char <> "0"%char) /\
    read_digits 0 (a ++ f ++ repeat "0"%char (5 - List.length f)) = Some n.
(** Suffix of a whole percentage, by its last digit. *)
Definition suffix_of (c : ascii) : string :=
  (if Ascii.eqb c "1" then "st" else if Ascii.eqb c "2" then "nd" else if Ascii.eqb c "3" then "rd" else "th")%string.
