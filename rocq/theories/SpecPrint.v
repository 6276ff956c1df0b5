(** Specification vocabulary for printed figures (C81).  Only the
    records of a result are taken from the model. *)

From Coq Require Import String Ascii QArith Qcanon ZArith List Bool.
From Verif Require Import Val Frame Triangle A2A Base SpecCols.
Import ListNotations.
Open Scope list_scope.
Open Scope nat_scope.

(** [z] is the integer nearest to [x]; of two equally near ones the even one. *)
Definition nearest (x : Qc) (z : Z) : Prop :=
  (x - 1 / qz 2 <= qz z)%Qc /\ (qz z <= x + 1 / qz 2)%Qc /\
  (qz z = (x - 1 / qz 2)%Qc \/ qz z = (x + 1 / qz 2)%Qc -> Z.even z = true).

(** Reading a printed number: commas are skipped, a leading minus negates, the digits
    after a point are decimals. *)
Fixpoint before_point (l : list ascii) : list ascii :=
  match l with
  | [] => []
  | c :: r => if Ascii.eqb c "." then [] else c :: before_point r
  end.
Fixpoint after_point (l : list ascii) : list ascii :=
  match l with
  | [] => []
  | c :: r => if Ascii.eqb c "." then r else after_point r
  end.
Definition read_unsigned (l : list ascii) : option Qc :=
  match before_point l with
  | [] => None
  | a => match read_digits 0 (a ++ after_point l) with
         | Some z => Some (qz z / qz (10 ^ Z.of_nat (List.length (after_point l))))%Qc
         | None => None
         end
  end.
Definition read_number (l : list ascii) : option Qc :=
  match filter (fun c => negb (Ascii.eqb c ",")) l with
  | [] => None
  | c :: r => if Ascii.eqb c "-" then option_map Qcopp (read_unsigned r) else read_unsigned (c :: r)
  end.

(** Digits in groups of three: one to three digits, then any number of commas each
    followed by three digits. *)
Definition all_digits (l : list ascii) : Prop := forall c, In c l -> digit_value c <> None.
Inductive grouped : list ascii -> Prop :=
| grouped_first l : all_digits l -> 1 <= List.length l <= 3 -> grouped l
| grouped_more l d : grouped l -> all_digits d -> List.length d = 3 -> grouped (l ++ ","%char :: d).
Definition no_leading_zero (l : list ascii) : Prop := hd "1"%char l <> "0"%char \/ l = ["0"%char].

(** What a cell with value [v] looks like, with [k] decimals. *)
Definition shown_as (k : nat) (v : val) (l : list ascii) : Prop :=
  match v with
  | NaN => l = list_ascii_of_string "NaN"
  | PInf => l = list_ascii_of_string "inf"
  | NInf => l = list_ascii_of_string "-inf"
  | Fin x => exists z, nearest (x * qz (10 ^ Z.of_nat k)) z /\
                       read_number l = Some (qz z / qz (10 ^ Z.of_nat k))%Qc
  end.
(** Whole number with separators. *)
Definition separated (l : list ascii) : Prop :=
  exists s g, l = s ++ g /\ (s = [] \/ s = ["-"%char]) /\ grouped g /\ no_leading_zero g.
Definition shown_whole (v : val) (l : list ascii) : Prop :=
  shown_as 0 v l /\ (forall x, v = Fin x -> separated l).

(** Digits without separators, a point and [k] decimals. *)
Definition plain (k : nat) (l : list ascii) : Prop :=
  exists s a d, l = s ++ a ++ "."%char :: d /\ (s = [] \/ s = ["-"%char]) /\ a <> [] /\ all_digits a /\ no_leading_zero a /\
                all_digits d /\ List.length d = k.
Definition shown_plain (k : nat) (v : val) (l : list ascii) : Prop :=
  shown_as k v l /\ (forall x, v = Fin x -> plain k l).

(** A label: an integer in digits only, with its sign. *)
Definition shown_label (z : Z) (l : list ascii) : Prop :=
  read_number l = Some (qz z) /\ exists s a, l = s ++ a /\ (s = [] \/ s = ["-"%char]) /\ all_digits a /\ no_leading_zero a.

(** One row of a chain ladder summary. *)
Definition row_shown (row : srow) (txt : list ascii * list (list ascii)) : Prop :=
  shown_label (s_origin row) (fst txt) /\
  exists mt c e l u r, snd txt = [mt; c; e; l; u; r] /\
    shown_label (s_maturity row) mt /\
    shown_plain 5 (s_cldf row) c /\ shown_plain 5 (s_emergence row) e /\
    shown_whole (s_latest row) l /\ shown_whole (s_ultimate row) u /\ shown_whole (s_reserve row) r.

(** The money figures: latest (0), ultimate (1), reserve (2), as computed and as read
    from a printed row. *)
Definition figure (k : nat) (row : srow) : val := nth k [s_latest row; s_ultimate row; s_reserve row] NaN.
Definition printed_figure (k : nat) (txt : list ascii * list (list ascii)) : option Qc :=
  read_number (nth (3 + k) (snd txt) []).
Definition zsum (l : list Z) : Z := fold_right Z.add 0%Z l.
(** A missing cell or a whole amount. *)
Definition whole_cell (v : val) : Prop := v = NaN \/ exists z, v = Fin (qz z).
