(** Model of the printed representations: triangle.py 359-366 ([__str__], [__repr__] of a
    triangle), base.py 327-331 and 585-590 (of a chain ladder result).  Definitions only.

    Modelled: the text of every cell, label and header entry.  Not modelled: the padding
    and line breaks of [DataFrame.to_string].  [to_string] prints a missing value as "NaN"
    without calling the formatter. Values are exact rationals, so no "-0" for a negative
    zero. *)

From Coq Require Import String Ascii QArith Qcanon Qround ZArith List Bool DecimalString.
From Verif Require Import Val Frame Triangle A2A Base Boot Quant.
Import ListNotations.
Open Scope list_scope.
Open Scope nat_scope.

(** Decimal notation of an integer ([str(int)], the integer part of a format). *)
Definition znat_text (z : Z) : list ascii := list_ascii_of_string (NilEmpty.string_of_uint (N.to_uint (Z.to_N z))).
Definition z_text (z : Z) : list ascii := if (z <? 0)%Z then "-"%char :: znat_text (- z) else znat_text z.

(** The "," of a format: a comma before every third digit, counted from the right. *)
Fixpoint commas (k : nat) (l : list ascii) : list ascii :=
  match l with
  | [] => []
  | c :: r => if k =? 3 then ","%char :: c :: commas 1 r else c :: commas (S k) r
  end.
Definition separate (l : list ascii) : list ascii := rev (commas 0 (rev l)).

(** [k] decimals. *)
Fixpoint decimals (k : nat) (n : Z) : list ascii :=
  match k with O => [] | S k' => decimals k' (n / 10) ++ [digit (n mod 10)] end.

(** ["{:,.0f}".format] ([sep], [k] = 0), ["{:.5f}".format] ([k] = 5). *)
Definition fixed (sep : bool) (k : nat) (x : Qc) : list ascii :=
  let p := (10 ^ Z.of_nat k)%Z in
  let n := round_half_even ((if qcltb x 0 then - x else x) * qz p)%Qc in
  (if qcltb x 0 then ["-"%char] else []) ++
  (if sep then separate (znat_text (n / p)) else znat_text (n / p)) ++
  (if k =? 0 then [] else "."%char :: decimals k n).

(** A cell of a column with a formatter. *)
Definition cell_text (sep : bool) (k : nat) (v : val) : list ascii :=
  match v with
  | NaN => list_ascii_of_string "NaN"
  | PInf => list_ascii_of_string "inf"
  | NInf => list_ascii_of_string "-inf"
  | Fin x => fixed sep k x
  end.

(** triangle.py 359-366: header, and per origin its label and cells. *)
Definition triangle_text (m : lmat) : list (list ascii) * list (list ascii * list (list ascii)) :=
  (map z_text (m_cols m),
   combine (map z_text (m_idx m)) (map (map (cell_text true 0)) (m_cells m))).

(** base.py 585-590 with the formats of 327-331, columns maturity, cldf, emergence,
    latest, ultimate, reserve; the last row is "total" (147-149: maturity "", cldf and
    emergence NaN). *)
Definition srow_text (r : srow) : list ascii * list (list ascii) :=
  (z_text (s_origin r),
   [z_text (s_maturity r); cell_text false 5 (s_cldf r); cell_text false 5 (s_emergence r);
    cell_text true 0 (s_latest r); cell_text true 0 (s_ultimate r); cell_text true 0 (s_reserve r)]).
Definition summary_text (r : cl_result) : list (list ascii * list (list ascii)) :=
  map srow_text (c_rows r) ++
  [(list_ascii_of_string "total",
    [[]; cell_text false 5 NaN; cell_text false 5 NaN;
     cell_text true 0 (fst (fst (c_total r))); cell_text true 0 (snd (fst (c_total r)));
     cell_text true 0 (snd (c_total r))])].
