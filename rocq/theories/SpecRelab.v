(** Specification for C94: the same triangle under other labels. *)

From Coq Require Import QArith Qcanon ZArith List.
From Verif Require Import Val Boot Dist BootSum.
Import ListNotations.

(** Label o of the list l and label o' of l' stand at the same place. *)
Definition same_place (l l' : list Z) (o o' : Z) : Prop :=
  exists i, nth_error l i = Some o /\ nth_error l' i = Some o'.

(** The same simulated figures, for the origin at the same place. *)
Definition moved_rec (l l' : list Z) (r r' : rrec) : Prop :=
  v_sim r' = v_sim r /\ same_place l l' (v_o r) (v_o r') /\
  v_latest r' = v_latest r /\ v_ultimate r' = v_ultimate r /\ v_reserve r' = v_reserve r.

(** A row of the summary without its label. *)
Definition row_figures (r : brow) : val * val * val * fl * fl :=
  (w_latest r, w_ultimate r, w_reserve r, w_std_error r, w_cv r).
