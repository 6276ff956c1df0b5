(** Specifications: what the English properties say, in terms of records, labels
    and cells only.  Nothing here refers to the functions of the model (apart from
    the data types of [Val] and [Frame], and finite sums and products of rationals). *)

From Coq Require Import QArith Qcanon ZArith String List Bool Lia Sorting.Sorted.
From Verif Require Import Val Frame QcLib.
Import ListNotations.
Open Scope list_scope.

(** ** Tables *)

(** The frame [f] holds the records [l] in its columns [o] (origin), [d] (dev) and
    [v] (value); other columns are arbitrary. *)
Definition table_in (f : frame) (o d v : string) (l : list rec) : Prop :=
  NoDup (map fst f) /\
  In (o, ZC (map r_o l)) f /\ In (d, ZC (map r_d l)) f /\ In (v, VC (map r_v l)) f.

(** Values recorded for origin [o] at development period [d]. *)
Definition values_at (l : list rec) (o d : Z) : list val :=
  map r_v (filter (fun r => (r_o r =? o)%Z && (r_d r =? d)%Z) l).

(** Sum in which NaN counts as zero. *)
Definition nan_sum (vs : list val) : val :=
  fold_right (fun v acc => vadd (if isnan v then Fin 0%Qc else v) acc) (Fin 0%Qc) vs.

(** A record of the earliest development period of the table. *)
Definition is_first_dev (l : list rec) (r : rec) : bool :=
  forallb (fun r' => (r_d r <=? r_d r')%Z) l.

(** "First development values <= 0 count as 1." *)
Definition adjusted (l : list rec) : list rec :=
  map (fun r => (fst r, if is_first_dev l r && vleb (r_v r) (Fin 0%Qc)
                        then Fin 1%Qc else r_v r)) l.

(** Expected incremental cell. *)
Definition cell_total (l : list rec) (o d : Z) : val :=
  match values_at l o d with [] => NaN | vs => nan_sum vs end.

(** ** Triangles *)

(** [m] is the triangle with index [os], columns [ds] and cells [f o d]; this
    determines [m] completely (lemma [holds_unique]). *)
Definition holds (m : lmat) (os ds : list Z) (f : Z -> Z -> val) : Prop :=
  m_idx m = os /\ m_cols m = ds /\
  length (m_cells m) = length os /\
  (forall row, In row (m_cells m) -> length row = length ds) /\
  forall i j, (i < length os)%nat -> (j < length ds)%nat ->
    nth j (nth i (m_cells m) []) NaN = f (nth i os 0%Z) (nth j ds 0%Z).

(** [os] lists exactly the distinct elements of [l], increasing. *)
Definition distinct_sorted (os l : list Z) : Prop :=
  StronglySorted Z.lt os /\ forall x, In x os <-> In x l.

(** ** Cumulative triangles *)

(** Total of the origin's records with development <= d. *)
Definition running_total (l : list rec) (o d : Z) : val :=
  nan_sum (map r_v (filter (fun r => (r_o r =? o)%Z && (r_d r <=? d)%Z) l)).

(** The rows of each origin are listed in strictly increasing development order (so
    that in particular no (origin, dev) pair occurs twice). *)
Definition dev_sorted (l : list rec) : Prop :=
  StronglySorted (fun a b => r_o a = r_o b -> (r_d a < r_d b)%Z) l.

Definition all_finite (l : list rec) : Prop := forall r, In r l -> exists q, r_v r = Fin q.

Definition recorded (l : list rec) (o d : Z) : Prop := In (o, d) (map fst l).

Definition first_dev (l : list rec) (d : Z) : Prop :=
  In d (map r_d l) /\ forall d', In d' (map r_d l) -> (d <= d')%Z.

(** The last origin observed at a development period does not increase with the
    period: the shape of a run-off triangle with gaps inside. *)
Definition staircase (l : list rec) : Prop :=
  forall d d' o', (d < d')%Z -> In d (map r_d l) -> recorded l o' d' ->
    exists o, (o' <= o)%Z /\ recorded l o d.

(** The cell (o, d) lies at or above the last observed row of its column. *)
Definition is_actual (l : list rec) (o d : Z) : Prop :=
  exists o', (o <= o')%Z /\ recorded l o' d.

(** No infinite values (NaN allowed). *)
Definition no_inf (l : list rec) : Prop := forall r, In r l -> r_v r <> PInf /\ r_v r <> NInf.

(** ** Shapes of triangles, for cells [f] with index [os] and columns [ds] *)

(** Every observed cell has all earlier development periods of its row observed. *)
Definition gap_free (os ds : list Z) (f : Z -> Z -> val) : Prop :=
  forall o d d', In o os -> In d ds -> In d' ds -> (d < d')%Z -> f o d' <> NaN -> f o d <> NaN.

(** Every origin and every development period has an observed cell. *)
Definition covered (os ds : list Z) (f : Z -> Z -> val) : Prop :=
  (forall o, In o os -> exists d, In d ds /\ f o d <> NaN) /\
  (forall d, In d ds -> exists o, In o os /\ f o d <> NaN).

(** Observed cells are numbers. *)
Definition finite_cells (os ds : list Z) (f : Z -> Z -> val) : Prop :=
  forall o d, In o os -> In d ds -> f o d = NaN \/ exists q, f o d = Fin q.

(** The cells of the first development period are positive (or missing). *)
Definition positive_first (os ds : list Z) (f : Z -> Z -> val) : Prop :=
  forall o d, In o os -> In d ds -> (forall d', In d' ds -> (d <= d')%Z) ->
    f o d = NaN \/ vltb (Fin 0%Qc) (f o d) = true.

Definition increasing (l : list Z) : Prop := StronglySorted Z.lt l.

(** [d] is immediately followed by [d'] in [ds]. *)
Definition next_in (ds : list Z) (d d' : Z) : Prop :=
  In d ds /\ In d' ds /\ (d < d')%Z /\ forall x, In x ds -> (x <= d \/ d' <= x)%Z.

Definition first_in (ds : list Z) (d : Z) : Prop := In d ds /\ forall x, In x ds -> (d <= x)%Z.

(** Every observed cell has all earlier origins of its column observed. *)
Definition col_gap_free (os ds : list Z) (f : Z -> Z -> val) : Prop :=
  forall o o' d, In o os -> In o' os -> In d ds -> (o < o')%Z -> f o' d <> NaN -> f o d <> NaN.

(** Run-off shape: rows and columns without gaps. *)
Definition runoff (os ds : list Z) (f : Z -> Z -> val) : Prop :=
  gap_free os ds f /\ col_gap_free os ds f /\ covered os ds f.

(** No cell is missing that would have to be filled. *)
Definition no_gaps (l : list rec) : Prop :=
  forall o d, In o (map r_o l) -> In d (map r_d l) ->
    first_dev l d \/ is_actual l o d -> recorded l o d.

Definition positive_first_values (l : list rec) : Prop :=
  forall r, In r l -> first_dev l (r_d r) -> vltb (Fin 0%Qc) (r_v r) = true.

(** Plain sum of numbers. *)
Definition val_sum (vs : list val) : val := fold_right vadd (Fin 0%Qc) vs.

(** [l] is the last observed development period of origin [o]. *)
Definition last_observed (ds : list Z) (f : Z -> Z -> val) (o d : Z) : Prop :=
  In d ds /\ f o d <> NaN /\ forall d', In d' ds -> (d < d')%Z -> f o d' = NaN.

(** ** Regular run-off triangles: [n] origins and [n] development periods, of which
    exactly the cells (i, j) with i + j < n are observed; these hold [C i j]. *)
Definition regular (m : lmat) (n : nat) (C : nat -> nat -> Qc) : Prop :=
  increasing (m_idx m) /\ increasing (m_cols m) /\
  length (m_idx m) = n /\ length (m_cols m) = n /\ length (m_cells m) = n /\
  (forall row, In row (m_cells m) -> length row = n) /\
  forall i j, (i < n)%nat -> (j < n)%nat ->
    nth j (nth i (m_cells m) []) NaN = if (i + j <? n)%nat then Fin (C i j) else NaN.

Definition positive (n : nat) (C : nat -> nat -> Qc) : Prop :=
  forall i j, (i + j < n)%nat -> (0 < C i j)%Qc.

(** Consecutive labels differ by a constant. *)
Definition evenly_spaced (ds : list Z) : Prop :=
  exists s, (0 < s)%Z /\ forall j, (S j < length ds)%nat -> nth (S j) ds 0%Z = (nth j ds 0%Z + s)%Z.

(** The last period follows the one before it at the smallest step between the earlier
    periods.  (True of three or more evenly spaced periods, and of 12, 24, 48, 60;
    false of 12, 24, 48.) *)
Definition tail_fits (ds : list Z) : Prop :=
  let n := length ds in
  let step j := (nth (S j) ds 0%Z - nth j ds 0%Z)%Z in
  (forall j, (j < n - 2)%nat -> (step (n - 2)%nat <= step j)%Z) /\
  (exists j, (j < n - 2)%nat /\ step (n - 2)%nat = step j).

(** The latest [k] of the rows 0, ..., N-1. *)
Definition latest_rows (k N : nat) : list nat := skipn (N - k) (seq 0 N).

(** Arithmetic mean. *)
Definition mean (l : list Qc) : Qc := (qsum l / qn (length l))%Qc.

(** Entry of a labelled table at a row label and a column position. *)
Definition entry (tbl : list (string * list val)) (label : string) (j : nat) : option val :=
  match find (fun p => String.eqb (fst p) label) tbl with
  | Some row => nth_error (snd row) j
  | None => None
  end.

(** ** Mack *)

(** The indicator table [ind] of an n-by-n triangle holds the weight [W i j] for every
    observed link ratio (i, j) and 0 elsewhere; weights are not negative and every
    development period has a link ratio with positive weight. *)
Definition weights (ind : list (list val)) (n : nat) (W : nat -> nat -> Qc) : Prop :=
  (forall i j, (i < n - 1)%nat -> (j < n - 1)%nat ->
     nth j (nth i ind []) NaN = Fin (if (i + j <? n - 1)%nat then W i j else 0%Qc)) /\
  (forall i j, (i + j < n - 1)%nat -> (0 <= W i j)%Qc) /\
  (forall j, (j < n - 1)%nat -> exists i, (i + j < n - 1)%nat /\ (0 < W i j)%Qc).

(** Loss of origin [i] projected from its latest value to period [j] (>= n-1-i). *)
Definition projected (n : nat) (C : nat -> nat -> Qc) (f : nat -> Qc) (i j : nat) : Qc :=
  (C i (n - 1 - i)%nat * prodf (n - 1 - i) (j - (n - 1 - i)) f)%Qc.

Definition qmin (a b : Qc) : Qc := if qcleb a b then a else b.

(** Mack's estimator of the variance parameter of development period [j], given
    the factors [f]: the squared deviations of the n-1-j link ratios, weighted by
    W C^alpha, over their number less one. *)
Definition sigma2 (n : nat) (C W : nat -> nat -> Qc) (alpha : nat) (f : nat -> Qc) (j : nat) : Qc :=
  (sumf 0 (n - 1 - j) (fun i => W i j * C i j ^ alpha * ((C i (S j) / C i j - f j) * (C i (S j) / C i j - f j)))
   / qn (n - 2 - j))%Qc.
