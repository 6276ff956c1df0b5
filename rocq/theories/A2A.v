(** Model of the age-to-age part of /repo/trikit/triangle.py (578-856) and the
    average functions (480-574).  Definitions only. *)

From Coq Require Import QArith Qcanon ZArith List Bool String Ascii DecimalString Decimal Lia.
From Verif Require Import Val Frame Triangle.
Import ListNotations.
Open Scope string_scope.
Open Scope list_scope.
Open Scope nat_scope.

(** triangle.py 587: [self.shift(periods=-1, axis=1) / self]. *)
Definition ratio_cells (m : lmat) : list (list val) :=
  mk (nrows m) (ncols m) (fun i j =>
    vdiv (if S j <? ncols m then cell (m_cells m) i (S j) else NaN) (cell (m_cells m) i j)).

(** [dropna(axis=1, how="all").dropna(axis=0, how="all")], triangle.py 588: the kept
    column and row positions. *)
Definition keep_cols (nr nc : nat) (cs : list (list val)) : list nat :=
  filter (fun j => existsb (fun i => negb (isnan (cell cs i j))) (seq 0 nr)) (seq 0 nc).
Definition keep_rows (nr : nat) (kc : list nat) (cs : list (list val)) : list nat :=
  filter (fun i => existsb (fun j => negb (isnan (cell cs i j))) kc) (seq 0 nr).

(** triangle.py 578-589 [a2a]. *)
Definition a2a (m : lmat) : lmat :=
  let cs := ratio_cells m in
  let kc := keep_cols (nrows m) (ncols m) cs in
  let kr := keep_rows (nrows m) kc cs in
  mkMat (map (fun i => nth i (m_idx m) 0%Z) kr)
        (map (fun j => nth j (m_cols m) 0%Z) kc)
        (map (fun i => map (fun j => cell cs i j) kc) kr).

(** triangle.py 593-605 [a2aind], initial value: 0 for NaN, else 1. *)
Definition a2aind_init (m : lmat) : list (list val) :=
  map (map (fun v => if isnan v then Fin 0 else Fin 1)) (m_cells (a2a m)).

(** triangle.py 608-697 [a2aind] setter on labels of the a2a frame.  (A label that is
    absent makes pandas enlarge the frame; that case is modelled in Enlarge.v.) *)
Fixpoint upd {A} (l : list A) (i : nat) (x : A) : list A :=
  match l, i with
  | [], _ => []
  | _ :: r, O => x :: r
  | y :: r, S i' => y :: upd r i' x
  end.
Definition upd2 {A} (cs : list (list A)) (i j : nat) (x : A) : list (list A) :=
  upd cs i (upd (nth i cs []) j x).
Definition a2aind_set (a : lmat) (ind : list (list val)) (o d : Z) (v : val)
  : res (list (list val)) :=
  match zfind o (m_idx a), zfind d (m_cols a) with
  | Some i, Some j => Ok (upd2 ind i j v)
  | _, _ => Err Unmodelled
  end.

(** ** Averages *)

(** triangle.py 502-520 [_simple]. *)
Definition simple_avg (l : list val) : res val :=
  Ok (match l with [] => NaN | _ => vmean l end).

(** triangle.py 480-498 [_geometric]; [gm] stands for [scipy.stats.gmean] on a
    non-empty array. *)
Definition geometric_avg (gm : list val -> val) (l : list val) : res val :=
  Ok (match l with [] => NaN | _ => gm l end).

(** Order used by [np.sort] on values that are not NaN. *)
Definition vcmp (a b : val) : comparison :=
  if vltb a b then Lt else if vltb b a then Gt else Eq.

(** triangle.py 524-574 [_medial] with [weights=None].  [arr_all[0]] of an empty
    array raises IndexError. *)
Definition medial_avg (l : list val) : res val :=
  match ssort vcmp l with
  | [] => Err IndexError
  | x :: r =>
      let arr := x :: r in
      if forallb (fun v => veqb v x) arr then Ok x
      else match r with
           | [] => Ok x
           | [y] => Ok (vdiv (vsum arr) (Fin (qn 2)))
           | _ =>
               let mx := last r NaN in
               let med := filter (fun v => negb (veqb v x) && negb (veqb v mx)) arr in
               match med with
               | [] => Ok NaN
               | _ => Ok (vdiv (vsum med) (Fin (qn (List.length med))))
               end
           end
  end.

(** Position of the first NaN, triangle.py 832-833. *)
Fixpoint first_nan (l : list val) : option nat :=
  match l with
  | [] => None
  | v :: r => if isnan v then Some 0 else option_map S (first_nan r)
  end.

(** [l[a:b]] for [a <= b]. *)
Definition slice {A} (l : list A) (a b : nat) : list A := firstn (b - a) (skipn a l).

(** triangle.py 832-847: the link ratios entering a simple, geometric or medial
    average of one column of [a2a * a2aind]; [dur = 0] means all. *)
Definition window (dur : nat) (l : list val) : list val :=
  let fin := match first_nan l with Some k => k | None => List.length l end in
  let fst_ := if dur =? 0 then 0 else fin - dur in
  filter (fun v => vltb (Fin 0%Qc) v) (slice l fst_ fin).

Definition count_valid (l : list val) : nat :=
  List.length (filter (fun v => negb (isnan v)) l).

(** triangle.py 807-828: weighted average at position [col] of the triangle itself
    (the a2aind indicators are not used).  [index[count():][0]] raises IndexError
    when column [col+1] has no NaN; so does [self.iloc[:, col+1]] past the end. *)
Definition weighted_avg (m : lmat) (dur col : nat) : res val :=
  if ncols m <=? S col then Err IndexError else
  let c1 := mcol m col in
  let c2 := mcol m (S col) in
  let fin := count_valid c2 in
  if nrows m <=? fin then Err IndexError else
  let fst_ := if dur =? 0 then 0 else fin - dur in
  Ok (vdiv (skipsum (slice c2 fst_ fin)) (skipsum (slice c1 fst_ fin))).

Inductive avgtype := Simple | Geometric | Medial | Weighted.
Definition avg_name (a : avgtype) : string :=
  match a with
  | Simple => "simple" | Geometric => "geometric" | Medial => "medial" | Weighted => "weighted"
  end.
(** Python [str(n)]. *)
Definition str_nat (n : nat) : string := NilEmpty.string_of_uint (Nat.to_uint n).

(** triangle.py 797-800: row labels. *)
Definition avg_label (a : avgtype) (dur : nat) : string :=
  if dur =? 0 then "all-" ++ avg_name a else avg_name a ++ "-" ++ str_nat dur.

(** triangle.py 787, 795: [product(avgfuncs, [1, ..., nrows-1, 0])]. *)
Definition avg_specs (na : nat) : list (avgtype * nat) :=
  list_prod [Simple; Geometric; Medial; Weighted] (seq 1 (na - 1) ++ [0]).

(** triangle.py 803: [self.a2a * self.a2aind]. *)
Definition a2a_adj (m : lmat) (ind : list (list val)) : lmat :=
  let a := a2a m in
  mkMat (m_idx a) (m_cols a)
        (mk (nrows a) (ncols a) (fun i j => vmul (cell (m_cells a) i j) (cell ind i j))).

Definition one_avg (gm : list val -> val) (m : lmat) (ind : list (list val))
    (a : avgtype) (dur col : nat) : res val :=
  let w := window dur (mcol (a2a_adj m ind) col) in
  match a with
  | Simple => simple_avg w
  | Geometric => geometric_avg gm w
  | Medial => medial_avg w
  | Weighted => weighted_avg m dur col
  end.

(** triangle.py 777-856 [a2a_avgs]: labelled rows over the a2a columns. *)
Definition a2a_avgs (gm : list val -> val) (m : lmat) (ind : list (list val))
  : res (list (string * list val)) :=
  mapM (fun sp => do row <- mapM (one_avg gm m ind (fst sp) (snd sp)) (seq 0 (ncols (a2a m))) ;
                  Ok (avg_label (fst sp) (snd sp), row))
       (avg_specs (nrows (a2a m))).
