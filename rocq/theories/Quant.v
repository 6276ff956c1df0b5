(** Model of the quantile handling of /repo/trikit/estimators: base.py 599-686
    ([_qtls_formatter] of estimators and of results), mack.py 200-208 and 837-862,
    bootstrap.py 210-221, 714-736 and 1088-1130, and of [_get_yticks] (base.py 335-359).
    Definitions only.  Numbers are exact rationals. *)

From Coq Require Import String QArith Qcanon Qround ZArith List Bool Ascii Lia.
From Verif Require Import Val QcLib Frame Triangle A2A Base Boot.
Import ListNotations.
Open Scope string_scope.
Open Scope list_scope.
Open Scope nat_scope.

(** The numbers of a list without NaN and infinities. *)
Fixpoint finite (l : list val) : option (list Qc) :=
  match l with
  | [] => Some []
  | Fin q :: r => match finite r with Some s => Some (q :: s) | None => None end
  | _ :: _ => None
  end.

(** base.py 621-622, 675: [np.all(np.logical_and(qtls <= 1, qtls >= 0))]. *)
Definition unit_all (q : list val) : bool :=
  forallb (fun v => vleb v (Fin 1%Qc) && vleb (Fin 0%Qc) v) q.
(** [np.sort(np.unique(x))]. *)
Definition sort_unique (l : list Qc) : list Qc := ssort Qccompare (uniq Qccompare l).

(** ** Headers *)

(** Nearest integer, ties to even: the rounding of ["{:.5f}".format] (on [x * 10^5]). *)
Definition round_half_even (x : Qc) : Z :=
  let f := Qfloor x in
  let r := (x - qz f)%Qc in
  if qcltb r (1 / qz 2)%Qc then f
  else if qcltb (1 / qz 2)%Qc r then (f + 1)%Z
  else if Z.even f then f else (f + 1)%Z.
Definition digit (z : Z) : ascii := ascii_of_nat (48 + Z.to_nat z).
(** The five decimals of [n / 10^5]. *)
Definition decimals5 (n : Z) : list ascii :=
  map (fun p => digit ((n / p) mod 10)) [10000; 1000; 100; 10; 1]%Z.
(** ["{:.5f}".format(n / 10^5)], [n >= 0]. *)
Definition format5 (n : Z) : list ascii :=
  list_ascii_of_string (str_nat (Z.to_nat (n / 100000))) ++ ["."%char] ++ decimals5 n.
(** [str.rstrip] of one character. *)
Fixpoint lstrip_char (c : ascii) (l : list ascii) : list ascii :=
  match l with
  | [] => []
  | x :: r => if Ascii.eqb x c then lstrip_char c r else l
  end.
Definition rstrip_char (c : ascii) (l : list ascii) : list ascii := rev (lstrip_char c (rev l)).
(** ["{:.5f}".format(100 * q).rstrip("0").rstrip(".")]. *)
Definition pct (q : Qc) : list ascii :=
  rstrip_char "." (rstrip_char "0" (format5 (round_half_even (q * qz 100 * qz 100000)))).

(** base.py 599-632: the estimators' formatter. *)
Definition qtls_formatter (q : list val) (two_sided : bool) : res (list Qc * list string) :=
  if unit_all q then
    match finite q with
    | None => Err Unmodelled                          (* not reached *)
    | Some xs =>
        let s := if two_sided
                 then sort_unique (map (fun x => (1 - x) / qz 2)%Qc xs ++ map (fun x => (1 + x) / qz 2)%Qc xs)
                 else sort_unique xs in
        Ok (s, map (fun x => string_of_list_ascii (pct x ++ ["%"%char])) s)
    end
  else Err ValueError.

(** base.py 648-652, 679-684: the results' formatter, with ordinal suffixes. *)
Definition dsuffix (c : ascii) : list ascii :=
  list_ascii_of_string
    (if Ascii.eqb c "1" then "st" else if Ascii.eqb c "2" then "nd"
     else if Ascii.eqb c "3" then "rd" else "th").
Definition ordinal (l : list ascii) : list ascii :=
  if existsb (fun c => Ascii.eqb c ".") l then l ++ ["t"%char; "h"%char] else l ++ dsuffix (last l "0"%char).
Definition result_formatter (q : list val) : res (list Qc * list string) :=
  if unit_all q then
    match finite q with
    | None => Err Unmodelled                          (* not reached *)
    | Some xs =>
        let s := sort_unique xs in
        Ok (s, map (fun x => string_of_list_ascii (ordinal (pct x))) s)
    end
  else Err ValueError.

(** ** Columns *)

(** [d[k] = v] on a dict, or on the columns of a frame. *)
Fixpoint dict_set {A} (d : list (string * A)) (k : string) (v : A) : list (string * A) :=
  match d with
  | [] => [(k, v)]
  | p :: r => if String.eqb (fst p) k then (k, v) :: r else p :: dict_set r k v
  end.
Definition columns_of {A} (f : Qc -> A) (qs : list Qc) (hs : list string) : list (string * A) :=
  fold_left (fun d p => dict_set d (snd p) (f (fst p))) (combine qs hs) [].

(** mack.py 837-862: the guard of line 853 ([q > 1 and q < 0]) never fires; one column
    per header, by origin and total. [ppf]: the distributions' quantile functions. *)
Definition mack_get_quantiles {A} (ppf : list (Qc -> A)) (q : list val) : res (list (string * list A)) :=
  do r <- result_formatter q ;
  Ok (columns_of (fun x => map (fun f => f x) ppf) (fst r) (snd r)).

(** mack.py 200-208: the summary's quantile columns; the first origin's are NaN. *)
Definition mack_summary_quantiles {A} (nan : A) (ppf : list (Qc -> A)) (q : list val) (two_sided : bool)
  : res (list (string * list A)) :=
  do r <- qtls_formatter q two_sided ;
  Ok (columns_of (fun x => match ppf with [] => [] | _ :: fs => nan :: map (fun f => f x) fs end)
        (fst r) (snd r)).

(** ** Percentiles *)

(** numpy.percentile, NumPy 1.26, on a non-empty array of numbers; [q] is a fraction.
    Virtual index [(n-1) q]; the five methods documented by trikit. *)
Inductive interp := Linear | Lower | Higher | Midpoint | Nearest.
Definition percentile (method : interp) (l : list Qc) (q : Qc) : res Qc :=
  match l with
  | [] => Err IndexError
  | _ =>
      let s := ssort Qccompare l in
      let h := (qn (List.length l - 1) * q)%Qc in
      let at_ (z : Z) := nth (Z.to_nat z) s 0%Qc in
      let lo := at_ (Qfloor h) in
      let hi := at_ (Qceiling h) in
      Ok (match method with
          | Linear => lo + (h - qz (Qfloor h)) * (hi - lo)
          | Lower => lo
          | Higher => hi
          | Midpoint => (lo + hi) / qz 2
          | Nearest => at_ (round_half_even h)
          end)%Qc
  end.

(** bootstrap.py 210-213: reserves by origin, and by simulation in total. *)
Definition origin_sample (rs : list rrec) (o : Z) : list val :=
  map v_reserve (filter (fun r => (v_o r =? o)%Z) rs).
Definition total_sample (rs : list rrec) : list val :=
  map (fun s => skipsum (map v_reserve (filter (fun r => v_sim r =? s) rs)))
      (uniq Nat.compare (map v_sim rs)).
Definition samples (rs : list rrec) (os : list Z) : list (list val) :=
  map (origin_sample rs) os ++ [total_sample rs].
(** The reserves have no NaN (nan_to_num); infinities are outside the model. *)
Definition pctl (method : interp) (l : list val) (q : Qc) : res Qc :=
  match finite l with Some xs => percentile method xs q | None => Err Unmodelled end.

(** bootstrap.py 215-221: the summary's quantile columns. *)
Definition boot_summary_quantiles (rs : list rrec) (os : list Z) (q : list val) (two_sided : bool)
    (method : interp) : res (list (string * list Qc)) :=
  do r <- qtls_formatter q two_sided ;
  do cols <- mapM (fun x => mapM (fun l => pctl method l x) (samples rs os)) (fst r) ;
  Ok (fold_left (fun d p => dict_set d (fst p) (snd p)) (combine (snd r) cols) []).

(** bootstrap.py 1088-1130 [get_quantiles]. *)
Definition raise_to (lb : option Qc) (v : Qc) : Qc :=
  match lb with None => v | Some b => if qcltb v b then b else v end.
Definition boot_get_quantiles (rs : list rrec) (os : list Z) (q : list val) (method : interp)
    (lb : option Qc) : res (list (string * list Qc)) :=
  do r <- result_formatter q ;
  do cols <- mapM (fun x => mapM (fun l => pctl method l x) (samples rs os)) (fst r) ;
  Ok (map (fun p => (fst p, map (raise_to lb) (snd p)))
          (fold_left (fun d p => dict_set d (fst p) (snd p)) (combine (snd r) cols) [])).

(** bootstrap.py 714-736 [_bs_std_error], squared: sample variances ([ddof=1], NaN for
    fewer than two simulations). *)
Definition variance1 (l : list val) : val :=
  let mu := vmean l in
  vdiv (vsum (map (fun v => vmul (vsub v mu) (vsub v mu)) l)) (vz (Z.of_nat (List.length l) - 1)).
Definition boot_variances (rs : list rrec) (os : list Z) : list val := map variance1 (samples rs os).

(** ** Axis ticks *)

(** base.py 335-359 [_get_yticks], the tick values. *)
Definition pow10 (i : nat) : Z := (10 ^ Z.of_nat i)%Z.
Definition get_yticks (x : Qc) : res (list Qc) :=
  match rev (filter (fun i => qcltb 1 (x / qz (pow10 i))) (seq 0 10)) with
  | [] => Err ValueError
  | i :: _ =>
      match filter (fun d => qcltb 0 (qz (pow10 i * Z.of_nat d) - x)) (seq 1 10) with
      | [] => Err ValueError
      | d :: _ =>
          let yul := qz (pow10 i * Z.of_nat d) in
          Ok (map (fun k => yul * (qn k / qz 4))%Qc (seq 0 5))
      end
  end.
