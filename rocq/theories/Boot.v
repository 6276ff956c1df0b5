(** Model of /repo/trikit/estimators/bootstrap.py: the ODP bootstrap.  Definitions
    only.

    Oracles: [sq] is [np.sqrt] on numbers; [draw] gives the residual drawn at each
    record (by position) from the sampling distribution; [gam] gives the vector of
    gamma variates for a vector of parameters.  All are arguments.

    Simplification: tables sorted by sim, origin, dev are kept as the list of their
    (sim, origin) groups, so that [groupby(["sim", "origin"])] works on one group at
    a time; operations on whole columns ([shift], draws) run over all groups in
    order. *)

From Coq Require Import String QArith Qcanon ZArith List Bool Lia.
From Verif Require Import Val QcLib Frame Triangle A2A Base Mack.
Import ListNotations.
Open Scope string_scope.
Open Scope list_scope.
Open Scope nat_scope.

(** ** Fitted triangle *)

(** [back f row k c]: from column [k] go back [c] columns, dividing by the ldfs. *)
Fixpoint back (f row : list val) (k c : nat) : val :=
  match c with
  | O => at1 row k
  | S c' => vdiv (back f row k c') (at1 f (k - c))
  end.
(** bootstrap.py 306-343 [_tri_fit_cum], one row: columns before the latest observed
    one are recomputed.  (A row starting with NaN makes [init_idx] -1.) *)
Definition fit_row (f row : list val) : res (list val) :=
  let go k := Ok (map (fun j => if j <=? k then back f row k (k - j) else at1 row j) (seq 0 (List.length row))) in
  match first_nan row with
  | Some O => Err Unmodelled
  | Some (S k) => go k
  | None => go (List.length row - 1)
  end.
Definition tri_fit_cum (m : lmat) (f : list val) : res lmat :=
  do rows <- mapM (fun i => fit_row f (mrow m i)) (seq 0 (nrows m)) ;
  Ok (mkMat (m_idx m) (m_cols m) rows).
(** bootstrap.py 347-362 [_tri_fit_incr]. *)
Definition tri_fit_incr (c : lmat) : lmat := mkMat (m_idx c) (m_cols c) (diff_cells c).

(** ** Residuals *)

Definition vabs (v : val) : val :=
  match v with
  | NaN => NaN | PInf => PInf | NInf => PInf
  | Fin q => Fin (if qcltb q 0 then (- q)%Qc else q)
  end.
(** bootstrap.py 365-384 [_resid_us]. *)
Definition resid_us (sq : val -> val) (t : tri) (fit : lmat) : res lmat :=
  do inc <- to_incr t ;
  Ok (falign (fun i m => vdiv (vsub i m) (sq (vabs m))) (t_mat inc) fit).
(** bootstrap.py 274-284 [dof]. *)
Definition dof (m : lmat) : Z :=
  (Z.of_nat (nbr_cells m) - (Z.of_nat (ncols m) - 1) + Z.of_nat (nrows m))%Z.
(** bootstrap.py 287-303 [_scale_param]. *)
Definition scale_param (m r : lmat) : val :=
  vdiv (skipsum (colsums (fmap (fun v => vpow v 2) r))) (vz (dof m)).
(** bootstrap.py 387-403 [_resid_adj]. *)
Definition resid_adj (sq : val -> val) (m r : lmat) : lmat :=
  fmap (vmul (sq (vdiv (vz (Z.of_nat (nbr_cells m))) (vz (dof m))))) r.
(** bootstrap.py 407-424 [_sampling_dist]: [iloc[:-1, :-1]], NaN and 0 removed. *)
Definition sampling_dist (r : lmat) : list val :=
  filter (fun v => negb (isnan v) && negb (veqb v (Fin 0%Qc)))
    (List.concat (map (fun i => map (cell (m_cells r) i) (seq 0 (ncols r - 1))) (seq 0 (nrows r - 1)))).

(** ** Simulated triangles *)

(** One record of the simulation table. *)
Record simrow := mkS {
  b_sim : nat; b_o : Z; b_d : Z;
  b_fc : bool;                     (* rectype = "forecast" *)
  b_inc : val; b_cum : val }.      (* samp_incr, samp_cum *)

(** [groupby(...).cumsum()] and [cumprod()] of one group: NaN stays NaN and is
    skipped. *)
Fixpoint cum_from (op : val -> val -> val) (acc : val) (l : list val) : list val :=
  match l with
  | [] => []
  | v :: r => if isnan v then NaN :: cum_from op acc r
              else op acc v :: cum_from op (op acc v) r
  end.
Definition cumsum (l : list val) : list val := cum_from vadd (Fin 0%Qc) l.
Definition cumprod (l : list val) : list val := cum_from vmul (Fin 1%Qc) l.

(** bootstrap.py 477-481: first development values < 0 become 1. *)
Definition first_fix (j : nat) (v : val) : val :=
  if (j =? 0) && vltb v (Fin 0%Qc) then Fin 1%Qc else v.

(** bootstrap.py 427-514 [_bs_samples]; [resid k] is the draw given to record
    [k] of the sorted table (the code draws before sorting, which only permutes the
    draws of each simulation). *)
Definition sample_group (sq : val -> val) (m fit : lmat) (resid : nat -> val) (s i : nat) : list simrow :=
  let nr := nrows m in let nc := ncols m in
  let incr := map (fun j => first_fix j (cell (m_cells fit) i j)) (seq 0 nc) in
  let inc := map (fun j => if isnan (at1 incr j) then NaN
                 else vadd (at1 incr j) (vmul (resid (s * (nr * nc) + i * nc + j)) (sq (at1 incr j)))) (seq 0 nc) in
  let cum := cumsum inc in
  map (fun j => mkS s (nth i (m_idx m) 0%Z) (nth j (m_cols m) 0%Z) (isnan (at1 incr j)) (at1 inc j) (at1 cum j))
      (seq 0 nc).
Definition samples (sq : val -> val) (m fit : lmat) (sims : nat) (resid : nat -> val) : list (list simrow) :=
  flat_map (fun s => map (sample_group sq m fit resid s) (seq 0 (nrows m))) (seq 0 sims).

(** bootstrap.py 517-545 [_bs_ldfs]: records (sim, dev, aggdev1, aggdev2) of the
    (sim, dev) groups having a value, ... *)
Definition agg_rows (m : lmat) (cl : list nat) (sims : nat) (tab : list (list simrow)) : list (nat * Z * val * val) :=
  let flat := List.concat tab in
  flat_map (fun s => flat_map (fun j =>
      let d := nth j (m_cols m) 0%Z in
      let lo := nth (nth j cl O) (m_idx m) 0%Z in
      let g := filter (fun r => (b_sim r =? s) && (b_d r =? d)%Z && negb (isnan (b_cum r))) flat in
      match g with
      | [] => []
      | _ => [(s, d, skipsum (map b_cum g),
               skipsum (map (fun r => if (b_o r =? lo)%Z then Fin 0%Qc else b_cum r) g))]
      end) (seq 0 (ncols m))) (seq 0 sims).
(** ... with [_aggdev2] and [dev] shifted down by one record over the whole table,
    rows with zero or missing values removed. *)
Fixpoint ldf_rows (prev : option (Z * val)) (l : list (nat * Z * val * val)) : list (nat * Z * val) :=
  match l with
  | [] => []
  | (s, d, a1, a2) :: r =>
      match prev with
      | None => []
      | Some (d', a2') =>
          if veqb a2' (Fin 0%Qc) || isnan a2' || isnan a1 then [] else [(s, d', vdiv a1 a2')]
      end ++ ldf_rows (Some (d, a2)) r
  end.
Definition bs_ldfs (m : lmat) (cl : list nat) (sims : nat) (tab : list (list simrow)) : list (nat * Z * val) :=
  ldf_rows None (agg_rows m cl sims tab).
(** Left merge on (sim, dev): NaN without a match (first match, should a key occur
    twice). *)
Definition ldf_at (lt : list (nat * Z * val)) (s : nat) (d : Z) : val :=
  match find (fun r => (fst (fst r) =? s) && (snd (fst r) =? d)%Z) lt with
  | Some r => snd r
  | None => NaN
  end.

(** bootstrap.py 548-611 [_bs_forecasts].  [ladev o]: last observed development
    period of the origin (dfrlvi).  A group of the result: its latest value
    ([l_act_cum], NaN for the first origin) and its records with [samp_cum] and
    [samp_incr] final. *)
Definition is_first (m : lmat) (g : list simrow) : bool :=
  match g with [] => true | r :: _ => (b_o r =? zmin (m_idx m))%Z end.
Definition fc_part (ladev : Z -> Z) (g : list simrow) : list simrow :=
  filter (fun r => (ladev (b_o r) <=? b_d r)%Z) g.
Definition act_part (ladev : Z -> Z) (g : list simrow) : list simrow :=
  filter (fun r => negb (ladev (b_o r) <=? b_d r)%Z) g.
Definition l_act_cum (ladev : Z -> Z) (g : list simrow) : val :=
  match fc_part ladev g with [] => NaN | r :: _ => b_cum r end.
(** Cumulative development factors before the shift, one list per forecast group. *)
Definition cum_ldfs (ladev : Z -> Z) (lt : list (nat * Z * val)) (g : list simrow) : list val :=
  cumprod (map (fun r => ldf_at lt (b_sim r) (b_d r)) (fc_part ladev g)).
Definition cum_final (latest : val) (p : simrow * val) : val :=
  vadd (nan0 (b_cum (fst p))) (nan0 (vmul latest (snd p))).
(** [samp_incr] from the final cumulative values (lines 600-606): the first
    development period is recognised as [dev == 1]. *)
Fixpoint incr_from (prev : val) (l : list (Z * val)) : list val :=
  match l with
  | [] => []
  | (d, c) :: r => vadd (vmul (if (d =? 1)%Z then Fin 1%Qc else Fin 0%Qc) c) (nan0 (vsub c prev))
                   :: incr_from c r
  end.
Definition set_cum_inc (g : list simrow) (cums : list val) : list simrow :=
  let incs := incr_from NaN (combine (map b_d g) cums) in
  map (fun p => let r := fst p in mkS (b_sim r) (b_o r) (b_d r) (b_fc r) (snd (snd p)) (fst (snd p)))
      (combine g (combine cums incs)).
(** [prev]: last cumulative factor of the preceding forecast group, because
    [shift(periods=1)] runs over the whole table. *)
Fixpoint forecasts (m : lmat) (ladev : Z -> Z) (lt : list (nat * Z * val)) (prev : val) (tab : list (list simrow))
  : list (val * list simrow) :=
  match tab with
  | [] => []
  | g :: r =>
      if is_first m g then (NaN, set_cum_inc g (map b_cum g)) :: forecasts m ladev lt prev r
      else let la := l_act_cum ladev g in
           let cf := prev :: cum_ldfs ladev lt g in
           let cs := map b_cum (act_part ladev g)
                     ++ map (cum_final la) (combine (fc_part ladev g) (removelast cf)) in
           (la, set_cum_inc (act_part ladev g ++ fc_part ladev g) cs) :: forecasts m ladev lt (last cf NaN) r
  end.

(** bootstrap.py 615-683 [_bs_process_error]: gamma parameters of every record, one
    vector of variates, ultimates of each group. *)
Definition gparams (scale : val) (fcs : list (val * list simrow)) : list (val * val) :=
  map (fun r => (vabs (vdiv (b_inc r) scale), scale)) (List.concat (map snd fcs)).
Definition final_incr (gd : nat -> val) (pos : nat) (r : simrow) : val :=
  if b_fc r then vmul (gd pos) (if vltb (Fin 0%Qc) (b_inc r) then Fin 1%Qc else Fin (- (1))%Qc) else b_inc r.
Fixpoint final_groups (gd : nat -> val) (pos : nat) (fcs : list (val * list simrow)) : list (val * list simrow * list val) :=
  match fcs with
  | [] => []
  | (la, g) :: r =>
      (la, g, cumsum (map (fun p => final_incr gd (fst p) (snd p)) (combine (seq pos (List.length g)) g)))
      :: final_groups gd (pos + List.length g) r
  end.
Definition process_error (scale : val) (gam : list (val * val) -> nat -> val) (fcs : list (val * list simrow))
  : list (val * list simrow * list val) :=
  final_groups (gam (gparams scale fcs)) 0 fcs.

(** bootstrap.py 687-710 [_bs_reserves]: records (sim, origin, latest, ultimate,
    reserve) at the largest development period.  ([np.nan_to_num] would also turn
    infinities into the largest floats; kept as infinities here.) *)
Record rrec := mkR { v_sim : nat; v_o : Z; v_latest : val; v_ultimate : val; v_reserve : val }.
Definition reserve_recs (m : lmat) (fin : list (val * list simrow * list val)) : list rrec :=
  flat_map (fun e => let la := fst (fst e) in
      flat_map (fun p => let r := fst p in let u := snd p in
         if (b_d r =? zmax (m_cols m))%Z
         then [mkR (b_sim r) (b_o r) (if isnan la then u else la) u (nan0 (vsub u la))] else [])
      (combine (snd (fst e)) (snd e))) fin.
Definition rrec_cmp (a b : rrec) : comparison :=
  match Z.compare (v_o a) (v_o b) with Eq => Nat.compare (v_sim a) (v_sim b) | c => c end.
Definition bs_reserves (m : lmat) (fin : list (val * list simrow * list val)) : list rrec :=
  ssort rrec_cmp (reserve_recs m fin).

(** Lines 162-174: from the fitted incremental triangle to the reserves. *)
Definition simulate (sq : val -> val) (m : lmat) (cl rl : list nat) (fit : lmat) (scale : val) (sims : nat)
    (resid : nat -> val) (gam : list (val * val) -> nat -> val) : list rrec :=
  let tab := samples sq m fit sims resid in
  let lt := bs_ldfs m cl sims tab in
  let ladev o := match zfind o (m_idx m) with
                 | Some i => nth (nth i rl O) (m_cols m) 0%Z | None => 0%Z end in
  bs_reserves m (process_error scale gam (forecasts m ladev lt NaN tab)).

(** ** The call, bootstrap.py 104-233, up to the reserve distribution and the point
    estimates.  [rng] maps the sampling distribution to the residuals drawn (with
    [choice]: an exception when there is nothing to draw from) and to the gamma
    variates drawn afterwards. *)
Record boot_result := mkBoot {
  o_ldfs : series; o_fit_cum : lmat; o_fit_incr : lmat; o_resid_us : lmat; o_resid_adj : lmat;
  o_scale : val; o_dof : Z; o_dist : list val; o_reserves : list rrec;
  o_summary : list (Z * val * val * val);          (* origin, latest, ultimate, reserve *)
  o_total : val * val * val }.
(** Mean of a column by origin (line 176). *)
Definition mean_by (f : rrec -> val) (l : list rrec) (o : Z) : val :=
  vmean (map f (filter (fun r => (v_o r =? o)%Z) l)).
Definition boot_cl (gm : list val -> val) (sq : val -> val) (t : tri) (cl rl : list nat) (ind : list (list val))
    (sims : nat) (parametric : bool) (rng : list val -> (nat -> val) * (list (val * val) -> nat -> val))
  : res boot_result :=
  let m := t_mat t in
  do ldfs <- ldfs_of_label gm m ind "all-weighted" (Fin 1%Qc) ;
  do lt <- latest_by_origin t ;
  do fc <- tri_fit_cum m (map snd ldfs) ;
  let fi := tri_fit_incr fc in
  do ru <- resid_us sq t fi ;
  let ra := resid_adj sq m ru in
  let sc := scale_param m ru in
  let sd := sampling_dist ra in
  (* line 484: to_tbl(...).drop("value", axis=1) *)
  if negb (String.eqb (t_v t) "value") then Err KeyError else
  if negb parametric && (0 <? sims) && (List.length sd =? 0) then Err ValueError else
  let rs := simulate sq m cl rl fi sc sims (fst (rng sd)) (snd (rng sd)) in
  let ult o := if (o =? zmin (map fst lt))%Z then slookup lt o else mean_by v_ultimate rs o in
  let rows := map (fun p => let o := fst p in
                 (o, snd p, ult o, vsub (ult o) (snd p))) lt in
  Ok (mkBoot ldfs fc fi ru ra sc (dof m) sd rs rows
       (skipsum (map (fun r => snd (fst (fst r))) rows), skipsum (map (fun r => snd (fst r)) rows),
        skipsum (map (fun r => snd r) rows))).

(** bootstrap.py 463-469, 652-658: the two generators.  [seed]: [RandomState(int)];
    [fresh1], [fresh2]: [RandomState()], seeded by the operating system; [resample] and
    [gamma] advance a generator.  Another type leaves [prng] unbound. *)
Inductive rstate (P : Type) := RsNone | RsInt (z : Z) | RsState (p : P) | RsOther.
Arguments RsNone {P}.
Arguments RsInt {P} z.
Arguments RsState {P} p.
Arguments RsOther {P}.
Definition boot_rng {P : Type} (seed : Z -> P) (fresh1 fresh2 : P)
    (resample : P -> list val -> nat -> (nat -> val) * P)
    (gamma : P -> list (val * val) -> nat -> val) (rs : rstate P) (size : nat)
  : res (list val -> (nat -> val) * (list (val * val) -> nat -> val)) :=
  match rs with
  | RsNone => Ok (fun sd => (fst (resample fresh1 sd size), gamma fresh2))
  | RsInt z => Ok (fun sd => (fst (resample (seed z) sd size), gamma (seed z)))
  | RsState p => Ok (fun sd => (fst (resample p sd size), gamma (snd (resample p sd size))))
  | RsOther => Err UnboundLocalError
  end.
