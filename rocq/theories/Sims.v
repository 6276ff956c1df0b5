(** Model of the table of simulated records of a bootstrap result ([sims_data]).
    Definitions only. *)

From Coq Require Import String QArith Qcanon ZArith List Bool Lia.
From Verif Require Import Val QcLib Frame Triangle A2A Base Mack Boot.
Import ListNotations.
Open Scope list_scope.
Open Scope nat_scope.

(** One record of sims_data.  Simplification: the columns sim, origin, dev, rectype,
    samp_incr, samp_cum, param1, latest, ultimate and reserve; the helper columns of
    the intermediate tables (incr, resid, ldf, var, sign, ...) are left out. *)
Record sdrec := mkD {
  d_sim : nat; d_o : Z; d_d : Z; d_fc : bool;
  d_inc : val; d_cum : val;          (* samp_incr, samp_cum *)
  d_shape : val;                     (* param1 *)
  d_latest : val; d_ultimate : val; d_reserve : val }.

(** Last observed development period of an origin (bootstrap.py 239-249 [dfrlvi],
    column l_act_dev). *)
Definition last_dev (m : lmat) (rl : list nat) (o : Z) : Z :=
  match zfind o (m_idx m) with Some i => nth (nth i rl O) (m_cols m) 0%Z | None => 0%Z end.

(** bootstrap.py 594-598, 668, 679-680, 704: [latest] (l_act_cum) is set only for the
    records from the latest observed period on, of all origins but the first; [param1];
    [ultimate] is the running total of the final increments; [reserve] their
    difference. *)
Definition sims_group (m : lmat) (rl : list nat) (scale : val) (e : val * list simrow * list val) : list sdrec :=
  map (fun p => let r := fst p in let u := snd p in
         let la := if (last_dev m rl (b_o r) <=? b_d r)%Z then fst (fst e) else NaN in
         mkD (b_sim r) (b_o r) (b_d r) (b_fc r) (b_inc r) (b_cum r) (vabs (vdiv (b_inc r) scale)) la u (vsub u la))
      (combine (snd (fst e)) (snd e)).
(** bootstrap.py 162-174, 224: from the fitted increments to the table kept as
    [sims_data]. *)
Definition sims_table (sq : val -> val) (m : lmat) (cl rl : list nat) (fit : lmat) (scale : val) (sims : nat)
    (resid : nat -> val) (gam : list (val * val) -> nat -> val) : list sdrec :=
  let tab := samples sq m fit sims resid in
  let lt := bs_ldfs m cl sims tab in
  flat_map (sims_group m rl scale) (process_error scale gam (forecasts m (last_dev m rl) lt NaN tab)).
(** The [sims_data] of the result [b] of a call with these arguments. *)
Definition sims_data (sq : val -> val) (t : tri) (cl rl : list nat) (sims : nat)
    (rng : list val -> (nat -> val) * (list (val * val) -> nat -> val)) (b : boot_result) : list sdrec :=
  sims_table sq (t_mat t) cl rl (o_fit_incr b) (o_scale b) sims (fst (rng (o_dist b))) (snd (rng (o_dist b))).
