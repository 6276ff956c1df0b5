(** C87: printed summaries with standard errors and quantiles. *)

From Coq Require Import String Ascii QArith Qcanon Qreals Reals ZArith List Bool Lia.
From Verif Require Import Val QcLib Frame Triangle A2A Base Mack Spec Spec2 Dist Quant Infer MackSum Boot BootSum ExTri ExMack MackClaims2 MackClaims3
  PropsBoot PropsBootSum PropsMackSum SpecPrint SpecRange RangePrint RangeClaims.
Import ListNotations.
Open Scope string_scope.
Open Scope list_scope.
Open Scope nat_scope.

(** The text of a mack_cl result shows its summary: every column under its name, standard
    errors and quantiles as whole numbers with separators, cv with three decimals; the
    row of the oldest origin ends in 0 (standard error) and NaN (cv and quantiles). *)
Theorem C87_mack_text :
  forall (m : lmat) (n : nat) (C : nat -> nat -> Qc),
  regular m n C -> positive n C -> 3 < n -> tail_fits (m_cols m) ->
  forall cl, clvi m = Ok cl ->
  forall (ind : list (list val)) (W : nat -> nat -> Qc), weights ind n W ->
  forall (alpha : nat) (v : string) (tail : val) (k : mack_result),
  mack_cl (mkTri m "origin" "dev" v) cl ind alpha tail = Ok k ->
  forall (ppf : R -> R) (dist : string) (q : list val) (two_sided : bool) (cols : list (string * list fl)),
  mack_summary_table ppf dist k q two_sided = Ok cols ->
  exists head body, mack_text ppf dist k q two_sided = Ok (head, body) /\ table_shown (mack_table k) cols head body /\
  exists txt, nth_error body 0 = Some txt /\
    skipn 6 (snd txt) = list_ascii_of_string "0" :: list_ascii_of_string "NaN" :: map (fun _ => list_ascii_of_string "NaN") cols.
Proof. exact c87_mack. Qed.
Print Assumptions C87_mack_text.

(** The same for boot_cl.  Its maturities, cumulative factors and emergence are those of
    base_cl with the default average; origins, losses, standard errors and cv are those of
    C62 and C63. *)
Theorem C87_boot_text :
  forall (gm : list val -> val) (rt : val -> val) (m : lmat) (n : nat) (C : nat -> nat -> Qc) (cl rl : list nat)
         (ind : list (list val)) (sims : nat) (par : bool)
         (rng : list val -> (nat -> val) * (list (val * val) -> nat -> val)) (b : boot_result)
         (sel : sel_arg) (r : cl_result) (q : list val) (two_sided : bool) (method : interp) (cols : list (string * list Qc)),
  regular m n C -> 0 < n ->
  boot_cl gm rt (mkTri m "origin" "dev" "value") cl rl ind sims par rng = Ok b ->
  base_cl gm (mkTri m "origin" "dev" "value") cl ind (SelLabel "all-weighted") (Fin 1%Qc) = (sel, Ok r) ->
  boot_summary_quantiles (o_reserves b) (m_idx m) q two_sided method = Ok cols ->
  exists rows head body, boot_rows (mkTri m "origin" "dev" "value") cl b = Ok rows /\
    map (fun w => (y_maturity w, y_cldf w, y_emergence w)) rows =
      map (fun w => (Some (s_maturity w), s_cldf w, s_emergence w)) (c_rows r) ++ [(None, NaN, NaN)] /\
    map (fun w => mkBrow (y_origin w) (y_latest w) (y_ultimate w) (y_reserve w) (y_std_error w) (y_cv w)) rows = boot_table b /\
    boot_text (mkTri m "origin" "dev" "value") cl b q two_sided method = Ok (head, body) /\
    table_shown rows (map (fun c => (fst c, map (fun x => FR (Q2R (this x))) (snd c))) cols) head body.
Proof. exact c87_boot. Qed.
Print Assumptions C87_boot_text.

(** A figure printed with k decimals is off by at most half a unit of the last one, and
    of two figures the larger is not printed as the smaller. *)
Theorem C87_printed_figures :
  (forall sep k x, exists a, read_number (fl_text sep k (FR x)) = Some a /\
     (Rabs (Q2R (this a) - x) <= 1 / (2 * IZR (10 ^ Z.of_nat k)))%R) /\
  (forall s1 s2 k x y a b, (x <= y)%R ->
     read_number (fl_text s1 k (FR x)) = Some a -> read_number (fl_text s2 k (FR y)) = Some b -> (a <= b)%Qc).
Proof. exact (conj printed_near printed_order). Qed.
Print Assumptions C87_printed_figures.

(** A Mack result with two quantiles and a bootstrap result with two simulations. *)
Example C87_nonvacuous :
  regular ex_m 4 ex_C /\ positive 4 ex_C /\ weights (a2aind_init ex_m) 4 (fun _ _ => 1%Qc) /\
  mack_cl (mkTri ex_m "origin" "dev" "value") [3; 2; 1; 0] (a2aind_init ex_m) 1 (vz 1) = Ok ex_k /\
  (exists cols, mack_summary_table (fun x => x) "norm" ex_k [Fin (Q2Qc (9 # 10))] true = Ok cols /\
     map fst cols = ["5%"; "95%"]) /\
  regular bt_m 4 ex_C /\
  (exists b cols, two_sims = Ok b /\
     boot_summary_quantiles (o_reserves b) (m_idx bt_m) [Fin (Q2Qc (3 # 4))] false Lower = Ok cols /\ map fst cols = ["75%"]) /\
  (exists sel r, base_cl ex_gm (mkTri bt_m "origin" "dev" "value") [3; 2; 1; 0] ex_ind (SelLabel "all-weighted") (Fin 1%Qc) = (sel, Ok r)).
Proof.
  split; [apply ex_regular|]. split; [apply ex_positive|]. split; [apply ex_weights|]. split; [apply ex_k_ok|].
  split; [eexists; split; [reflexivity|vm_compute; reflexivity]|]. split; [apply bt_regular|].
  split; [eexists _, _; split; [vm_compute; reflexivity|]; split; [vm_compute; reflexivity|reflexivity]|].
  eexists _, _. vm_compute. reflexivity.
Qed.
