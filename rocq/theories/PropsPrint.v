(** Printed triangles and chain ladder results: C81. *)

From Coq Require Import String Ascii QArith Qcanon ZArith List Bool Lia.
From Verif Require Import Val Frame Triangle A2A Base QcLib Spec ExTri SpecCols SpecPrint Print PrintClaims.
Import ListNotations.
Open Scope list_scope.
Open Scope nat_scope.

(** ** C81.  The text of a triangle: its labels in decimal, and every cell as the nearest
    whole number with a comma before every third digit, or NaN. *)
Theorem C81_triangle :
  forall m : lmat, nrows m = List.length (m_cells m) ->
  Forall2 shown_label (m_cols m) (fst (triangle_text m)) /\
  Forall2 (fun o txt => shown_label o (fst txt)) (m_idx m) (snd (triangle_text m)) /\
  Forall2 (fun row txt => Forall2 shown_whole row (snd txt)) (m_cells m) (snd (triangle_text m)).
Proof. exact c81_triangle. Qed.
Print Assumptions C81_triangle.

(** Triangles of whole amounts that print the same are the same. *)
Theorem C81_whole_triangle_determined :
  forall m1 m2 : lmat, nrows m1 = List.length (m_cells m1) -> nrows m2 = List.length (m_cells m2) ->
  (forall row v, In row (m_cells m1) \/ In row (m_cells m2) -> In v row -> whole_cell v) ->
  triangle_text m1 = triangle_text m2 -> m1 = m2.
Proof. exact c81_faithful. Qed.
Print Assumptions C81_whole_triangle_determined.

(** The text of a chain ladder result: factors with five decimals, money figures as
    whole numbers, and a last row of totals. *)
Theorem C81_summary :
  forall r : cl_result, exists body tot, summary_text r = body ++ [tot] /\ Forall2 row_shown (c_rows r) body /\
  fst tot = list_ascii_of_string "total" /\
  exists l u v, snd tot = [[]; list_ascii_of_string "NaN"; list_ascii_of_string "NaN"; l; u; v] /\
    shown_whole (fst (fst (c_total r))) l /\ shown_whole (snd (fst (c_total r))) u /\ shown_whole (snd (c_total r)) v.
Proof. exact c81_summary. Qed.
Print Assumptions C81_summary.

(** The printed reserve [c] against the printed latest [a] and ultimate [b]: off by at
    most one; equal when the latest losses are whole and the ultimate is not half-way
    between two whole numbers. *)
Theorem C81_printed_reserve_partial :
  forall (gm : list val -> val) (t : tri) (cl : list nat) (ind : list (list val)) (sel : sel_arg) (tail : val)
         (sel' : sel_arg) (r : cl_result), base_cl gm t cl ind sel tail = (sel', Ok r) ->
  forall i row txt l u, nth_error (c_rows r) i = Some row -> nth_error (summary_text r) i = Some txt ->
  s_latest row = Fin l -> s_ultimate row = Fin u ->
  exists tl tu tr a b c, skipn 3 (snd txt) = [tl; tu; tr] /\
    read_number tl = Some (qz a) /\ read_number tu = Some (qz b) /\ read_number tr = Some (qz c) /\
    (Z.abs (c - (b - a)) <= 1)%Z /\
    ((exists z, l = qz z) -> (forall z, u <> qz z + 1 / qz 2)%Qc -> c = (b - a)%Z).
Proof. exact c81_balance. Qed.
Print Assumptions C81_printed_reserve_partial.

(** The printed total [T] of the latest losses (0), the ultimates (1) or the reserves (2)
    against the sum of the printed rows; equal when every figure is whole. *)
Theorem C81_printed_total_partial :
  forall (gm : list val -> val) (t : tri) (cl : list nat) (ind : list (list val)) (sel : sel_arg) (tail : val)
         (sel' : sel_arg) (r : cl_result), base_cl gm t cl ind sel tail = (sel', Ok r) ->
  forall k, k < 3 -> (forall row, In row (c_rows r) -> exists q, figure k row = Fin q) ->
  exists zs T, map (printed_figure k) (summary_text r) = map (fun z => Some (qz z)) (zs ++ [T]) /\
    (2 * Z.abs (T - zsum zs) <= Z.of_nat (List.length zs) + 1)%Z /\
    ((forall row, In row (c_rows r) -> exists z, figure k row = Fin (qz z)) -> T = zsum zs).
Proof. exact c81_totals. Qed.
Print Assumptions C81_printed_total_partial.

(** With whole losses 2, 2, 2; 2, 4; 1 the youngest origin prints latest 1, ultimate 2
    (for 1.5) and reserve 0 (for 0.5). *)
Definition halves : lmat := mkMat [2001; 2002; 2003]%Z [12; 24; 36]%Z
  [[vz 2; vz 2; vz 2]; [vz 2; vz 4; NaN]; [vz 1; NaN; NaN]].
Theorem C81_printed_reserve_refuted : exists r,
  snd (base_cl ex_gm (mkTri halves "origin" "dev" "value") [2; 1; 0] (a2aind_init halves)
         (SelLabel "all-weighted") (vz 1)) = Ok r /\
  nth 2 (summary_text r) ([], []) =
  (list_ascii_of_string "2003",
   map list_ascii_of_string ["12"; "1.50000"; "0.66667"; "1"; "2"; "0"]%string).
Proof. eexists. split; [vm_compute; reflexivity|]. vm_compute. reflexivity. Qed.
Print Assumptions C81_printed_reserve_refuted.

(** With every loss 1.4 (nothing develops) the ultimates print 1, 1
    and 1, their total 4. *)
Definition q14 : val := Fin (Q2Qc (14 # 10)).
Definition tenths : lmat := mkMat [2001; 2002; 2003]%Z [12; 24; 36]%Z
  [[q14; q14; q14]; [q14; q14; NaN]; [q14; NaN; NaN]].
Theorem C81_printed_total_refuted : exists r,
  snd (base_cl ex_gm (mkTri tenths "origin" "dev" "value") [2; 1; 0] (a2aind_init tenths)
         (SelLabel "all-weighted") (vz 1)) = Ok r /\
  map (printed_figure 1) (summary_text r) = map (fun z => Some (qz z)) [1; 1; 1; 4]%Z.
Proof.
  eexists. split; [vm_compute; reflexivity|].
  cbn [map]. repeat (apply f_equal2; [|]); try reflexivity; f_equal; apply Qc_is_canon; vm_compute; reflexivity.
Qed.
Print Assumptions C81_printed_total_refuted.

(** Figures with separators, decimals, a sign, and missing cells. *)
Example C81_nonvacuous :
  nrows ex_m = List.length (m_cells ex_m) /\
  cell_text true 0 (vz 1234567) = list_ascii_of_string "1,234,567" /\
  cell_text true 0 (vz (-1000)) = list_ascii_of_string "-1,000" /\
  cell_text false 5 (Fin (Q2Qc (2 # 3))) = list_ascii_of_string "0.66667" /\
  cell_text true 0 (Fin (Q2Qc (5 # 2))) = list_ascii_of_string "2" /\
  (forall row v, In row (m_cells halves) -> In v row -> whole_cell v) /\
  snd (triangle_text halves) =
  map (fun p => (list_ascii_of_string (fst p), map list_ascii_of_string (snd p)))
    [("2001", ["2"; "2"; "2"]); ("2002", ["2"; "4"; "NaN"]); ("2003", ["1"; "NaN"; "NaN"])]%string.
Proof.
  do 5 (split; [vm_compute; reflexivity|]). split; [|vm_compute; reflexivity].
  intros row v Hr Hv. cbn in Hr. destruct Hr as [<-|[<-|[<-|[]]]]; cbn in Hv;
    destruct Hv as [<-|[<-|[<-|[]]]]; (left; reflexivity) || (right; eexists; reflexivity).
Qed.
