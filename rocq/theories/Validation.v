(** The model evaluated on the repository's data sets, against the reference figures of
    its unit tests (tests/test_estimators_ut.py, tests/test_triangle_ut.py).  These are
    tests of the model, not proofs about the code. *)

From Coq Require Import QArith Qround Qcanon ZArith List Bool String Ascii Lia.
From Verif Require Import Val Frame Triangle A2A Base Mack Diag Boot QcLib.
Import ListNotations.
Open Scope list_scope.

Definition records (l : list (Z * Z * Z)) : frame :=
  recs_frame "origin" "dev" "value" (map (fun p => mkrec (fst (fst p)) (snd (fst p)) (vz (snd p))) l).

(** datasets/raa.csv *)
Definition raa : frame := records
   [(1981,1,5012); (1981,2,3257); (1981,3,2638); (1981,4,898); (1981,5,1734); (1981,6,2642);
   (1981,7,1828); (1981,8,599); (1981,9,54); (1981,10,172); (1982,1,106); (1982,2,4179);
   (1982,3,1111); (1982,4,5270); (1982,5,3116); (1982,6,1817); (1982,7,-103); (1982,8,673);
   (1982,9,535); (1983,1,3410); (1983,2,5582); (1983,3,4881); (1983,4,2268); (1983,5,2594);
   (1983,6,3479); (1983,7,649); (1983,8,603); (1984,1,5655); (1984,2,5900); (1984,3,4211);
   (1984,4,5500); (1984,5,2159); (1984,6,2658); (1984,7,984); (1985,1,1092); (1985,2,8473);
   (1985,3,6271); (1985,4,6333); (1985,5,3786); (1985,6,225); (1986,1,1513); (1986,2,4932);
   (1986,3,5257); (1986,4,1233); (1986,5,2917); (1987,1,557); (1987,2,3463); (1987,3,6926);
   (1987,4,1368); (1988,1,1351); (1988,2,5596); (1988,3,6165); (1989,1,3133); (1989,2,2262);
   (1990,1,2063)]%Z.
(** datasets/ta83.csv with origin + 2000 and dev * 12, as in test_estimators_ut.py 100-105. *)
Definition ta83 : frame := records
   [(2001,12,357848); (2001,24,766940); (2001,36,610542); (2001,48,482940); (2001,60,527326);
   (2001,72,574398); (2001,84,146342); (2001,96,139950); (2001,108,227229); (2001,120,67948);
   (2002,12,352118); (2002,24,884021); (2002,36,933894); (2002,48,1183289); (2002,60,445745);
   (2002,72,320996); (2002,84,527804); (2002,96,266172); (2002,108,425046); (2003,12,290507);
   (2003,24,1001799); (2003,36,926219); (2003,48,1016654); (2003,60,750816); (2003,72,146923);
   (2003,84,495992); (2003,96,280405); (2004,12,310608); (2004,24,1108250); (2004,36,776189);
   (2004,48,1562400); (2004,60,272482); (2004,72,352053); (2004,84,206286); (2005,12,443160);
   (2005,24,693190); (2005,36,991983); (2005,48,769488); (2005,60,504851); (2005,72,470639);
   (2006,12,396132); (2006,24,937085); (2006,36,847498); (2006,48,805037); (2006,60,705960);
   (2007,12,440823); (2007,24,847640); (2007,36,1131398); (2007,48,1063269); (2008,12,359480);
   (2008,24,1061648); (2008,36,1443370); (2009,12,376686); (2009,24,986608); (2010,12,344014)]%Z.

(** |v - q| <= tol. *)
Definition close (v : val) (q tol : Qc) : bool :=
  match v with Fin x => qcleb (x - q) tol && qcleb (q - x) tol | _ => false end.
Definition tiny : Qc := (1 / qz 100000000)%Qc.
Definition col_sum (l : list val) : val := skipsum l.

(** np.sqrt to 12 decimals, for the bootstrap residuals. *)
Definition sqrt12 (v : val) : val :=
  match v with
  | Fin x => if qcltb x 0 then NaN
             else Fin (qz (Z.sqrt (Qfloor (this (x * qz (10 ^ 24))%Qc))) / qz (10 ^ 12))%Qc
  | _ => v
  end.
Definition some_q (o : option Qc) : Qc := match o with Some x => x | None => 0%Qc end.
Definition no_gm (l : list val) : val := NaN.

Definition on {A} (f : frame) (k : tri -> list nat -> A) (d : A) : A :=
  match totri f "cum" "incr" "tabular" "origin" "dev" "value" with
  | Ok o => match ob_clvi o with Some cl => k (ob_tri o) cl | None => d end
  | Err _ => d
  end.
Definition ok {A} (r : res A) (p : A -> bool) : bool := match r with Ok x => p x | Err _ => false end.

(** BaseChainLadderTestCase: ldfs, cldfs, latest (total included), ultimates, reserves. *)
Example raa_base_cl :
  on raa (fun t cl => ok (snd (base_cl no_gm t cl (a2aind_init (t_mat t)) (SelLabel "all-weighted") (Fin 1%Qc)))
    (fun r => close (col_sum (map snd (c_ldfs r))) (qz (1328018030198903) / qz 100000000000000)%Qc tiny &&
              close (col_sum (map s_cldf (c_rows r))) (qz (2159861048771567) / qz 100000000000000)%Qc tiny &&
              close (vadd (fst (fst (c_total r))) (col_sum (map s_latest (c_rows r)))) (qz 321974) tiny &&
              close (snd (fst (c_total r))) (qz (21312222826121017) / qz 100000000000)%Qc tiny &&
              close (snd (c_total r)) (qz (10427045652242031) / qz 200000000000)%Qc tiny)) false = true.
Proof. vm_cast_no_check (eq_refl true). Qed.

(** test_custom_ldfs (the reference is the sum of the column with its total row). *)
Example raa_custom_ldfs :
  on raa (fun t cl => ok (snd (base_cl no_gm t cl (a2aind_init (t_mat t))
      (SelSeq (map (fun k => Fin (qz k / qz 1000)%Qc) [2750; 1550; 1500; 1250; 1150; 1075; 1030; 1020; 1010]%Z)) (Fin 1%Qc)))
    (fun r => close (vadd (snd (c_total r)) (col_sum (map s_reserve (c_rows r)))) (qz (2916406788355239) / qz 20000000000)%Qc tiny)) false = true.
Proof. vm_cast_no_check (eq_refl true). Qed.

(** test_devp_corr_test: the statistic; the half-width 0.12746658149149367 of the interval
    is the 50% normal quantile 0.67448975019608 over sqrt(28). *)
Example raa_devp_corr :
  on raa (fun t _ => ok (spearman_total (t_mat t)) (fun v => close v (qz (695578231292517) / qz 10000000000000000)%Qc tiny) &&
    qceqb (devp_corr_test_var (t_mat t)) (qz 28) ) false = true.
Proof. vm_cast_no_check (eq_refl true). Qed.

(** test_cy_effects_test: Z = 14; the interval (8.965613354894957, 16.78438664510504) has
    centre 12.875 and half-width 1.959963984540054 * sqrt(3.978515625). *)
Example raa_cy_effects :
  on raa (fun t _ => ok (cy_effects_table (t_mat t)) (fun l =>
    qceqb (qsum (map (fun r => qn (y_Z r)) l)) (qz 14) &&
    close (Fin (qsum (map (fun r => some_q (y_E r)) l))) (qz (103) / qz 8)%Qc tiny && close (Fin (qsum (map (fun r => some_q (y_V r)) l))) (qz (2037) / qz 512)%Qc tiny)) false = true.
Proof. vm_cast_no_check (eq_refl true). Qed.

(** CumTriangleTestCase: the latest diagonal and the link ratios of period 1, to five decimals. *)
Example raa_triangle :
  on raa (fun t _ => ok (latest_by_origin t) (fun l => forallb (fun p => veqb (fst p) (vz (snd p)))
      (combine (map snd l) [18834; 16704; 23466; 27067; 26180; 15852; 12314; 13112; 5395; 2063]%Z)) &&
    forallb (fun p => close (fst p) (qz (snd p) / qz 100000)%Qc (1 / qz 200000)%Qc)
      (combine (mcol (a2a (t_mat t)) 0) [164984; 4042453; 263695; 204332; 875916; 425975; 721724; 514212; 172199]%Z)) false = true.
Proof. vm_cast_no_check (eq_refl true). Qed.
