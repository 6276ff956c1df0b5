(** Model of a cumulative triangle as an object with lazily cached properties
    (/repo/trikit/triangle.py 41-333, 462-476, 578-856) and of the calls that use them
    (triangle.py 1101-1275).  Definitions only.

    The other model files give each property as a function of the triangle's cells.
    Here every property goes through its cache attribute, and the calls use what the
    caches hold. *)

From Coq Require Import String QArith Qcanon ZArith List Bool Lia.
From Verif Require Import Val QcLib Frame Triangle A2A Base Mack Diag Boot.
Import ListNotations.
Open Scope string_scope.
Open Scope list_scope.
Open Scope nat_scope.

(** triangle.py 64-77, 466-474: the cache attributes; [None] is Python's [None].
    [k_clvi], [k_rlvi]: the frame is stored before its offset column is added
    (164-173, 183-192), [Some None] is a frame left without that column. *)
Record cache := mkCache {
  k_nbr : option nat;
  k_clvi : option (option (list nat));
  k_rlvi : option (option (list nat));
  k_triind : option (list (list bool));
  k_latest : option (list rec);
  k_latest_o : option (list (Z * val));
  k_latest_d : option (list (Z * val));
  k_devp : option (list Z);
  k_origins : option (list Z);
  k_maturity : option (list Z);
  k_a2a : option lmat;
  k_a2aind : option (list (list val));
  k_a2a_lvi : option (list (Z * Z));
  k_ranked : option (list rank_col);
  k_assign : option (list (list (option Z))) }.

(** After construction.  The fill loop of [totri] (1395-1406) may leave [clvi] and
    [triind] cached; [c0] is [ob_clvi] of [Triangle.v]. *)
Definition new_cache (t : tri) (c0 : option (list nat)) : cache :=
  mkCache None (match c0 with Some cl => Some (Some cl) | None => None end) None
    (match c0 with Some cl => Some (triind (nrows (t_mat t)) cl) | None => None end)
    None None None None None None None None None None None.

Definition w_nbr (x : nat) (k : cache) : cache :=
  mkCache (Some x) (k_clvi k) (k_rlvi k) (k_triind k) (k_latest k) (k_latest_o k) (k_latest_d k)
    (k_devp k) (k_origins k) (k_maturity k) (k_a2a k) (k_a2aind k) (k_a2a_lvi k) (k_ranked k) (k_assign k).
Definition w_clvi (x : option (list nat)) (k : cache) : cache :=
  mkCache (k_nbr k) (Some x) (k_rlvi k) (k_triind k) (k_latest k) (k_latest_o k) (k_latest_d k)
    (k_devp k) (k_origins k) (k_maturity k) (k_a2a k) (k_a2aind k) (k_a2a_lvi k) (k_ranked k) (k_assign k).
Definition w_rlvi (x : option (list nat)) (k : cache) : cache :=
  mkCache (k_nbr k) (k_clvi k) (Some x) (k_triind k) (k_latest k) (k_latest_o k) (k_latest_d k)
    (k_devp k) (k_origins k) (k_maturity k) (k_a2a k) (k_a2aind k) (k_a2a_lvi k) (k_ranked k) (k_assign k).
Definition w_triind (x : list (list bool)) (k : cache) : cache :=
  mkCache (k_nbr k) (k_clvi k) (k_rlvi k) (Some x) (k_latest k) (k_latest_o k) (k_latest_d k)
    (k_devp k) (k_origins k) (k_maturity k) (k_a2a k) (k_a2aind k) (k_a2a_lvi k) (k_ranked k) (k_assign k).
Definition w_latest (x : list rec) (k : cache) : cache :=
  mkCache (k_nbr k) (k_clvi k) (k_rlvi k) (k_triind k) (Some x) (k_latest_o k) (k_latest_d k)
    (k_devp k) (k_origins k) (k_maturity k) (k_a2a k) (k_a2aind k) (k_a2a_lvi k) (k_ranked k) (k_assign k).
Definition w_latest_o (x : list (Z * val)) (k : cache) : cache :=
  mkCache (k_nbr k) (k_clvi k) (k_rlvi k) (k_triind k) (k_latest k) (Some x) (k_latest_d k)
    (k_devp k) (k_origins k) (k_maturity k) (k_a2a k) (k_a2aind k) (k_a2a_lvi k) (k_ranked k) (k_assign k).
Definition w_latest_d (x : list (Z * val)) (k : cache) : cache :=
  mkCache (k_nbr k) (k_clvi k) (k_rlvi k) (k_triind k) (k_latest k) (k_latest_o k) (Some x)
    (k_devp k) (k_origins k) (k_maturity k) (k_a2a k) (k_a2aind k) (k_a2a_lvi k) (k_ranked k) (k_assign k).
Definition w_devp (x : list Z) (k : cache) : cache :=
  mkCache (k_nbr k) (k_clvi k) (k_rlvi k) (k_triind k) (k_latest k) (k_latest_o k) (k_latest_d k)
    (Some x) (k_origins k) (k_maturity k) (k_a2a k) (k_a2aind k) (k_a2a_lvi k) (k_ranked k) (k_assign k).
Definition w_origins (x : list Z) (k : cache) : cache :=
  mkCache (k_nbr k) (k_clvi k) (k_rlvi k) (k_triind k) (k_latest k) (k_latest_o k) (k_latest_d k)
    (k_devp k) (Some x) (k_maturity k) (k_a2a k) (k_a2aind k) (k_a2a_lvi k) (k_ranked k) (k_assign k).
Definition w_maturity (x : list Z) (k : cache) : cache :=
  mkCache (k_nbr k) (k_clvi k) (k_rlvi k) (k_triind k) (k_latest k) (k_latest_o k) (k_latest_d k)
    (k_devp k) (k_origins k) (Some x) (k_a2a k) (k_a2aind k) (k_a2a_lvi k) (k_ranked k) (k_assign k).
Definition w_a2a (x : lmat) (k : cache) : cache :=
  mkCache (k_nbr k) (k_clvi k) (k_rlvi k) (k_triind k) (k_latest k) (k_latest_o k) (k_latest_d k)
    (k_devp k) (k_origins k) (k_maturity k) (Some x) (k_a2aind k) (k_a2a_lvi k) (k_ranked k) (k_assign k).
Definition w_a2aind (x : list (list val)) (k : cache) : cache :=
  mkCache (k_nbr k) (k_clvi k) (k_rlvi k) (k_triind k) (k_latest k) (k_latest_o k) (k_latest_d k)
    (k_devp k) (k_origins k) (k_maturity k) (k_a2a k) (Some x) (k_a2a_lvi k) (k_ranked k) (k_assign k).
Definition w_a2a_lvi (x : list (Z * Z)) (k : cache) : cache :=
  mkCache (k_nbr k) (k_clvi k) (k_rlvi k) (k_triind k) (k_latest k) (k_latest_o k) (k_latest_d k)
    (k_devp k) (k_origins k) (k_maturity k) (k_a2a k) (k_a2aind k) (Some x) (k_ranked k) (k_assign k).
Definition w_ranked (x : list rank_col) (k : cache) : cache :=
  mkCache (k_nbr k) (k_clvi k) (k_rlvi k) (k_triind k) (k_latest k) (k_latest_o k) (k_latest_d k)
    (k_devp k) (k_origins k) (k_maturity k) (k_a2a k) (k_a2aind k) (k_a2a_lvi k) (Some x) (k_assign k).
Definition w_assign (x : list (list (option Z))) (k : cache) : cache :=
  mkCache (k_nbr k) (k_clvi k) (k_rlvi k) (k_triind k) (k_latest k) (k_latest_o k) (k_latest_d k)
    (k_devp k) (k_origins k) (k_maturity k) (k_a2a k) (k_a2aind k) (k_a2a_lvi k) (k_ranked k) (Some x).

(** Programs over the caches: they may change them and then return or raise. *)
Definition M (A : Type) := cache -> cache * res A.
Definition ret {A} (x : A) : M A := fun k => (k, Ok x).
Definition lift {A} (r : res A) : M A := fun k => (k, r).
Definition bindM {A B} (p : M A) (f : A -> M B) : M B :=
  fun k => match p k with
           | (k', Ok x) => f x k'
           | (k', Err e) => (k', Err e)
           end.
Notation "'run' x <- p ; q" := (bindM p (fun x => q)) (at level 200, x name, p at level 100, q at level 200).

(** The pattern [if self._p is None: self._p = ...; return self._p]. *)
Definition memo {A} (get : cache -> option A) (put : A -> cache -> cache) (p : M A) : M A :=
  fun k => match get k with
           | Some x => (k, Ok x)
           | None => match p k with
                     | (k', Ok x) => (put x k', Ok x)
                     | (k', Err e) => (k', Err e)
                     end
           end.

(** ** The properties *)
Section Props.
Context (t : tri).
Let m := t_mat t.

(** triangle.py 126-137 [nbr_cells]. *)
Definition p_nbr : M nat := memo k_nbr w_nbr (ret (nbr_cells m)).

(** triangle.py 178-194 [clvi] and 159-175 [rlvi]: the frame is stored, then its offset
    column is computed, which may raise.  A later read finds the stored frame; what the
    callers take from it is the offset column (KeyError when it is not there). *)
Definition p_clvi : M (list nat) :=
  fun k => match k_clvi k with
           | Some (Some cl) => (k, Ok cl)
           | Some None => (k, Err KeyError)
           | None => match clvi m with
                     | Ok cl => (w_clvi (Some cl) k, Ok cl)
                     | Err e => (w_clvi None k, Err e)
                     end
           end.
Definition p_rlvi : M (list nat) :=
  fun k => match k_rlvi k with
           | Some (Some rl) => (k, Ok rl)
           | Some None => (k, Err KeyError)
           | None => match rlvi m with
                     | Ok rl => (w_rlvi (Some rl) k, Ok rl)
                     | Err e => (w_rlvi None k, Err e)
                     end
           end.

(** triangle.py 140-156 [triind]: a frame of zeros is stored, then written from [clvi]. *)
Definition p_triind : M (list (list bool)) :=
  fun k => match k_triind k with
           | Some ti => (k, Ok ti)
           | None =>
               match p_clvi (w_triind (mk (nrows m) (ncols m) (fun _ _ => false)) k) with
               | (k', Ok cl) => (w_triind (triind (nrows m) cl) k', Ok (triind (nrows m) cl))
               | (k', Err e) => (k', Err e)
               end
           end.

(** triangle.py 197-217 [latest]; 220-249 [latest_by_origin], [latest_by_devp]. *)
Definition p_latest : M (list rec) := memo k_latest w_latest (lift (latest t)).
Definition p_latest_o : M (list (Z * val)) :=
  memo k_latest_o w_latest_o
    (run l <- p_latest ;
     ret (ssort (fun a b => Z.compare (fst a) (fst b)) (map (fun r => (r_o r, r_v r)) l))).
Definition p_latest_d : M (list (Z * val)) :=
  memo k_latest_d w_latest_d
    (run l <- p_latest ;
     ret (ssort (fun a b => Z.compare (fst a) (fst b)) (map (fun r => (r_d r, r_v r)) l))).

(** triangle.py 252-277 [devp], [origins]; 280-297 [maturity]. *)
Definition p_devp : M (list Z) := memo k_devp w_devp (ret (m_cols m)).
Definition p_origins : M (list Z) := memo k_origins w_origins (ret (m_idx m)).
Definition p_maturity : M (list Z) :=
  memo k_maturity w_maturity (run ti <- p_triind ; lift (maturity m ti)).

(** triangle.py 578-589 [a2a], 593-605 [a2aind]. *)
Definition p_a2a : M lmat := memo k_a2a w_a2a (ret (a2a m)).
Definition p_a2aind : M (list (list val)) :=
  memo k_a2aind w_a2aind
    (run a <- p_a2a ; ret (map (map (fun v => if isnan v then Fin 0 else Fin 1)) (m_cells a))).

(** triangle.py 700-716 [a2a_lvi], 720-742 [ranked_a2a], 746-773 [a2a_assignment]. *)
Definition a2a_lvi_of (a : lmat) : res (list (Z * Z)) :=
  mapM (fun j => match last_valid (mcol a j) with
                 | None => Err KeyError
                 | Some i => Ok (nth j (m_cols a) 0%Z, nth i (m_idx a) 0%Z)
                 end) (seq 0 (ncols a)).
Definition p_a2a_lvi : M (list (Z * Z)) :=
  memo k_a2a_lvi w_a2a_lvi (run a <- p_a2a ; lift (a2a_lvi_of a)).
Definition ranked_of (a : lmat) (lvi : list (Z * Z)) : res (list rank_col) :=
  match removelast (tl (rank_list a lvi)) with
  | [] => Err ValueError
  | l => Ok l
  end.
Definition p_ranked : M (list rank_col) :=
  memo k_ranked w_ranked (run lvi <- p_a2a_lvi ; run a <- p_a2a ; lift (ranked_of a lvi)).
Definition assign_of (a : lmat) : list (list (option Z)) :=
  map (fun i => map (fun j => assign1 (vmedian (mcol a j)) (cell (m_cells a) i j)) (seq 0 (ncols a)))
      (seq 0 (nrows a)).
Definition p_assign : M (list (list (option Z))) :=
  memo k_assign w_assign (run a <- p_a2a ; ret (assign_of a)).

(** triangle.py 608-697, the setter [tri.a2aind = (o, d, v)]: line 697 is
    [self._a2aind.at[...] = value], without a read of the property. *)
Definition set_ind (o d : Z) (v : val) : M unit :=
  fun k => match k_a2aind k with
           | None => (k, Err AttributeError)
           | Some i => match a2aind_set (a2a m) i o d v with
                       | Ok i' => (w_a2aind i' k, Ok tt)
                       | Err e => (k, Err e)
                       end
           end.
(** [tri.a2aind.at[o, d] = v]: the property returns the cached frame itself. *)
Definition set_at (o d : Z) (v : val) : M unit := run _ <- p_a2aind ; set_ind o d v.

(** ** The calls, with the values found in the caches *)

(** triangle.py 777-856 [a2a_avgs]. *)
Definition adj_of (a : lmat) (ind : list (list val)) : lmat :=
  mkMat (m_idx a) (m_cols a)
        (mk (nrows a) (ncols a) (fun i j => vmul (cell (m_cells a) i j) (cell ind i j))).
Definition one_avg_of (gm : list val -> val) (a : lmat) (ind : list (list val))
    (ty : avgtype) (dur col : nat) : res val :=
  let w := window dur (mcol (adj_of a ind) col) in
  match ty with
  | Simple => simple_avg w
  | Geometric => geometric_avg gm w
  | Medial => medial_avg w
  | Weighted => weighted_avg m dur col
  end.
Definition a2a_avgs_of (gm : list val -> val) (a : lmat) (ind : list (list val))
  : res (list (string * list val)) :=
  mapM (fun sp => do row <- mapM (one_avg_of gm a ind (fst sp) (snd sp)) (seq 0 (ncols a)) ;
                  Ok (avg_label (fst sp) (snd sp), row))
       (avg_specs (nrows a)).
Definition q_avgs (gm : list val -> val) : M (list (string * list val)) :=
  run a <- p_a2a ; run ind <- p_a2aind ; lift (a2a_avgs_of gm a ind).

(** base.py 156-177 [_ldfs]. *)
Definition q_ldfs (gm : list val -> val) (sel : string) (tail : val) : M series :=
  run avgs <- q_avgs gm ;
  match find (fun p => String.eqb (fst p) sel) avgs with
  | None => lift (Err KeyError)
  | Some row =>
      run a <- p_a2a ;
      lift (let cols := m_cols a in
            do inc <- increment cols ;
            Ok (zvsort (sset (combine cols (snd row)) (zmax cols + inc) tail)))
  end.

(** base.py 91-121; [tri.devp] is cached, [tri.columns] is not. *)
Definition q_select (gm : list val -> val) (sel : sel_arg) (tail : val) (k : cache)
  : cache * (sel_arg * res series) :=
  match sel with
  | SelLabel s => let (k', r) := q_ldfs gm s tail k in (k', (sel, r))
  | SelSeq l =>
      let (k', r) := p_devp k in
      (k', (sel, do ds <- r ;
                 let l' := l ++ [tail] in
                 if List.length l' =? List.length ds then Ok (combine ds l') else Err ValueError))
  | SelSeries s =>
      let (k', r) := p_devp k in
      match r with
      | Err e => (k', (sel, Err e))
      | Ok ds =>
          (k', if List.length s =? List.length ds - 1 then
                 match increment (map fst s) with
                 | Err e => (sel, Err e)
                 | Ok inc =>
                     let s' := sset s (zmax (map fst s) + inc) tail in
                     (SelSeries s', Ok (map (fun d => (d, slookup s' d)) ds))
                 end
               else (sel, Err ValueError))
      end
  end.

(** base.py 122-151 and 203-281, from the latest diagonal, maturity and clvi found in
    the caches. *)
Definition ultimates_of (lt : list (Z * val)) (cd : series) : res series :=
  do p <- bmul (map snd lt) (rev (map snd cd)) ;
  if List.length p =? nrows m then Ok (zvsort (combine (m_idx m) p)) else Err ValueError.
Definition reserves_of (lt : list (Z * val)) (ult : series) : series :=
  zvsort (map (fun o => (o, vsub (slookup ult o) (slookup lt o))) (m_idx m)).
Definition q_chain_ladder (ldfs : series) (tail : val) : M cl_result :=
  let cd := cldfs ldfs in
  run lt <- p_latest_o ;
  run ult <- lift (ultimates_of lt cd) ;
  let rsv := reserves_of lt ult in
  run mat <- p_maturity ;
  run cl <- p_clvi ;
  run sq <- lift (trisqrd m cl (map snd ldfs)) ;
  let rows := map (fun p => let o := fst p in let mt := snd p in
                 let c := slookup cd mt in
                 mkRow o mt c (vdiv (Fin 1%Qc) c) (slookup lt o) (slookup ult o) (slookup rsv o))
               (combine (m_idx m) mat) in
  ret (mkRes rows
        (skipsum (map s_latest rows), skipsum (map s_ultimate rows), skipsum (map s_reserve rows))
        ldfs sq tail).

(** triangle.py 1101-1139 [base_cl]. *)
Definition q_base_cl (gm : list val -> val) (sel : sel_arg) (tail : val) (k : cache)
  : cache * (sel_arg * res cl_result) :=
  match q_select gm sel tail k with
  | (k', (sel', Err e)) => (k', (sel', Err e))
  | (k', (sel', Ok ldfs)) =>
      let (k'', r) := q_chain_ladder ldfs tail k' in (k'', (sel', r))
  end.

(** triangle.py 1207-1275 [mack_cl].  (Line 176 of mack.py takes [latest.sort_index()],
    a copy, before it overwrites its columns.  [a2a] and [latest] inside the ldf and
    variance formulas are recomputed here, not taken from the cache.) *)
Definition q_mack_cl (alpha : nat) (tail : val) : M mack_result :=
  run _ <- p_latest ;
  run _ <- p_a2a ;
  run ind <- p_a2aind ;
  run ldfs <- lift (mack_ldfs t ind alpha (Fin 1%Qc)) ;
  run r <- q_chain_ladder ldfs tail ;
  lift (do dv <- devp_variance t ind ldfs alpha ;
        do lv <- ldf_variance t ind dv alpha ;
        let n := ncols m in
        if negb (nrows m =? n) then Err Unmodelled else
        let f := map snd ldfs in
        let sq := fst (c_trisqrd r) in
        let proc := map (fun i => nan0 (process_error_row n f (map snd dv) (nth i sq []) i)) (seq 0 n) in
        let par := map (fun i => nan0 (parameter_error_row n f (map snd lv) (nth i sq []) i)) (seq 0 n) in
        let mse := map (fun p => vadd (fst p) (snd p)) (combine proc par) in
        let u := map s_ultimate (c_rows r) in
        let quot := map snd (salign (fun a b => vdiv a (vpow b 2)) dv ldfs) in
        let tot := skipsum (map (mse_total_row n quot sq mse u) (seq 1 (n - 1))) in
        Ok (mkMack r dv lv proc par mse tot)).

(** triangle.py 1142-1204 [boot_cl]. *)
Definition q_boot_cl (gm : list val -> val) (sq : val -> val) (sims : nat) (parametric : bool)
    (rng : list val -> (nat -> val) * (list (val * val) -> nat -> val)) : M boot_result :=
  run ldfs <- q_ldfs gm "all-weighted" (Fin 1%Qc) ;
  run lt <- p_latest_o ;
  run mat <- p_maturity ;
  run fc <- lift (tri_fit_cum m (map snd ldfs)) ;
  let fi := tri_fit_incr fc in
  run ru <- lift (resid_us sq t fi) ;
  let ra := resid_adj sq m ru in
  let sc := scale_param m ru in
  let sd := sampling_dist ra in
  run _ <- lift (if negb (String.eqb (t_v t) "value") then Err KeyError else
                 if negb parametric && (0 <? sims) && (List.length sd =? 0) then Err ValueError
                 else Ok tt) ;
  run rl <- p_rlvi ;
  run cl <- p_clvi ;
  let rs := simulate sq m cl rl fi sc sims (fst (rng sd)) (snd (rng sd)) in
  let ult o := if (o =? zmin (map fst lt))%Z then slookup lt o else mean_by v_ultimate rs o in
  let rows := map (fun p => let o := fst p in
                 (o, snd p, ult o, vsub (ult o) (snd p))) lt in
  ret (mkBoot ldfs fc fi ru ra sc (dof m) sd rs rows
       (skipsum (map (fun r => snd (fst (fst r))) rows), skipsum (map (fun r => snd (fst r)) rows),
        skipsum (map (fun r => snd r) rows))).

(** triangle.py 301-333 [diagonal]. *)
Definition diagonal_of (l : list rec) (offset : Z) : res (list rec) :=
  let n := List.length l in
  let idx := filter (fun p => (0 <=? snd p)%Z)
               (map (fun i => (i, (Z.of_nat (n - 1 - i) + offset)%Z)) (seq 0 n)) in
  match idx with
  | [] => Err ValueError
  | _ => mapM (fun p =>
           if (snd p <? Z.of_nat (ncols m))%Z
           then Ok (mkrec (nth (fst p) (m_idx m) 0%Z)
                          (nth (Z.to_nat (snd p)) (m_cols m) 0%Z)
                          (cell (m_cells m) (fst p) (Z.to_nat (snd p))))
           else Err KeyError) idx
  end.
Definition q_diagonal (offset : Z) : M (list rec) :=
  run ds <- p_devp ;
  if (Z.of_nat (List.length ds) - 1 <? Z.abs offset)%Z then lift (Err ValueError) else
  run l <- p_latest ; lift (diagonal_of l offset).
End Props.

(** ** Histories *)

(** What a user can do with a triangle: read a property, call a method, or change an
    indicator in one of the two ways. *)
Inductive op :=
| ONbrCells | OTriind | OClvi | ORlvi | OLatest | OLatestByOrigin | OLatestByDevp | ODevp | OOrigins
| OMaturity | OA2a | OA2aind | OA2aLvi | ORankedA2a | OA2aAssignment
| OToTbl (dropna : bool) | OToIncr | ODiagonal (offset : Z) | OA2aAvgs
| OBaseCl (sel : sel_arg) (tail : val)
| OMackCl (alpha : nat) (tail : val)
| OBootCl (sims : nat) (parametric : bool)
    (rng : list val -> (nat -> val) * (list (val * val) -> nat -> val))
| OSet (o d : Z) (v : val)               (* tri.a2aind = (o, d, v) *)
| OSetAt (o d : Z) (v : val).            (* tri.a2aind.at[o, d] = v *)

(** What it gets back. *)
Inductive obs :=
| BUnit (x : unit) | BNat (n : nat) | BNats (l : list nat) | BBools (l : list (list bool))
| BRecs (l : list rec) | BSeries (s : list (Z * val)) | BLabels (l : list Z) | BMat (x : lmat)
| BCells (l : list (list val)) | BLvi (l : list (Z * Z)) | BRanks (l : list rank_col)
| BSigns (l : list (list (option Z))) | BFrame (f : frame) | BTri (x : tri)
| BAvgs (l : list (string * list val)) | BBase (sel : sel_arg) (r : res cl_result)
| BMack (r : mack_result) | BBoot (r : boot_result).

Definition mapR {A B} (f : A -> B) (p : M A) : M B := run x <- p ; ret (f x).

Definition exec (gm : list val -> val) (sq : val -> val) (t : tri) (o : op) : M obs :=
  match o with
  | ONbrCells => mapR BNat (p_nbr t)
  | OTriind => mapR BBools (p_triind t)
  | OClvi => mapR BNats (p_clvi t)
  | ORlvi => mapR BNats (p_rlvi t)
  | OLatest => mapR BRecs (p_latest t)
  | OLatestByOrigin => mapR BSeries (p_latest_o t)
  | OLatestByDevp => mapR BSeries (p_latest_d t)
  | ODevp => mapR BLabels (p_devp t)
  | OOrigins => mapR BLabels (p_origins t)
  | OMaturity => mapR BLabels (p_maturity t)
  | OA2a => mapR BMat (p_a2a t)
  | OA2aind => mapR BCells (p_a2aind t)
  | OA2aLvi => mapR BLvi (p_a2a_lvi t)
  | ORankedA2a => mapR BRanks (p_ranked t)
  | OA2aAssignment => mapR BSigns (p_assign t)
  | OToTbl b => mapR BFrame (lift (to_tbl t b))
  | OToIncr => mapR BTri (lift (to_incr t))
  | ODiagonal z => mapR BRecs (q_diagonal t z)
  | OA2aAvgs => mapR BAvgs (q_avgs t gm)
  | OBaseCl sel tail => fun k => let (k', r) := q_base_cl t gm sel tail k in (k', Ok (BBase (fst r) (snd r)))
  | OMackCl alpha tail => mapR BMack (q_mack_cl t alpha tail)
  | OBootCl sims par rng => mapR BBoot (q_boot_cl t gm sq sims par rng)
  | OSet o d v => mapR BUnit (set_ind t o d v)
  | OSetAt o d v => mapR BUnit (set_at t o d v)
  end.

(** The caches after a history, and what each of its steps returned. *)
Fixpoint after (gm : list val -> val) (sq : val -> val) (t : tri) (h : list op) (k : cache) : cache :=
  match h with
  | [] => k
  | o :: r => after gm sq t r (fst (exec gm sq t o k))
  end.
Fixpoint answers (gm : list val -> val) (sq : val -> val) (t : tri) (h : list op) (k : cache)
  : list (res obs) :=
  match h with
  | [] => []
  | o :: r => let (k', x) := exec gm sq t o k in x :: answers gm sq t r k'
  end.
