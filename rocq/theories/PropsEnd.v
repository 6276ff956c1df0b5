(** C51: from the user's records to the estimates. *)

From Coq Require Import String Ascii QArith Qcanon ZArith List Bool Lia Sorting.Sorted.
From Verif Require Import Val Frame Triangle A2A Base Mack State QcLib Spec Spec2 SpecEnd SpecState ExTri EndClaims.
Import ListNotations.
Open Scope list_scope.
Open Scope nat_scope.

(** ** C51.  [runoff_table l os ds n X]: the frame's records are the incremental losses
    X i j of n origins over n development periods, each origin i observed for n - i
    periods.  totri succeeds, and after any reads and calls on its result (no
    indicator changed) base_cl returns, by origin, the chain ladder estimates in terms
    of the records. *)
Theorem C51_records_to_chain_ladder :
  forall (l : list rec) (os ds : list Z) (n : nat) (X : nat -> nat -> Qc) (gm : list val -> val) (sq : val -> val)
         (f : frame) (v : string),
  runoff_table l os ds n X -> positive n (paid_to X) -> tail_fits ds -> table_in f "origin" "dev" v l ->
  v <> "origin"%string -> v <> "dev"%string -> v <> "cumval"%string ->
  forall tail : Qc, 2 < n -> exists t c,
    totri f "cum" "incr" "tabular" "origin" "dev" v = Ok (mkObj t c) /\
    forall h, Forall (fun o => is_update o = false) h -> exists r,
      snd (exec gm sq t (OBaseCl (SelLabel "all-weighted") (Fin tail)) (after gm sq t h (new_cache t c)))
        = Ok (BBase (SelLabel "all-weighted") (Ok r)) /\
      let fac := fun j => if S j <? n then vol_factor n (paid_to X) j else tail in
      let latest_ i := paid_to X i (n - 1 - i) in
      let cldf i := prodf (n - 1 - i) (S i) fac in
      c_ldfs r = map (fun j => (nth j ds 0%Z, Fin (fac j))) (seq 0 n) /\
      c_rows r = map (fun i => mkRow (nth i os 0%Z) (nth (n - 1 - i) ds 0%Z) (Fin (cldf i)) (vdiv (Fin 1%Qc) (Fin (cldf i)))
         (Fin (latest_ i)) (Fin (latest_ i * cldf i)%Qc) (Fin (latest_ i * cldf i - latest_ i)%Qc)) (seq 0 n) /\
      c_total r = (Fin (sumf 0 n latest_), Fin (sumf 0 n (fun i => latest_ i * cldf i)%Qc),
                   Fin (sumf 0 n (fun i => latest_ i * cldf i - latest_ i)%Qc)).
Proof. exact records_to_base. Qed.
Print Assumptions C51_records_to_chain_ladder.

(** The same for mack_cl (alpha = 1), with the errors.  [s2] are the estimated variance
    parameters, [s] adds the extrapolated one. *)
Theorem C51_records_to_mack :
  forall (l : list rec) (os ds : list Z) (n : nat) (X : nat -> nat -> Qc) (gm : list val -> val) (sq : val -> val)
         (f : frame) (v : string),
  runoff_table l os ds n X -> positive n (paid_to X) -> tail_fits ds -> table_in f "origin" "dev" v l ->
  v <> "origin"%string -> v <> "dev"%string -> v <> "cumval"%string ->
  forall tail : val, 3 < n ->
    let C := paid_to X in
    let fac := fun j => if S j <? n then vol_factor n C j else 1%Qc in
    let s2 := sigma2 n C (fun _ _ => 1%Qc) 1 fac in
    (0 < s2 (n - 4)%nat)%Qc ->
  exists t c,
    totri f "cum" "incr" "tabular" "origin" "dev" v = Ok (mkObj t c) /\
    forall h, Forall (fun o => is_update o = false) h -> exists k,
      snd (exec gm sq t (OMackCl 1 tail) (after gm sq t h (new_cache t c))) = Ok (BMack k) /\
      let s := fun j => if j <? n - 2 then s2 j
        else qmin (s2 (n - 3)%nat * s2 (n - 3)%nat / s2 (n - 4)%nat) (qmin (s2 (n - 3)%nat) (s2 (n - 4)%nat)) in
      let latest_ i := C i (n - 1 - i) in
      let cldf i := prodf (n - 1 - i) (S i) fac in
      let u j := (s j / sumf 0 (n - 1 - j) (fun i => C i j))%Qc in
      let err i := (projected n C fac i (n - 1) * projected n C fac i (n - 1)
           * sumf (n - 1 - i) i (fun j => s j / (fac j * fac j) / projected n C fac i j)
         + latest_ i * latest_ i * (prodf (n - 1 - i) i (fun j => fac j * fac j + u j)
                                    - prodf (n - 1 - i) i (fun j => fac j * fac j)))%Qc in
      c_ldfs (k_cl k) = map (fun j => (nth j ds 0%Z, Fin (fac j))) (seq 0 n) /\
      c_rows (k_cl k) = map (fun i => mkRow (nth i os 0%Z) (nth (n - 1 - i) ds 0%Z) (Fin (cldf i)) (vdiv (Fin 1%Qc) (Fin (cldf i)))
         (Fin (latest_ i)) (Fin (latest_ i * cldf i)%Qc) (Fin (latest_ i * cldf i - latest_ i)%Qc)) (seq 0 n) /\
      k_devpvar k = map (fun j => (nth j ds 0%Z, Fin (s j))) (seq 0 (n - 1)) /\
      k_mse k = map (fun i => Fin (err i)) (seq 0 n) /\
      k_mse_total k = Fin (sumf 1 (n - 1) (fun i => err i
      + qz 2 * projected n C fac i (n - 1) * sumf (S i) (n - 1 - i) (fun l => projected n C fac l (n - 1))
        * sumf (n - 1 - i) i (fun j => s j / (fac j * fac j) / sumf 0 (n - 1 - j) (fun l => C l j))))%Qc.
Proof. exact records_to_mack. Qed.
Print Assumptions C51_records_to_mack.

(** Four origins, the periods of different origins interleaved, one negative payment. *)
Definition end_X (i j : nat) : Qc :=
  qz (nth j (nth i [[100; 50; 30; 9]; [110; 66; -4]; [90; 30]; [130]] []) 0)%Z.
Definition end_os : list Z := [2001; 2002; 2003; 2004]%Z.
Definition end_ds : list Z := [12; 24; 36; 48]%Z.
Definition end_cells : list (nat * nat) :=
  [(3, 0); (0, 0); (1, 0); (0, 1); (2, 0); (0, 2); (1, 1); (2, 1); (0, 3); (1, 2)].
Definition end_l : list rec :=
  map (fun p => mkrec (nth (fst p) end_os 0%Z) (nth (snd p) end_ds 0%Z) (Fin (end_X (fst p) (snd p)))) end_cells.
Definition end_f : frame :=
  [("value", VC (map r_v end_l)); ("dev", ZC (map r_d end_l)); ("origin", ZC (map r_o end_l))]%string.

Example C51_nonvacuous : runoff_table end_l end_os end_ds 4 end_X /\ positive 4 (paid_to end_X) /\
  tail_fits end_ds /\ table_in end_f "origin" "dev" "value" end_l /\
  (0 < sigma2 4 (paid_to end_X) (fun _ _ => 1%Qc) 1
        (fun j => if S j <? 4 then vol_factor 4 (paid_to end_X) j else 1%Qc) (4 - 4))%Qc /\
  (forall i, i < 4 -> (4 - 1 - i <> 0)%nat -> paid_to end_X i (4 - 1 - i) <> end_X i 0).
Proof.
  split; [|split; [|split; [|split; [|split]]]].
  - repeat split.
    + repeat constructor.
    + repeat constructor.
    + repeat (apply SSorted_cons || constructor); cbn; intros; try lia; try discriminate.
    + intro H. apply in_map_iff in H as (p & <- & Hp).
      repeat (destruct Hp as [<-|Hp]; [eexists _, _; split; [|reflexivity]; cbn; lia|]). destruct Hp.
    + intros (i & j & L & ->). change (In (mkrec (nth i end_os 0%Z) (nth j end_ds 0%Z) (Fin (end_X i j))) end_l).
      apply in_map_iff. exists (i, j). split; auto.
      do 4 (destruct i as [|i]; [do 4 (destruct j as [|j]; [cbn; tauto || lia|]); lia|]). lia.
  - intros i j L. do 4 (destruct i as [|i]; [do 4 (destruct j as [|j]; [vm_compute; reflexivity || (exfalso; lia)|]); lia|]). lia.
  - split; [intros j Hj; cbn in Hj; do 2 (destruct j as [|j]; [cbn; lia|]); lia|exists 0; cbn; lia].
  - split; [|cbn; tauto]. repeat constructor; cbn; intuition discriminate.
  - vm_compute. reflexivity.
  - intros i L. do 4 (destruct i as [|i]; [vm_compute; try discriminate; lia|]). lia.
Qed.
