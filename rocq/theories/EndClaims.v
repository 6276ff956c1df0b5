(** From the user's records to the estimates, through any history of reads and calls. *)

From Coq Require Import String Ascii QArith Qcanon ZArith List Bool Lia Permutation Sorting.Sorted.
From Verif Require Import Val Frame Triangle A2A Base Mack Boot State QcLib ListLib Spec Spec2 SpecEnd SpecState
  RegFacts BaseClaims MackClaims2 MackClaims3 StateFacts StateClaims StateBuilt BootFit EndFacts.
Import ListNotations.
Open Scope list_scope.
Open Scope nat_scope.

Lemma read_only_pure gm sq t c0 cl rl h o : offsets t c0 cl -> rlvi (t_mat t) = Ok rl ->
  Forall (fun x => is_update x = false) h -> is_update o = false ->
  snd (exec gm sq t o (after gm sq t h (new_cache t c0))) = pure gm sq t cl rl (a2aind_init (t_mat t)) o.
Proof.
  intros H0 Hr Hh Ho.
  assert (Hk : Forall (known t) h).
  { eapply Forall_impl; [|exact Hh]. intros x Hx. destruct x; cbn in Hx |- *; try exact I; discriminate Hx. }
  rewrite (c27_pure gm sq t cl rl Hr c0 h o H0 Hk Ho). f_equal.
  assert (E : assignments h (answers gm sq t h (new_cache t c0)) = []).
  { clear -Hh. generalize (new_cache t c0). unfold assignments. induction h as [|x h IH]; intro k; auto.
    cbn [answers]. destruct (exec gm sq t x k) as [k' r]. cbn [combine flat_map].
    rewrite IH by (inversion Hh; auto). rewrite app_nil_r. apply Forall_inv in Hh.
    destruct x; try reflexivity; discriminate Hh. }
  rewrite E. reflexivity.
Qed.

Section Table.
  Variables (l : list rec) (os ds : list Z) (n : nat) (X : nat -> nat -> Qc).
  Variables (gm : list val -> val) (sqr : val -> val) (f : frame) (v : string).
  Hypothesis T : runoff_table l os ds n X.
  Hypothesis Pos : positive n (paid_to X).
  Hypothesis Ev : tail_fits ds.
  Hypothesis TI : table_in f "origin" "dev" v l.
  Hypothesis Vo : v <> "origin"%string.
  Hypothesis Vd : v <> "dev"%string.
  Hypothesis Vc : v <> "cumval"%string.

  Lemma first_pos : forall i, i < n -> (0 < X i 0%nat)%Qc.
  Proof.
    intros i Hi. specialize (Pos i 0 ltac:(lia)). unfold paid_to in Pos. rewrite sumf_Sl, sumf_0, Qcplus_0_r in Pos. exact Pos.
  Qed.

  Lemma table_object : 1 < n -> exists m c,
    totri f "cum" "incr" "tabular" "origin" "dev" v = Ok (mkObj (mkTri m "origin" "dev" v) c) /\
    regular m n (paid_to X) /\ m_idx m = os /\ m_cols m = ds /\
    clvi m = Ok (map (fun j => n - 1 - j) (seq 0 n)) /\ rlvi m = Ok (map (fun j => n - 1 - j) (seq 0 n)) /\
    c = Some (map (fun j => n - 1 - j) (seq 0 n)).
  Proof.
    intro Hn. destruct (totri_regular l os ds n X T ltac:(lia) first_pos f "origin" "dev" v) as (m & c & E & R & A & B & D & F); auto; try congruence.
    exists m, c. do 5 (split; auto). split; [|apply F; lia].
    apply regular_rmat in R as (E' & So & Sd & Lo & Ld). rewrite E'. apply r_rlvi; auto; lia.
  Qed.

  Lemma records_to_base tail : 2 < n -> exists t c,
    totri f "cum" "incr" "tabular" "origin" "dev" v = Ok (mkObj t c) /\
    forall h, Forall (fun o => is_update o = false) h -> exists r,
      snd (exec gm sqr t (OBaseCl (SelLabel "all-weighted") (Fin tail)) (after gm sqr t h (new_cache t c)))
        = Ok (BBase (SelLabel "all-weighted") (Ok r)) /\
      let fac := fun j => if S j <? n then vol_factor n (paid_to X) j else tail in
      let latest_ i := paid_to X i (n - 1 - i) in
      let cldf i := prodf (n - 1 - i) (S i) fac in
      c_ldfs r = map (fun j => (nth j ds 0%Z, Fin (fac j))) (seq 0 n) /\
      c_rows r = map (fun i => mkRow (nth i os 0%Z) (nth (n - 1 - i) ds 0%Z) (Fin (cldf i)) (vdiv (Fin 1%Qc) (Fin (cldf i)))
         (Fin (latest_ i)) (Fin (latest_ i * cldf i)%Qc) (Fin (latest_ i * cldf i - latest_ i)%Qc)) (seq 0 n) /\
      c_total r = (Fin (sumf 0 n latest_), Fin (sumf 0 n (fun i => latest_ i * cldf i)%Qc),
                   Fin (sumf 0 n (fun i => latest_ i * cldf i - latest_ i)%Qc)).
  Proof.
    intro Hn. destruct (table_object ltac:(lia)) as (m & c & E & R & A & B & D & F & G).
    exists (mkTri m "origin" "dev" v), c. split; auto. intros h Hh.
    rewrite <- B in Ev. 
    destruct (c23_all_weighted gm m n (paid_to X) v _ tail R Pos Hn Ev D) as (r & E1 & E2).
    exists r. split.
    { assert (O : offsets (mkTri m "origin" "dev" v) c (map (fun j => n - 1 - j) (seq 0 n))) by (rewrite G; reflexivity).
      rewrite (read_only_pure gm sqr _ c _ _ h _ O F Hh) by reflexivity.
      cbn [pure t_mat]. rewrite E1. reflexivity. }
    cbv zeta. split; [rewrite E2, B; reflexivity|].
    destruct (c23_regular gm m n (paid_to X) v _ _ _ _ _ r _ R ltac:(lia) D E1 E2) as (F1 & F2 & _).
    rewrite A, B in F1. split.
    - rewrite F1. apply map_seq_ext. intros i Hi. cbv zeta. replace (n - (n - 1 - i)) with (S i) by lia. reflexivity.
    - rewrite F2. f_equal; [f_equal|]; f_equal; apply sumf_ext; intros i Hi; replace (n - (n - 1 - i)) with (S i) by lia; reflexivity.
  Qed.

  (** Mack, alpha = 1, all link ratios. *)
  Lemma records_to_mack tail : 3 < n ->
    let C := paid_to X in
    let fac := fun j => if S j <? n then vol_factor n C j else 1%Qc in
    let s2 := sigma2 n C (fun _ _ => 1%Qc) 1 fac in
    (0 < s2 (n - 4)%nat)%Qc ->
    exists t c,
    totri f "cum" "incr" "tabular" "origin" "dev" v = Ok (mkObj t c) /\
    forall h, Forall (fun o => is_update o = false) h -> exists k,
      snd (exec gm sqr t (OMackCl 1 tail) (after gm sqr t h (new_cache t c))) = Ok (BMack k) /\
      let s := fun j => if j <? n - 2 then s2 j
        else qmin (s2 (n - 3)%nat * s2 (n - 3)%nat / s2 (n - 4)%nat) (qmin (s2 (n - 3)%nat) (s2 (n - 4)%nat)) in
      let latest_ i := C i (n - 1 - i) in
      let cldf i := prodf (n - 1 - i) (S i) fac in
      let u j := (s j / sumf 0 (n - 1 - j) (fun i => C i j))%Qc in
      let err i := (projected n C fac i (n - 1) * projected n C fac i (n - 1)
           * sumf (n - 1 - i) i (fun j => s j / (fac j * fac j) / projected n C fac i j)
         + latest_ i * latest_ i * (prodf (n - 1 - i) i (fun j => fac j * fac j + u j)
                                    - prodf (n - 1 - i) i (fun j => fac j * fac j)))%Qc in
      c_ldfs (k_cl k) = map (fun j => (nth j ds 0%Z, Fin (fac j))) (seq 0 n) /\
      c_rows (k_cl k) = map (fun i => mkRow (nth i os 0%Z) (nth (n - 1 - i) ds 0%Z) (Fin (cldf i)) (vdiv (Fin 1%Qc) (Fin (cldf i)))
         (Fin (latest_ i)) (Fin (latest_ i * cldf i)%Qc) (Fin (latest_ i * cldf i - latest_ i)%Qc)) (seq 0 n) /\
      k_devpvar k = map (fun j => (nth j ds 0%Z, Fin (s j))) (seq 0 (n - 1)) /\
      k_mse k = map (fun i => Fin (err i)) (seq 0 n) /\
      k_mse_total k = Fin (sumf 1 (n - 1) (fun i => err i
      + qz 2 * projected n C fac i (n - 1) * sumf (S i) (n - 1 - i) (fun l => projected n C fac l (n - 1))
        * sumf (n - 1 - i) i (fun j => s j / (fac j * fac j) / sumf 0 (n - 1 - j) (fun l => C l j))))%Qc.
  Proof.
    intros Hn C fac s2 S2. destruct (table_object ltac:(lia)) as (m & c & E & R & A & B & D & F & G). fold C in R.
    exists (mkTri m "origin" "dev" v), c. split; auto. intros h Hh.
    assert (Ev' := Ev). rewrite <- B in Ev'.
    destruct (c28 gm m n C v _ tail R Pos Hn Ev' D 1 "all-weighted"%string (or_introl eq_refl)) as (r & k & E1 & K & K1 & K2 & K3 & K4).
    exists k. split.
    { assert (O : offsets (mkTri m "origin" "dev" v) c (map (fun j => n - 1 - j) (seq 0 n))) by (rewrite G; reflexivity).
      rewrite (read_only_pure gm sqr _ c _ _ h _ O F Hh) by reflexivity.
      cbn [pure t_mat]. rewrite K. reflexivity. }
    intros s latest_ cldf u err.
    destruct (c23_all_weighted gm m n C v _ 1%Qc R Pos ltac:(lia) Ev' D) as (r' & E1' & E2).
    rewrite E1 in E1'. injection E1' as <-. 
    assert (L : c_ldfs (k_cl k) = map (fun j => (nth j (m_cols m) 0%Z, Fin (fac j))) (seq 0 n)) by (rewrite K1; exact E2).
    split; [rewrite L, B; reflexivity|].
    destruct (c23_regular gm m n C v _ _ _ _ _ r _ R ltac:(lia) D E1 E2) as (F1 & _ & _).
    split.
    { rewrite K2, F1, A, B. apply map_seq_ext. intros i Hi. cbv zeta. replace (n - (n - 1 - i)) with (S i) by lia. reflexivity. }
    assert (Hw := weights_init m n C R Pos ltac:(lia)).
    destruct (c32_devpvar m n C R Pos Hn Ev' _ D _ _ Hw 1 v tail k K fac L) as (x & X1 & X2 & X3 & _ & _ & X4).
    specialize (X3 S2). subst x.
    assert (V : k_devpvar k = map (fun j => (nth j (m_cols m) 0%Z, Fin (s j))) (seq 0 (n - 1))).
    { rewrite X1. apply map_seq_ext. intros j Hj. unfold s. destruct (j <? n - 2); reflexivity. }
    assert (U : k_ldfvar k = map (fun j => (nth j (m_cols m) 0%Z, Fin (u j))) (seq 0 (n - 1))).
    { rewrite X4, combine_seq, map_map. 2:{ destruct R as (_ & _ & _ & Lc & _). lia. }
      apply map_seq_ext. intros j Hj. cbn [fst snd]. rewrite V.
      rewrite (nth_indep _ _ ((fun j => (nth j (m_cols m) 0%Z, Fin (s j))) 0)) by (rewrite map_length, seq_length; lia).
      rewrite (map_nth (fun j => (nth j (m_cols m) 0%Z, Fin (s j)))), seq_nth by lia. cbn [snd plus].
      assert (Q : sumf 0 (n - 1 - j) (fun i => 1 * C i j ^ 1)%Qc = sumf 0 (n - 1 - j) (fun i => C i j)).
      { apply sumf_ext. intros i Hi. cbn. ring. }
      rewrite Q. assert (P : (0 < sumf 0 (n - 1 - j) (fun i => C i j))%Qc).
      { apply sumf_pos; [lia|]. intros i Hi. apply Pos. lia. }
      rewrite vdiv_fin by (intro Z0; rewrite Z0 in P; discriminate P). reflexivity. }
    split; [rewrite V, B; reflexivity|].
    assert (Me : k_mse k = map (fun i => Fin (err i)) (seq 0 n)).
    { destruct (c32_nonneg m n C R Pos Hn Ev' _ D _ _ Hw 1 v tail k K) as (p & q & P1 & P2 & P3 & _).
      rewrite P3. apply map_seq_ext. intros i Hi.
      assert (A1 := c30 m n C R Pos Hn Ev' _ D _ _ Hw 1 v tail k K fac s L V i ltac:(lia)).
      assert (A2 := c31 m n C R Pos Hn Ev' _ D _ _ Hw 1 v tail k K fac u L U i ltac:(lia)).
      rewrite P1, nth_map_seq in A1 by lia. rewrite P2, nth_map_seq in A2 by lia. cbn [plus] in A1, A2.
      injection A1 as ->. injection A2 as ->. reflexivity. }
    split; [exact Me|].
    exact (c33 m n C R Pos Hn Ev' _ D _ _ Hw 1 v tail k K fac s L V err Me).
  Qed.
End Table.
