(** Proofs of the Mack properties. *)

From Coq Require Import String QArith Qcanon ZArith List Bool Lia Permutation Sorting.Sorted.
From Verif Require Import Val Frame Triangle A2A Base Mack ListLib QcLib Spec TblFacts ConvFacts TriClaims4 RegFacts AvgFacts
  AvgClaims2 BaseClaims MackFacts.
Import ListNotations.
Open Scope list_scope.
Open Scope nat_scope.

(** ** The recursions, by position *)

Lemma at1_map (g : nat -> val) N k : k < N -> at1 (map g (seq 0 N)) k = g k.
Proof. intro H. unfold at1. rewrite nth_map_seq by auto. auto. Qed.

Section Rec.
  Variables (n : nat) (f s c : nat -> Qc) (a : nat).
  Hypothesis Hf : forall k, a <= k -> f k <> 0%Qc.
  Hypothesis Hc : forall k, a <= k -> c k <> 0%Qc.
  Hypothesis Hs : forall k, a <= k -> S k < n -> c (S k) = (c k * f k)%Qc.
  Let fl := map (fun j => Fin (f j)) (seq 0 n).
  Let sl := map (fun j => Fin (s j)) (seq 0 (n - 1)).
  Let cl := map (fun j => Fin (c j)) (seq 0 n).
  Definition pterm (k : nat) : Qc := (s k / (f k * f k) / c k)%Qc.

  Lemma pe_step k : a <= k -> S k < n -> a <= k ->
    (f k * f k * (c k * c k * sumf a (k - a) pterm) + c k * s k = c (S k) * c (S k) * sumf a (S k - a) pterm)%Qc.
  Proof.
    intros L L2 _. replace (S k - a) with (S (k - a)) by lia. rewrite sumf_Sr. replace (a + (k - a)) with k by lia.
    rewrite Hs by auto. unfold pterm at 3. assert (F := Hf k L). assert (G := Hc k L).
    generalize (sumf a (k - a) pterm). intro t. field. auto.
  Qed.
  Lemma pe_from_eq cnt : forall k, a <= k -> k + cnt < n ->
    pe_from fl sl cl k cnt (Fin (c k * c k * sumf a (k - a) pterm))
    = Fin (c (k + cnt)%nat * c (k + cnt)%nat * sumf a (k + cnt - a)%nat pterm)%Qc.
  Proof.
    induction cnt as [|cnt IH]; intros k L L2.
    - cbn [pe_from]. rewrite Nat.add_0_r. auto.
    - cbn [pe_from]. unfold fl, sl, cl. rewrite !at1_map by lia. rewrite vpow_fin, qpow2. cbn [vmul vadd].
      rewrite pe_step by lia. fold fl sl cl. rewrite IH by lia. replace (S k + cnt) with (k + S cnt) by lia. auto.
  Qed.

  Variable v : nat -> Qc.
  Let vl := map (fun j => Fin (v j)) (seq 0 (n - 1)).
  Definition ff k := (f k * f k)%Qc.
  Definition fv k := (f k * f k + v k)%Qc.
  Hypothesis Hca : forall k, a <= k -> k < n -> c k = (c a * prodf a (k - a) f)%Qc.
  Lemma prodf_ff b k : prodf b k ff = (prodf b k f * prodf b k f)%Qc.
  Proof.
    revert b. induction k; intro b; [rewrite !prodf_0; ring|]. rewrite !prodf_Sl, IHk. unfold ff. ring.
  Qed.
  Lemma qe_from_eq cnt : forall k, a <= k -> k + cnt < n ->
    qe_from fl vl cl k cnt (Fin (c a * c a * (prodf a (k - a) fv - prodf a (k - a) ff)))
    = Fin (c a * c a * (prodf a (k + cnt - a)%nat fv - prodf a (k + cnt - a)%nat ff))%Qc.
  Proof.
    induction cnt as [|cnt IH]; intros k L L2.
    - cbn [qe_from]. rewrite Nat.add_0_r. auto.
    - cbn [qe_from]. unfold fl, vl, cl. rewrite !at1_map by lia. rewrite !vpow_fin, !qpow2. cbn [vmul vadd].
      replace (f k * f k * (c a * c a * (prodf a (k - a) fv - prodf a (k - a) ff)) + c k * c k * v k
               + v k * (c a * c a * (prodf a (k - a) fv - prodf a (k - a) ff)))%Qc
        with (c a * c a * (prodf a (S k - a)%nat fv - prodf a (S k - a)%nat ff))%Qc.
      + fold fl vl cl. rewrite IH by lia. replace (S k + cnt) with (k + S cnt) by lia. auto.
      + replace (S k - a) with (S (k - a)) by lia. rewrite !prodf_Sr. replace (a + (k - a)) with k by lia.
        rewrite (Hca k) by lia. rewrite (prodf_ff a (k - a)). unfold ff, fv. ring.
  Qed.
End Rec.

(** NaN variances: everything downstream of position [n - 2] is NaN. *)
Lemma pe_from_nan fl dv row cnt : forall k x, x = NaN -> pe_from fl dv row k cnt x = NaN.
Proof. induction cnt; intros k x ->; auto. cbn [pe_from]. apply IHcnt. rewrite vmul_nan_r. auto. Qed.
Lemma pe_from_last fl dv row : forall cnt k x, at1 dv (k + cnt) = NaN -> pe_from fl dv row k (S cnt) x = NaN.
Proof.
  induction cnt as [|cnt IH]; intros k x H.
  - cbn [pe_from]. rewrite Nat.add_0_r in H. rewrite H, vmul_nan_r, vadd_nan_r. auto.
  - change (pe_from fl dv row k (S (S cnt)) x) with (pe_from fl dv row (S k) (S cnt) (vadd (vmul (vpow (at1 fl k) 2) x) (vmul (at1 row k) (at1 dv k)))).
    apply IH. rewrite <- H. f_equal. lia.
Qed.
Lemma qe_from_last fl dv row : forall cnt k x, at1 dv (k + cnt) = NaN -> qe_from fl dv row k (S cnt) x = NaN.
Proof.
  induction cnt as [|cnt IH]; intros k x H.
  - cbn [qe_from]. rewrite Nat.add_0_r in H. rewrite H, !vmul_nan_r, vadd_nan_r. auto.
  - change (qe_from fl dv row k (S (S cnt)) x) with (qe_from fl dv row (S k) (S cnt)
       (vadd (vadd (vmul (vpow (at1 fl k) 2) x) (vmul (vpow (at1 row k) 2) (at1 dv k))) (vmul (at1 dv k) x))).
    apply IH. rewrite <- H. f_equal. lia.
Qed.

Lemma nan0_fin q : nan0 (Fin q) = Fin q. Proof. auto. Qed.

Lemma uniq_prefix ds k : zsorted ds -> uniq Z.compare (firstn k ds ++ ds) = ds.
Proof.
  intro Sd. change (zuniq (firstn k ds ++ ds) = ds). apply zsorted_ext; auto using zuniq_sorted.
  intro x. rewrite zuniq_in, in_app_iff. split; auto.
  intros [H|H]; auto. rewrite <- (firstn_skipn k ds). apply in_or_app. auto.
Qed.

Lemma NoDup_app_l {A} (a b : list A) : NoDup (a ++ b) -> NoDup a.
Proof.
  induction a; simpl; intro H; constructor; inversion H; subst; auto. intro. apply H2. apply in_or_app. auto.
Qed.
Lemma look_pos ds (h : nat -> val) N j : NoDup ds -> N <= length ds -> j < N ->
  slookup (map (fun k => (nth k ds 0%Z, h k)) (seq 0 N)) (nth j ds 0%Z) = h j.
Proof.
  intros Nd L Hj. apply (slookup_map (fun k => nth k ds 0%Z)); [|apply in_seq; lia].
  rewrite firstn_map_nth by auto. rewrite <- (firstn_skipn N ds) in Nd. apply NoDup_app_l in Nd. auto.
Qed.

Section Main.
  Variables (m : lmat) (n : nat) (C : nat -> nat -> Qc).
  Hypothesis R : regular m n C.
  Hypothesis Hn : 3 < n.
  Hypothesis Pos : positive n C.
  Hypothesis Ev : tail_fits (m_cols m).
  Variable ind : list (list val).
  Variable W : nat -> nat -> Qc.
  Hypothesis Hind : forall i j, i < n - 1 -> j < n - 1 ->
    cell ind i j = Fin (if (i + j <? n - 1)%nat then W i j else 0)%Qc.
  Hypothesis Wnn : forall i j, i + j < n - 1 -> (0 <= W i j)%Qc.
  Hypothesis Wcol : forall j, j < n - 1 -> exists i, i + j < n - 1 /\ (0 < W i j)%Qc.
  Variable al : nat.
  Variable v : string.
  Variable cl : list nat.
  Hypothesis Hcl : clvi m = Ok cl.

  Let ds := m_cols m.
  Let os := m_idx m.
  Let t := mkTri m "origin" "dev" v.
  Let f := mf n C W al.
  Let dv := dvv n C W al f.
  Let lv j := vdiv (dv j) (Fin (D n C W al j)).
  Let sqr i := map (fun j => Fin (sq n C f i j)) (seq 0 n).
  Let fl := map (fun j => Fin (f j)) (seq 0 n).

  Lemma m_rmat : m = rmat os ds n C /\ zsorted os /\ zsorted ds /\ length os = n /\ length ds = n.
  Proof. apply regular_rmat; auto. Qed.
  Lemma cl_eq : cl = map (fun j => n - 1 - j) (seq 0 n).
  Proof.
    destruct m_rmat as (E & So & Sd & Lo & Ld). assert (Q := r_clvi os ds n C Lo Ld ltac:(lia)).
    rewrite <- E in Q. congruence.
  Qed.

  Definition procv (dvl : list val) (i : nat) : val := nan0 (process_error_row n fl dvl (sqr i) i).
  Definition parv (lvl : list val) (i : nat) : val := nan0 (parameter_error_row n fl lvl (sqr i) i).
  Let dvl := map dv (seq 0 (n - 1)).
  Let lvl := map lv (seq 0 (n - 1)).
  Definition msev (i : nat) : val := vadd (procv dvl i) (parv lvl i).
  Definition quotv (j : nat) : val := vdiv (if j <? n - 1 then dv j else NaN) (Fin (f j * f j)%Qc).
  Definition ultv (i : nat) : Qc := (C i (n - 1 - i)%nat * cdf n f (n - 1 - i))%Qc.
  Definition totv (i : nat) : val :=
    mse_total_row n (map quotv (seq 0 n)) (mk n n (fun i j => Fin (sq n C f i j)))
      (map msev (seq 0 n)) (map (fun i => Fin (ultv i)) (seq 0 n)) i.

  Lemma quot_eq : map snd (salign (fun a b => vdiv a (vpow b 2)) (map (fun j => (nth j ds 0%Z, dv j)) (seq 0 (n - 1))) (fser ds n f))
    = map quotv (seq 0 n).
  Proof.
    destruct m_rmat as (E & So & Sd & Lo & Ld).
    unfold salign. rewrite map_map. cbn [snd].
    assert (Ez : zunion (map fst (map (fun j => (nth j ds 0%Z, dv j)) (seq 0 (n - 1)))) (map fst (fser ds n f)) = ds).
    { rewrite fser_fst by auto. rewrite map_map. cbn [fst]. rewrite firstn_map_nth by lia. unfold zunion.
      destruct (listb Z.eqb (firstn (n - 1) ds) ds) eqn:Q.
      - apply listb_eq in Q; [|intros; apply Z.eqb_eq; auto]. auto.
      - apply uniq_prefix; auto. }
    rewrite Ez. rewrite (map_by_pos _ ds), Ld. apply map_seq_ext. intros j Hj. unfold quotv.
    unfold fser. rewrite (look_pos ds (fun j => Fin (f j))) by (auto using zsorted_nodup; lia). rewrite vpow_fin, qpow2. f_equal.
    destruct (Nat.ltb_spec j (n - 1)) as [L|L].
    - apply (look_pos ds dv); auto using zsorted_nodup; lia.
    - unfold slookup. destruct (find _ _) as [p|] eqn:Q; auto. apply find_some in Q as [Q1 Q2].
      apply in_map_iff in Q1 as (k & <- & Hk). apply in_seq in Hk. cbn [fst] in Q2. apply Z.eqb_eq in Q2.
      apply (proj1 (NoDup_nth ds 0%Z)) in Q2; [lia|apply zsorted_nodup; auto|lia|lia].
  Qed.

  Lemma mack_eq tail : exists r, chain_ladder t cl (fser ds n f) tail = Ok r /\
    mack_ldfs t ind al (Fin 1%Qc) = Ok (fser ds n f) /\
    r = mkRes (map (rrow os ds n C f) (seq 0 n))
        (Fin (sumf 0 n (fun i => C i (n - 1 - i)%nat)),
         Fin (sumf 0 n (fun i => C i (n - 1 - i)%nat * cdf n f (n - 1 - i))%Qc),
         Fin (sumf 0 n (fun i => C i (n - 1 - i)%nat * cdf n f (n - 1 - i) - C i (n - 1 - i)%nat)%Qc))
        (fser ds n f)
        (mk n n (fun i j => Fin (sq n C f i j)),
         map (fun i => Fin (C i (n - 1 - i)%nat * cdf n f (n - 1 - i))%Qc) (seq 0 n))
        tail /\
    mack_cl t cl ind al tail = Ok (mkMack r
      (map (fun j => (nth j ds 0%Z, dv j)) (seq 0 (n - 1)))
      (map (fun j => (nth j ds 0%Z, lv j)) (seq 0 (n - 1)))
      (map (procv dvl) (seq 0 n)) (map (parv lvl) (seq 0 n)) (map msev (seq 0 n))
      (skipsum (map totv (seq 1 (n - 1))))).
  Proof.
    assert (Q1 := quot_eq). assert (Q2 := cl_eq). destruct m_rmat as (E & So & Sd & Lo & Ld).
    assert (M1 : mack_ldfs t ind al (Fin 1%Qc) = Ok (fser ds n f)).
    { unfold t, f. rewrite E. apply r_mack_ldfs; auto. lia. }
    assert (M2 := r_chain_ladder os ds n C So Sd Lo Ld ltac:(lia) f v tail).
    assert (M3 : devp_variance t ind (fser ds n f) al = Ok (map (fun j => (nth j ds 0%Z, dv j)) (seq 0 (n - 1)))).
    { unfold t, dv. rewrite E. apply r_devp_variance; auto. lia. }
    assert (M4 : ldf_variance t ind (map (fun j => (nth j ds 0%Z, dv j)) (seq 0 (n - 1))) al
        = Ok (map (fun j => (nth j ds 0%Z, lv j)) (seq 0 (n - 1)))).
    { unfold t, lv. rewrite E. apply r_ldf_variance; auto. lia. }
    rewrite <- E, <- Q2 in M2. fold t in M2.
    eexists. split; [exact M2|]. split; [exact M1|]. split; [reflexivity|].
    unfold mack_cl. rewrite M1. cbn [bind]. rewrite M2. cbn [bind]. rewrite M3. cbn [bind]. rewrite M4. cbn [bind].
    change (t_mat t) with m. change (ncols m) with (length ds). change (nrows m) with (length os). rewrite Lo, Ld.
    rewrite Nat.eqb_refl. cbn [negb c_trisqrd fst c_rows]. f_equal. rewrite fser_snd.
    rewrite Q1.
    assert (X1 : map snd (map (fun j => (nth j ds 0%Z, dv j)) (seq 0 (n - 1))) = dvl) by (rewrite map_map; auto).
    assert (X2 : map snd (map (fun j => (nth j ds 0%Z, lv j)) (seq 0 (n - 1))) = lvl) by (rewrite map_map; auto).
    rewrite X1, X2.
    assert (P1 : map (fun i => nan0 (process_error_row n (map (fun j => Fin (f j)) (seq 0 n)) dvl
                  (nth i (mk n n (fun i0 j => Fin (sq n C f i0 j))) []) i)) (seq 0 n) = map (procv dvl) (seq 0 n)).
    { apply map_seq_ext. intros i Hi. unfold procv. do 2 f_equal. unfold mk. rewrite nth_map_seq by lia. auto. }
    assert (P2 : map (fun i => nan0 (parameter_error_row n (map (fun j => Fin (f j)) (seq 0 n)) lvl
                  (nth i (mk n n (fun i0 j => Fin (sq n C f i0 j))) []) i)) (seq 0 n) = map (parv lvl) (seq 0 n)).
    { apply map_seq_ext. intros i Hi. unfold parv. do 2 f_equal. unfold mk. rewrite nth_map_seq by lia. auto. }
    rewrite P1, P2, combine_map_lr, !map_map. cbn [fst snd].
    assert (P3 : map (fun x => s_ultimate (rrow os ds n C f x)) (seq 0 n) = map (fun i => Fin (ultv i)) (seq 0 n)).
    { apply map_seq_ext. intros i Hi. reflexivity. }
    rewrite P3. reflexivity.
  Qed.
End Main.
