(** From the user's table to a regular run-off triangle. *)

From Coq Require Import String Ascii QArith Qcanon ZArith List Bool Lia Permutation Sorting.Sorted.
From Verif Require Import Val Frame Triangle QcLib ListLib Spec SpecEnd BuildFacts CumFacts FillFacts TotriFacts TblFacts TriClaims RegFacts.
Import ListNotations.
Open Scope list_scope.
Open Scope nat_scope.

Lemma dev_sorted_nodup l : dev_sorted l -> NoDup l.
Proof.
  intro S. induction S as [|r l S IH F]; constructor; auto.
  intro H. rewrite Forall_forall in F. specialize (F _ H eq_refl). lia.
Qed.

Lemma NoDup_map_in_inj {A B} (g : A -> B) l : (forall x y, In x l -> In y l -> g x = g y -> x = y) -> NoDup l -> NoDup (map g l).
Proof.
  intros J N. induction N as [|a l H N IH]; cbn; constructor.
  - intro I0. apply in_map_iff in I0 as (b & E & Hb). apply J in E; [subst; auto|right; auto|left; auto].
  - apply IH. intros x y Hx Hy. apply J; right; auto.
Qed.

Section Table.
  Variables (l : list rec) (os ds : list Z) (n : nat) (X : nat -> nat -> Qc).
  Hypothesis T : runoff_table l os ds n X.
  Hypothesis Hn : 0 < n.
  Let o_ i := nth i os 0%Z.
  Let d_ j := nth j ds 0%Z.

  Lemma t_facts : zsorted os /\ zsorted ds /\ length os = n /\ length ds = n /\ dev_sorted l.
  Proof. destruct T as (A & B & C & D & E & _). auto. Qed.
  Lemma t_in r : In r l <-> exists i j, i + j < n /\ r = mkrec (o_ i) (d_ j) (Fin (X i j)).
  Proof. apply T. Qed.
  Lemma o_inj i i' : i < n -> i' < n -> o_ i = o_ i' -> i = i'.
  Proof.
    destruct t_facts as (So & _ & Lo & _). intros H H' E.
    apply (proj1 (NoDup_nth os 0%Z)) in E; auto using zsorted_nodup; lia.
  Qed.
  Lemma d_inj j j' : j < n -> j' < n -> d_ j = d_ j' -> j = j'.
  Proof.
    destruct t_facts as (_ & Sd & _ & Ld & _). intros H H' E.
    apply (proj1 (NoDup_nth ds 0%Z)) in E; auto using zsorted_nodup; lia.
  Qed.
  Lemma t_recorded i j : i < n -> j < n -> (recorded l (o_ i) (d_ j) <-> i + j < n).
  Proof.
    intros Hi Hj. unfold recorded. split.
    - intro H. apply in_map_iff in H as (r & E & Hr). apply t_in in Hr as (i' & j' & L & ->).
      injection E as E1 E2. apply o_inj in E1; [|lia|lia]. apply d_inj in E2; [|lia|lia]. subst. auto.
    - intro H. apply in_map_iff. exists (mkrec (o_ i) (d_ j) (Fin (X i j))). split; auto. apply t_in. eauto.
  Qed.
  Lemma t_nonempty : l <> [].
  Proof. intro E. assert (H : In (mkrec (o_ 0) (d_ 0) (Fin (X 0 0))) l) by (apply t_in; exists 0, 0; split; auto; lia). rewrite E in H. contradiction. Qed.
  Lemma t_finite : all_finite l.
  Proof. intros r H. apply t_in in H as (i & j & _ & ->). eexists. reflexivity. Qed.
  Lemma t_os : os_of l = os.
  Proof.
    destruct t_facts as (So & _ & Lo & _). apply zsorted_ext; auto using os_sorted.
    intro x. unfold os_of. rewrite zuniq_in. split.
    - intro H. apply in_map_iff in H as (r & <- & Hr). apply t_in in Hr as (i & j & L & ->). apply nth_In. lia.
    - intro H. apply label_pos in H as (i & Hi & ->). apply in_map_iff.
      exists (mkrec (o_ i) (d_ 0) (Fin (X i 0))). split; auto. apply t_in. exists i, 0. split; auto. lia.
  Qed.
  Lemma t_ds : ds_of l = ds.
  Proof.
    destruct t_facts as (_ & Sd & _ & Ld & _). apply zsorted_ext; auto using ds_sorted.
    intro x. unfold ds_of. rewrite zuniq_in. split.
    - intro H. apply in_map_iff in H as (r & <- & Hr). apply t_in in Hr as (i & j & L & ->). apply nth_In. lia.
    - intro H. apply label_pos in H as (j & Hj & ->). apply in_map_iff.
      exists (mkrec (o_ 0) (d_ j) (Fin (X 0 j))). split; auto. apply t_in. exists 0, j. split; auto. lia.
  Qed.

  Lemma nan_sum_map_fin (h : nat -> Qc) m : nan_sum (map (fun k => Fin (h k)) (seq 0 m)) = Fin (sumf 0 m h).
  Proof.
    induction m as [|m IH]; [reflexivity|]. rewrite seq_S, map_app, ConvFacts.nan_sum_app, IH, sumf_Sr.
    cbn. f_equal. ring.
  Qed.

  Lemma t_running i j : i + j < n -> running_total l (o_ i) (d_ j) = Fin (paid_to X i j).
  Proof.
    intro L. destruct t_facts as (So & Sd & Lo & Ld & DS). unfold running_total, paid_to. rewrite <- nan_sum_map_fin.
    apply nan_sum_perm.
    apply (Permutation_trans (l' := map r_v (map (fun k => mkrec (o_ i) (d_ k) (Fin (X i k))) (seq 0 (S j))))).
    - apply Permutation_map, NoDup_Permutation.
      + apply NoDup_filter, dev_sorted_nodup; auto.
      + apply NoDup_map_in_inj; [|apply seq_NoDup]. intros a b Ha Hb E. apply in_seq in Ha, Hb.
        apply (f_equal r_d) in E. apply d_inj in E; lia.
      + intro r. rewrite filter_In, in_map_iff, andb_true_iff, Z.eqb_eq, Z.leb_le, t_in. split.
        * intros ((i' & k & L' & ->) & E1 & E2). change (r_o _) with (o_ i') in E1. change (r_d _) with (d_ k) in E2.
          apply o_inj in E1; [|lia|lia]. subst i'. exists k. split; auto. apply in_seq.
          apply zsorted_nth_le in E2; auto; lia.
        * intros (k & <- & Hk). apply in_seq in Hk. split; [exists i, k; split; auto; lia|]. split; auto.
          change (r_d _) with (d_ k). apply zsorted_nth_le; auto; lia.
    - rewrite map_map. apply Permutation_refl.
  Qed.

  Hypothesis Pos0 : forall i, i < n -> (0 < X i 0)%Qc.

  Lemma t_cell i j : i < n -> j < n -> fcell l i j = rc n (paid_to X) i j.
  Proof.
    intros Hi Hj. destruct t_facts as (So & Sd & Lo & Ld & DS).
    assert (NI := all_finite_noinf _ t_finite).
    unfold fcell. rewrite t_os, t_ds. unfold rc. destruct (Nat.ltb_spec (i + j) n) as [L|L].
    - assert (Rc : recorded l (o_ i) (d_ j)) by (apply t_recorded; auto).
      rewrite fillc_keep by (apply ucell_nan; auto).
      assert (E := cum_cell_sorted l (o_ i) (d_ j) DS t_finite Rc). unfold ucell, o_, d_ in *. rewrite E.
      unfold cum_cell. fold (o_ i) (d_ j). rewrite t_running by auto.
      destruct (first_devb l (d_ j)) eqn:F; auto. cbn [andb].
      assert (D : In (d_ j) (map r_d l)).
      { rewrite <- zuniq_in. fold (ds_of l). rewrite t_ds. apply nth_In. lia. }
      apply (first_devb_spec l _ D) in F. destruct F as [_ F].
      assert (j = 0).
      { destruct j; auto. exfalso. assert (In (d_ 0) (map r_d l)).
        { rewrite <- zuniq_in. fold (ds_of l). rewrite t_ds. apply nth_In. lia. }
        specialize (F _ H). apply zsorted_nth_le in F; auto; lia. }
      subst j. cbn [vleb]. assert (P := Pos0 i Hi). unfold paid_to. rewrite sumf_Sl, sumf_0.
      destruct (qcleb (X i 0 + 0) 0) eqn:Q; auto. exfalso. apply qcleb_le in Q. 
      rewrite Qcplus_0_r in Q. apply (Qcle_not_lt _ _ Q P).
    - assert (Hj0 : 0 < j) by lia.
      assert (N : ~ recorded l (o_ i) (d_ j)) by (rewrite t_recorded by auto; lia).
      rewrite fillc_below; [apply ucell_unrecorded; auto|auto|].
      apply Nat.ltb_lt. destruct (lastpos_spec l j NI) as (A & B & _); [rewrite t_ds; lia|].
      apply ucell_nan in B; auto. rewrite t_os in A. rewrite t_os, t_ds in B.
      apply t_recorded in B; lia.
  Qed.

  Lemma t_lastpos j : j < n -> lastpos l j = n - 1 - j.
  Proof.
    intro Hj. destruct t_facts as (So & Sd & Lo & Ld & DS). assert (NI := all_finite_noinf _ t_finite).
    destruct (lastpos_spec l j NI) as (A & B & C); [rewrite t_ds; lia|].
    apply ucell_nan in B; auto. rewrite t_os in A. rewrite t_os, t_ds in B. apply t_recorded in B; [|lia|lia].
    destruct (Nat.lt_trichotomy (lastpos l j) (n - 1 - j)) as [L|[E|L]]; auto; [|lia].
    exfalso. specialize (C (n - 1 - j)). rewrite t_os, t_ds in C. 
    assert (Rc : recorded l (o_ (n - 1 - j)) (d_ j)) by (apply t_recorded; lia).
    apply ucell_nan in Rc; auto. apply Rc, C. lia.
  Qed.

  Lemma totri_regular f o d v : o <> d -> o <> v -> d <> v ->
    o <> "cumval"%string -> d <> "cumval"%string -> v <> "cumval"%string -> table_in f o d v l ->
    exists m c, totri f "cum" "incr" "tabular" o d v = Ok (mkObj (mkTri m o d v) c) /\
      regular m n (paid_to X) /\ m_idx m = os /\ m_cols m = ds /\
      clvi m = Ok (map (fun j => n - 1 - j) (seq 0 n)) /\
      (1 < n -> c = Some (map (fun j => n - 1 - j) (seq 0 n))).
  Proof.
    intros H1 H2 H3 H4 H5 H6 TI. destruct t_facts as (So & Sd & Lo & Ld & DS).
    destruct (totri_cum_mk o d v f l H1 H2 H3 H4 H5 H6 TI t_nonempty (all_finite_noinf _ t_finite)) as (c & E & Ec).
    rewrite t_os, t_ds, Lo, Ld in *.
    assert (Em : mkMat os ds (mk n n (fcell l)) = rmat os ds n (paid_to X)).
    { unfold rmat. f_equal. apply mk_ext. intros i j Hi Hj. apply t_cell; auto. }
    rewrite Em in E. exists (rmat os ds n (paid_to X)), c. split; [exact E|].
    split; [apply rmat_regular; auto|]. split; [reflexivity|]. split; [reflexivity|].
    split; [apply r_clvi; auto|]. intro H. rewrite (Ec H). f_equal. apply map_seq_ext. intros j Hj. apply t_lastpos. lia.
  Qed.
End Table.
