(** Which tables and options [totri] accepts (C16). *)

From Coq Require Import String Ascii QArith Qcanon ZArith List Bool Lia Permutation Sorting.Sorted.
From Verif Require Import Val Frame Triangle QcLib ListLib Spec SpecCum SpecCumTab SpecIncTab SpecArgs SpecTotri SpecAcceptTab BuildFacts CumFacts FillFacts
  TotriFacts TblFacts TriClaims ConvFacts TriClaims2 TriClaims3 TriClaims4 TriClaims5 CumExact CumTabClaims IncTabClaims TotriClaims.
Import ListNotations.
Open Scope list_scope.
Open Scope nat_scope.

Section Empty.
  Variables (o d v : string).
  Hypothesis Hod : o <> d.
  Hypothesis Hov : o <> v.
  Hypothesis Hdv : d <> v.

  Lemma base_ctor_empty h r f : hget h r = f -> table_in f o d v [] -> snd (base_ctor h r o d v) = Err ValueError.
  Proof.
    intros Hf T. destruct (table_names o d v f [] T) as (A & B & C). destruct T as (N & To & Td & Tv).
    unfold base_ctor. rewrite Hf. unfold validate. rewrite A, B, C. cbn [negb].
    rewrite (names_ok o d v) by auto.
    rewrite (fint_in _ _ _ N To), (fint_in _ _ _ N Td), (fval_in _ _ _ N Tv). reflexivity.
  Qed.

  Hypothesis Hoc : o <> "cumval"%string.
  Hypothesis Hdc : d <> "cumval"%string.
  Hypothesis Hvc : v <> "cumval"%string.

  Lemma cum_ctor_empty h r f : hget h r = f -> table_in f o d v [] ->
    snd (cum_ctor h r (Some o) (Some d) (Some v)) = Err ValueError.
  Proof.
    intros Hf T. unfold cum_ctor. rewrite Hf.
    assert (T' := T). destruct T' as (N & To & Td & Tv).
    rewrite (fint_in _ _ _ N To), (fval_in _ _ _ N Tv).
    cbn [map combine].
    destruct (cum_drop_ok o d v Hvc f [] (VC (cum_vals [])) T) as [f2 E]. change (group_cumsum []) with (cum_vals []). rewrite E.
    unfold halloc. cbn [dflt].
    set (h2 := hset h r _ ++ [f2]).
    assert (T3 := cum_frame o d v Hov Hdv Hoc Hdc Hvc f [] f2 T E).
    apply (base_ctor_empty _ _ (frename f2 "cumval" v)).
    - apply hget_last.
    - exact T3.
  Qed.
End Empty.

Lemma table_of_columns f o d v os ds vs : NoDup (map fst f) -> In (o, ZC os) f -> In (d, ZC ds) f -> In (v, VC vs) f ->
  length os = length vs -> length ds = length vs ->
  exists l, table_in f o d v l /\ map r_v l = vs /\ length l = length vs.
Proof.
  intros N Io Id Iv L1 L2. exists (combine (combine os ds) vs).
  assert (LC : length (combine os ds) = length vs) by (rewrite combine_length; lia).
  assert (A : map fst (combine (combine os ds) vs) = combine os ds) by (apply map_fst_combine; auto).
  assert (B : map r_v (combine (combine os ds) vs) = vs) by (apply (map_snd_combine (combine os ds) vs); auto).
  assert (C : map r_o (combine (combine os ds) vs) = os).
  { transitivity (map fst (map fst (combine (combine os ds) vs))); [rewrite map_map; reflexivity|]. rewrite A. apply map_fst_combine; lia. }
  assert (D : map r_d (combine (combine os ds) vs) = ds).
  { transitivity (map snd (map fst (combine (combine os ds) vs))); [rewrite map_map; reflexivity|]. rewrite A. apply map_snd_combine; lia. }
  split; [|split; [exact B|rewrite <- B at 2; symmetry; apply map_length]].
  unfold table_in. rewrite B, C, D. auto.
Qed.

Lemma opens_dec cs s : {opens cs s} + {~ opens cs s}.
Proof.
  destruct s as [|c r].
  - right. intros (c & r & E & _). discriminate.
  - destruct (in_dec ascii_dec c cs) as [H|H].
    + left. exists c, r. auto.
    + right. intros (c' & r' & E & H'). inversion E; subst. contradiction.
Qed.

Lemma in_names (f : frame) (n : string) : In n (map fst f) -> exists c, In (n, c) f.
Proof. intro H. apply in_map_iff in H as ([m c] & E & Hp). cbn in E. subst. eauto. Qed.

Section Accept.
  Variables (o d v : string).
  Hypothesis U : usable_names o d v.

  Lemma totri_empty f tt df : table_in f o d v [] -> ~ In "cum"%string (map fst f) -> forall ob, totri f tt df "tabular" o d v <> Ok ob.
  Proof.
    intros T Hc ob. destruct U as (Hod & Hov & Hdv & X).
    destruct (X o) as (o1 & o2 & o3); [cbn; auto|]. destruct (X d) as (d1 & d2 & d3); [cbn; auto|].
    destruct (X v) as (v1 & v2 & v3); [cbn; auto|].
    unfold totri. destruct (strip_starts "c" df) eqn:S.
    - assert (E : exists h r, totri_frame [f] (DFrame 0) df "tabular" o d v = (h, Ok r) /\ table_in (hget h r) o d v []).
      { destruct (totri_frame_cum o d v Hov Hdv o2 d2 o3 d3 f [] T (or_intror Hc)) as (h & r & E & T').
        exists h, r. split; [|exact T']. rewrite <- E. unfold totri_frame. cbn [String.eqb Ascii.eqb Bool.eqb]. rewrite S. reflexivity. }
      destruct E as (h & r & E & T'). unfold totri_h. rewrite E. unfold halloc.
      set (h2 := h ++ [hget h r]).
      assert (G : hget h2 (length h) = hget h r) by apply hget_last.
      destruct (starts "i" tt); [|destruct (starts "c" tt)].
      + unfold incr_ctor. cbn [dflt]. assert (B := base_ctor_empty o d v Hod Hov Hdv h2 (length h) _ G T').
        destruct (base_ctor h2 (length h) o d v) as [h3 [t|e]]; cbn in B |- *; discriminate.
      + assert (B := cum_ctor_empty o d v Hod Hov Hdv o1 d1 v1 h2 (length h) _ G T').
        destruct (cum_ctor h2 (length h) (Some o) (Some d) (Some v)) as [h3 [t|e]]; cbn in B |- *; [discriminate|discriminate].
      + cbn. discriminate.
    - rewrite totri_h_tabular by auto. unfold halloc. change (hget [f] 0) with f.
      set (h2 := [f] ++ [f]).
      assert (G : hget h2 (length [f]) = f) by reflexivity.
      destruct (starts "i" tt); [|destruct (starts "c" tt)].
      + unfold incr_ctor. cbn [dflt]. assert (B := base_ctor_empty o d v Hod Hov Hdv h2 (length [f]) _ G T).
        destruct (base_ctor h2 (length [f]) o d v) as [h3 [t|e]]; cbn in B |- *; discriminate.
      + assert (B := cum_ctor_empty o d v Hod Hov Hdv o1 d1 v1 h2 (length [f]) _ G T).
        destruct (cum_ctor h2 (length [f]) (Some o) (Some d) (Some v)) as [h3 [t|e]]; cbn in B |- *; [discriminate|discriminate].
      + cbn. discriminate.
  Qed.

  Lemma totri_accepts f l tt df : table_in f o d v l -> ~ In "cum"%string (map fst f) -> l <> [] -> no_inf l ->
    opens ["i"; "I"]%char tt \/ opens ["c"; "C"]%char tt ->
    exists ob, totri f tt df "tabular" o d v = Ok ob.
  Proof.
    intros T Hc Hl NI Ht. destruct U as (Hod & Hov & Hdv & X).
    destruct (X o) as (o1 & o2 & o3); [cbn; auto|]. destruct (X d) as (d1 & d2 & d3); [cbn; auto|].
    destruct (X v) as (v1 & v2 & v3); [cbn; auto|].
    assert (D : forall ty, totri f ty df "tabular" o d v = totri f ty "cum" "tabular" o d v \/
                           totri f ty df "tabular" o d v = totri f ty "incr" "tabular" o d v).
    { intro ty. unfold totri, totri_h, totri_frame. cbn [String.eqb Ascii.eqb Bool.eqb].
      destruct (strip_starts "c" df); [left|right]; reflexivity. }
    assert (C4 : forall ty, ty = "incr"%string \/ ty = "cum"%string -> exists ob, totri f ty df "tabular" o d v = Ok ob).
    { intros ty Hty. destruct (D ty) as [->| ->]; destruct Hty as [->| ->].
      - eexists. apply (totri_incr_cum o d v) with (l := l); auto.
      - destruct (c09_exactly o d v Hod Hov Hdv o1 d1 v1 o2 d2 o3 d3 f l T (or_intror Hc) Hl NI) as (ob & E & _). eauto.
      - eexists. apply (totri_incr_table o d v) with (l := l); auto.
      - destruct (totri_cum_mk o d v f l) as (c & E & _); auto. eauto. }
    destruct (c69_type [f] (DFrame 0) df "tabular" o d v tt) as (A & B & _).
    destruct Ht as [Ht|Ht].
    - unfold totri. rewrite (A Ht). apply (C4 "incr"%string). auto.
    - unfold totri. rewrite (B Ht). apply (C4 "cum"%string). auto.
  Qed.

  Theorem c16_accepted : forall (f : frame) (n : nat) (tri_type data_format : string),
    numeric_columns f o d v n -> ~ In "cum"%string (map fst f) ->
    ((exists ob, totri f tri_type data_format "tabular" o d v = Ok ob) <->
     (opens ["i"; "I"]%char tri_type \/ opens ["c"; "C"]%char tri_type) /\
     In o (map fst f) /\ In d (map fst f) /\ In v (map fst f) /\ 0 < n).
  Proof.
    intros f n tt df (N & Co & Cd & Cv) Hc.
    assert (U' := U). destruct U' as (Hod & Hov & Hdv & X).
    destruct (X o) as (o1 & o2 & o3); [cbn; auto|]. destruct (X d) as (d1 & d2 & d3); [cbn; auto|].
    assert (L : In o (map fst f) -> In d (map fst f) -> In v (map fst f) -> exists l, table_in f o d v l /\ length l = n /\ no_inf l).
    { intros Io Id Iv. apply in_names in Io as [co Io]. apply in_names in Id as [cd Id]. apply in_names in Iv as [cv Iv].
      destruct (Co _ Io) as (os & -> & Lo). destruct (Cd _ Id) as (ds & -> & Ld). destruct (Cv _ Iv) as (vs & -> & Lv & NI).
      destruct (table_of_columns f o d v os ds vs) as (l & T & E & Ll); auto; try congruence.
      exists l. split; auto. split; [congruence|]. intros r Hr. apply NI. rewrite <- E. apply in_map. auto. }
    split.
    - intros [ob E].
      assert (Ht : opens ["i"; "I"]%char tt \/ opens ["c"; "C"]%char tt).
      { destruct (opens_dec ["i"; "I"]%char tt); auto. destruct (opens_dec ["c"; "C"]%char tt); auto. exfalso.
        destruct (c69_type [f] (DFrame 0) df "tabular" o d v tt) as (_ & _ & Q). exact (Q n0 n1 ob E). }
      split; [exact Ht|].
      assert (M : ~ (~ In o (map fst f) \/ ~ In d (map fst f) \/ ~ In v (map fst f))).
      { intro M. destruct (c16_missing f o d v tt df) as (e & E' & _); auto.
        - split; auto. intros c Hin. destruct (Co c Hin) as (xs & -> & _). eauto.
        - destruct Ht as [Ht|Ht]; [left; apply (starts_opens "i" _ tt lower_i); exact Ht|right; apply (starts_opens "c" _ tt lower_c); exact Ht].
        - right. auto.
        - congruence. }
      destruct (in_dec String.string_dec o (map fst f)) as [Io|]; [|tauto].
      destruct (in_dec String.string_dec d (map fst f)) as [Id|]; [|tauto].
      destruct (in_dec String.string_dec v (map fst f)) as [Iv|]; [|tauto].
      repeat split; auto. destruct n; [|lia]. exfalso.
      destruct (L Io Id Iv) as (l & T & Ll & _). apply length_zero_iff_nil in Ll. subst l.
      exact (totri_empty f tt df T Hc ob E).
    - intros (Ht & Io & Id & Iv & Hn). destruct (L Io Id Iv) as (l & T & Ll & NI).
      apply (totri_accepts f l tt df); auto. intros ->. cbn in Ll. lia.
  Qed.
End Accept.
