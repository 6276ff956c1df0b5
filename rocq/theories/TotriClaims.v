(** Proofs of C69. *)

From Coq Require Import String Ascii QArith Qcanon ZArith List Bool Lia Permutation Sorting.Sorted.
From Verif Require Import Val Frame Triangle QcLib ListLib Spec BuildFacts CumFacts FillFacts
  TotriFacts TblFacts TriClaims ConvFacts TriClaims2 TriClaims4 TriClaims5 SpecArgs ArgsClaims SpecTotri.
Import ListNotations.
Open Scope string_scope.
Open Scope list_scope.
Open Scope nat_scope.

Definition ch_i : list ascii := ["i"%char; "I"%char].
Definition ch_c : list ascii := ["c"%char; "C"%char].

Lemma lower_i a : Ascii.eqb (lower1 a) "i"%char = true <-> In a ch_i.
Proof.
  split.
  - destruct a as [[] [] [] [] [] [] [] []]; vm_compute; intro H; try discriminate H; auto.
  - intros [<-|[<-| []]]; reflexivity.
Qed.
Lemma lower_c a : Ascii.eqb (lower1 a) "c"%char = true <-> In a ch_c.
Proof.
  split.
  - destruct a as [[] [] [] [] [] [] [] []]; vm_compute; intro H; try discriminate H; auto.
  - intros [<-|[<-| []]]; reflexivity.
Qed.

Definition reads (c : ascii) (l : list ascii) : Prop := forall a, Ascii.eqb (lower1 a) c = true <-> In a l.

Lemma starts_opens c l s : reads c l -> (starts c s = true <-> opens l s).
Proof.
  intro R. unfold opens, starts. destruct s as [|a r].
  - split; [discriminate|]. intros (x & y & E & _). discriminate.
  - rewrite (R a). split; [intro H; exists a, r; auto|]. intros (x & y & E & H). injection E as -> ->. auto.
Qed.
Lemma lstrip_split s : exists a, s = append a (lstrip s) /\ forall c, In c (list_ascii_of_string a) -> is_space c = true.
Proof.
  induction s as [|x s (a & E & H)]; [exists ""; split; [auto|intros c []]|]. cbn [lstrip]. destruct (is_space x) eqn:Q.
  - exists (String x a). split; [cbn [append]; congruence|]. intros c [<-|Hc]; auto.
  - exists "". split; [auto|intros c []].
Qed.
Lemma lstrip_blanks a s : (forall c, In c (list_ascii_of_string a) -> is_space c = true) -> lstrip (append a s) = lstrip s.
Proof.
  induction a as [|x a IH]; intro H; auto. cbn [append lstrip]. rewrite (H x) by (left; auto). apply IH.
  intros c Hc. apply H. right. auto.
Qed.
Lemma reads_nonblank c l a : reads c l -> (c = "i"%char \/ c = "c"%char) -> In a l -> is_space a = false.
Proof.
  intros R Hc Ha. apply R in Ha. apply Ascii.eqb_eq in Ha.
  destruct a as [[] [] [] [] [] [] [] []]; destruct Hc; subst c; vm_compute in Ha |- *; congruence.
Qed.
Lemma strip_opens c l s : reads c l -> (c = "i"%char \/ c = "c"%char) ->
  (strip_starts c s = true <-> opens_trimmed l s).
Proof.
  intros R Hc. unfold strip_starts, opens_trimmed. rewrite (starts_opens c l) by auto. split.
  - intro H. destruct (lstrip_split s) as (a & E & B). exists a, (lstrip s). split; [auto|]. split; [|auto].
    intros x Hx. apply is_space_blank; auto.
  - intros (a & r & -> & B & O). rewrite lstrip_blanks by (intros; apply is_space_blank; auto).
    destruct O as (x & y & -> & Hx). exists x, y. split; auto. cbn [lstrip].
    rewrite (reads_nonblank c l) by auto. auto.
Qed.
Lemma not_iff (b : bool) P : (b = true <-> P) -> (b = false <-> ~ P).
Proof. destruct b; intuition congruence. Qed.

Lemma c69_type h data fmt shape o d v ty :
  (opens ["i"; "I"]%char ty ->
     totri_h h data ty fmt shape o d v = totri_h h data "incr" fmt shape o d v) /\
  (opens ["c"; "C"]%char ty ->
     totri_h h data ty fmt shape o d v = totri_h h data "cum" fmt shape o d v) /\
  (~ opens ["i"; "I"]%char ty -> ~ opens ["c"; "C"]%char ty ->
     forall ob, snd (totri_h h data ty fmt shape o d v) <> Ok ob).
Proof.
  fold ch_i ch_c. assert (Ri := fun s => starts_opens "i"%char ch_i s lower_i). assert (Rc := fun s => starts_opens "c"%char ch_c s lower_c).
  split; [|split].
  - intro H. apply Ri in H. unfold totri_h. rewrite H. reflexivity.
  - intro H. assert (N : starts "i"%char ty = false).
    { apply (not_iff _ _ (Ri ty)). intros (a & r & E & Ha). destruct H as (a' & r' & E' & Ha'). rewrite E in E'.
      injection E' as -> ->. destruct Ha as [<-|[<-| []]], Ha' as [Q|[Q| []]]; discriminate. }
    apply Rc in H. unfold totri_h. rewrite H, N. reflexivity.
  - intros Ni Nc ob. apply (not_iff _ _ (Ri ty)) in Ni. apply (not_iff _ _ (Rc ty)) in Nc.
    unfold totri_h. destruct (totri_frame h data fmt shape o d v) as [h1 [r|e]]; [|discriminate].
    destruct (halloc h1 (hget h1 r)). rewrite Ni, Nc. discriminate.
Qed.

Lemma totri_h_frame h data ty fmt fmt' shape o d v :
  totri_frame h data fmt shape o d v = totri_frame h data fmt' shape o d v ->
  totri_h h data ty fmt shape o d v = totri_h h data ty fmt' shape o d v.
Proof. intro E. unfold totri_h. rewrite E. reflexivity. Qed.

Lemma c69_shape h data ty o d v fmt shape : shape <> "tabular" -> shape <> "triangle" ->
  totri_h h data ty fmt shape o d v = (h, Err NameError).
Proof.
  intros A B. unfold totri_h, totri_frame. destruct (String.eqb_spec shape "triangle"); [congruence|].
  destruct (String.eqb_spec shape "tabular"); [congruence|]. reflexivity.
Qed.

Lemma c69_format_table h r ty o d v fmt :
  (opens_trimmed ["c"; "C"]%char fmt ->
     totri_h h (DFrame r) ty fmt "tabular" o d v = totri_h h (DFrame r) ty "cum" "tabular" o d v) /\
  (~ opens_trimmed ["c"; "C"]%char fmt ->
     totri_h h (DFrame r) ty fmt "tabular" o d v = totri_h h (DFrame r) ty "incr" "tabular" o d v).
Proof.
  fold ch_c. assert (Rc := fun s => strip_opens "c"%char ch_c s lower_c (or_intror eq_refl)). split; intro H; apply totri_h_frame.
  - apply Rc in H. unfold totri_frame. rewrite H. reflexivity.
  - apply (not_iff _ _ (Rc fmt)) in H. unfold totri_frame. rewrite H. reflexivity.
Qed.

Lemma c69_format_triangle h m nm ty o d v fmt :
  (opens_trimmed ["i"; "I"]%char fmt ->
     totri_h h (DTri m nm) ty fmt "triangle" o d v = totri_h h (DTri m nm) ty "incr" "triangle" o d v) /\
  (opens_trimmed ["c"; "C"]%char fmt ->
     totri_h h (DTri m nm) ty fmt "triangle" o d v = totri_h h (DTri m nm) ty "cum" "triangle" o d v) /\
  (~ opens_trimmed ["i"; "I"]%char fmt -> ~ opens_trimmed ["c"; "C"]%char fmt ->
     totri_h h (DTri m nm) ty fmt "triangle" o d v = (h, Err NameError)).
Proof.
  fold ch_i ch_c. assert (Ri := fun s => strip_opens "i"%char ch_i s lower_i (or_introl eq_refl)).
  assert (Rc := fun s => strip_opens "c"%char ch_c s lower_c (or_intror eq_refl)).
  split; [|split].
  - intro H. apply totri_h_frame. apply Ri in H. unfold totri_frame. rewrite H. reflexivity.
  - intro H. apply totri_h_frame. apply Rc in H. unfold totri_frame. rewrite H.
    assert (N : strip_starts "i"%char fmt = false).
    { unfold strip_starts, starts in *. destruct (lstrip fmt) as [|a s]; auto.
      apply Ascii.eqb_eq in H. rewrite H. reflexivity. }
    rewrite N. reflexivity.
  - intros Ni Nc. apply (not_iff _ _ (Ri fmt)) in Ni. apply (not_iff _ _ (Rc fmt)) in Nc.
    unfold totri_h, totri_frame. rewrite Ni, Nc. reflexivity.
Qed.

Lemma c69_named h m s ty o d v fmt : s <> "origin" ->
  opens_trimmed ["i"; "I"]%char fmt \/ opens_trimmed ["c"; "C"]%char fmt ->
  totri_h h (DTri m (Some s)) ty fmt "triangle" o d v = (h, Err KeyError).
Proof.
  intros Hs Hf. destruct (c69_format_triangle h m (Some s) ty o d v fmt) as (A & B & _).
  assert (E : String.eqb s "origin" = false) by (apply String.eqb_neq; auto).
  destruct Hf as [Hf|Hf]; [rewrite (A Hf)|rewrite (B Hf)]; unfold totri_h, totri_frame;
    cbn [String.eqb Ascii.eqb Bool.eqb strip_starts lstrip starts]; rewrite E; reflexivity.
Qed.

(** ** Conversion while reading *)
Lemma c69_to_incr m nm os ds f : increasing os -> increasing ds -> os <> [] -> holds m os ds f ->
  gap_free os ds f -> finite_cells os ds f -> covered os ds f -> positive_first os ds f ->
  (nm = None \/ nm = Some "origin") ->
  exists t, totri_tri m nm "incr" "cum" "triangle" "origin" "dev" "value" = Ok (mkObj t None) /\
    to_incr (mkTri m "origin" "dev" "value") = Ok t.
Proof.
  intros So Sd No H G F C P Hn.
  eexists. split.
  - unfold totri_tri, totri_h, totri_frame.
    cbn [String.eqb Ascii.eqb Bool.eqb].
    change (strip_starts "i"%char "cum") with false. change (strip_starts "c"%char "cum") with true.
    change (starts "i"%char "incr") with true. cbv iota.
    replace (match nm with None => true | Some s => String.eqb s "origin" end) with true
      by (destruct Hn as [-> | ->]; reflexivity).
    unfold tri_shape_recs.
    rewrite (sorted_melt _ os ds (dif ds f)) by (auto; apply diff_holds; auto using zsorted_nodup).
    unfold halloc, incr_ctor. cbn [dflt].
    rewrite (base_ctor_table "origin" "dev" "value") with
      (f := recs_frame "origin" "dev" "value" (tbl os ds (dif ds f))) (l := tbl os ds (dif ds f));
      try discriminate; auto; [reflexivity| |].
    + apply recs_frame_table; discriminate.
    + apply tbl_nonempty; auto using dif_covered.
  - unfold to_incr, incr_recs. cbn [t_mat].
    rewrite (sorted_melt _ os ds (dif ds f)); auto; [|apply diff_holds; auto using zsorted_nodup].
    unfold halloc, incr_ctor. cbn [dflt].
    rewrite (base_ctor_table "origin" "dev" "value") with
      (f := recs_frame "origin" "dev" "value" (tbl os ds (dif ds f))) (l := tbl os ds (dif ds f));
      try discriminate; auto.
    + apply recs_frame_table; discriminate.
    + apply tbl_nonempty; auto using dif_covered.
Qed.

Lemma c69_to_cum m nm os ds f : increasing os -> increasing ds -> os <> [] -> holds m os ds f ->
  runoff os ds f -> finite_cells os ds f -> positive_first os ds f ->
  (nm = None \/ nm = Some "origin") ->
  exists t c, totri_tri m nm "cum" "incr" "triangle" "origin" "dev" "value" = Ok (mkObj t c) /\
    to_cum (mkTri m "origin" "dev" "value") = Ok t.
Proof.
  intros So Sd No H R F P Hn. assert (R' := R). destruct R' as (G & Gc & C).
  assert (Hb := cum_build os ds So Sd f F C P).
  set (M := build (adjusted (cum_recs (tbl os ds f)))) in *.
  destruct (fill_id os ds (cumc os ds f) "origin" "dev" "value" M) as (c & Ef & _); auto.
  - intro Q. subst ds. destruct os as [|o os']; [congruence|]. destruct C as [Co _].
    destruct (Co o (or_introl eq_refl)) as (d & [] & _).
  - destruct (cumc_shape os ds So Sd f G F C P) as (_ & _ & [_ Q] & _). auto.
  - intros i Hi. assert (N := runoff_first os ds f i Sd R Hi).
    destruct (cumc_fin os ds f i 0 G F Hi) as (q & ->); [|auto|discriminate].
    destruct ds; [|simpl; lia]. destruct C as [Co _]. destruct (Co (nth i os 0%Z)) as (? & [] & _). apply nth_In; auto.
  - intros i i' j Hi Hi' Hj N. assert (N2 : f (nth i' os 0%Z) (nth j ds 0%Z) <> NaN).
    { intro Q. apply N. apply cumc_nan. rewrite Q. auto. }
    assert (N1 := runoff_col os ds f i i' j So R Hi Hi' Hj N2).
    destruct (cumc_fin os ds f i j G F ltac:(lia) Hj N1) as (q & ->). discriminate.
  - exists (mkTri M "origin" "dev" "value"), c. split.
    + unfold totri_tri, totri_h, totri_frame.
      cbn [String.eqb Ascii.eqb Bool.eqb].
      change (strip_starts "i"%char "incr") with true.
      change (starts "i"%char "cum") with false. change (starts "c"%char "cum") with true. cbv iota.
      replace (match nm with None => true | Some s => String.eqb s "origin" end) with true
        by (destruct Hn as [-> | ->]; reflexivity).
      unfold tri_shape_recs.
      rewrite (sorted_melt _ os ds f) by auto. unfold halloc.
      set (fr := recs_frame "origin" "dev" "value" (tbl os ds f)).
      set (h := ([] ++ [fr]) ++ [hget ([] ++ [fr]) (length (@nil frame))]).
      assert (E : snd (cum_ctor h (length ([] ++ [fr])) (Some "origin") (Some "dev") (Some "value"))
         = Ok (mkTri M "origin" "dev" "value")).
      { apply (cum_ctor_table "origin" "dev" "value") with (f := fr); try discriminate; auto.
        - apply recs_frame_table; discriminate.
        - apply tbl_nonempty; auto. }
      destruct (cum_ctor h _ _ _ _) as [h3 [t|e]]; cbn [snd] in E; [|discriminate].
      inversion E; subst t. cbn [snd]. exact Ef.
    + unfold to_cum, to_tbl. cbn [t_o t_d t_v t_mat String.eqb Ascii.eqb Bool.eqb bind].
      rewrite (to_tbl_recs_tbl m os ds f) by auto. unfold halloc.
      rewrite (cum_ctor_table "origin" "dev" "value") with
        (f := recs_frame "origin" "dev" "value" (tbl os ds f)) (l := tbl os ds f); try discriminate; auto.
      * apply recs_frame_table; discriminate.
      * apply tbl_nonempty; auto.
Qed.

Lemma c69_incr m nm os ds f : increasing os -> increasing ds -> os <> [] -> holds m os ds f ->
  gap_free os ds f -> finite_cells os ds f -> covered os ds f -> positive_first os ds f ->
  (nm = None \/ nm = Some "origin") ->
  exists mi g,
    totri_tri m nm "incr" "cum" "triangle" "origin" "dev" "value" = Ok (mkObj (mkTri mi "origin" "dev" "value") None) /\
    holds mi os ds g /\
    (forall o d, In o os -> first_in ds d -> g o d = f o d) /\
    (forall o d d', In o os -> next_in ds d d' -> g o d' = vsub (f o d') (f o d)) /\
    to_incr (mkTri m "origin" "dev" "value") = Ok (mkTri mi "origin" "dev" "value").
Proof.
  intros So Sd No H G F C P Hn. destruct (c69_to_incr m nm os ds f So Sd No H G F C P Hn) as (t & A & B).
  destruct (c07_incr m os ds f So Sd No H G F C P) as (mi & g & E & Hg & E0 & E1 & _).
  rewrite E in B. injection B as <-. exists mi, g. auto.
Qed.
Lemma c69_cum m nm os ds g : increasing os -> increasing ds -> os <> [] -> holds m os ds g ->
  runoff os ds g -> finite_cells os ds g -> positive_first os ds g ->
  (nm = None \/ nm = Some "origin") ->
  exists mc f c,
    totri_tri m nm "cum" "incr" "triangle" "origin" "dev" "value" = Ok (mkObj (mkTri mc "origin" "dev" "value") c) /\
    holds mc os ds f /\
    (forall o d, In o os -> In d ds -> g o d = NaN -> f o d = NaN) /\
    (forall o d, In o os -> In d ds -> g o d <> NaN ->
       f o d = val_sum (map (g o) (filter (fun x => (x <=? d)%Z) ds))) /\
    to_cum (mkTri m "origin" "dev" "value") = Ok (mkTri mc "origin" "dev" "value").
Proof.
  intros So Sd No H R F P Hn. destruct (c69_to_cum m nm os ds g So Sd No H R F P Hn) as (t & c & A & B).
  destruct R as (G & _ & C).
  destruct (c07_cum m os ds g So Sd No H G F C P) as (mc & f & E & Hf & E0 & E1 & _).
  rewrite E in B. injection B as <-. exists mc, f, c. auto.
Qed.
