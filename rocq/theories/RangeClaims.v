(** Proofs of the printed range summaries (C87). *)

From Coq Require Import String Ascii QArith Qcanon Qreals Reals ZArith List Bool Lia Lra.
From Verif Require Import Val QcLib Frame Triangle A2A Base ListLib Spec Mack Diag Dist Quant Infer MackSum Boot BootSum Print.
From Verif Require Import SpecCols SpecQuant SpecPrint PrintClaims QuantFacts QuantCols QuantClaims BootSumClaims MackSumClaims SpecRange RangePrint.
From Verif Require Import RegFacts.
Import ListNotations.
Open Scope list_scope.
Open Scope nat_scope.

(** ** Reading *)
Lemma read_text (neg sep : bool) k n : (0 <= n)%Z ->
  let p := (10 ^ Z.of_nat k)%Z in
  read_number ((if neg then ["-"%char] else []) ++
    (if sep then separate (znat_text (n / p)) else znat_text (n / p)) ++
    (if k =? 0 then [] else "."%char :: decimals k n))
  = Some (if neg then - (qz n / qz p) else qz n / qz p)%Qc.
Proof.
  intros Hn. cbv zeta. set (p := (10 ^ Z.of_nat k)%Z).
  assert (F : filter (fun c => negb (Ascii.eqb c ",")) ((if sep then separate (znat_text (n / p)) else znat_text (n / p)) ++
      (if k =? 0 then [] else "."%char :: decimals k n)) = znat_text (n / p) ++ (if k =? 0 then [] else "."%char :: decimals k n)).
  { rewrite filter_app. f_equal.
    - destruct sep; [apply separate_filter|apply filter_digits]; apply znat_digits.
    - destruct (k =? 0); auto. cbn [filter Ascii.eqb negb]. cbn. f_equal. apply filter_digits, decimals_digits. }
  assert (Rd := read_fixed_pos k n Hn). fold p in Rd. unfold read_number. rewrite filter_app, F.
  destruct (znat_text (n / p)) as [|c r] eqn:Ez; [exfalso; exact (znat_ne _ Ez)|].
  assert (Hc : Ascii.eqb c "-" = false).
  { apply digit_not; [|reflexivity]. apply (znat_digits (n / p)). rewrite Ez. left. auto. }
  destruct neg; cbn.
  - cbn in Rd. rewrite Rd. reflexivity.
  - rewrite Hc. exact Rd.
Qed.

(** ** Rounding *)
Lemma nearest_round_real x : nearest_real x (round_real x).
Proof.
  unfold round_real. destruct (base_Int_part x) as [A B]. unfold frac_part. set (f := Int_part x) in *.
  assert (P : IZR (f + 1) = (IZR f + 1)%R) by (rewrite plus_IZR; reflexivity). unfold nearest_real.
  destruct (Rlt_dec (x - IZR f) (1 / 2)) as [H|H].
  - split; [lra|]. intros [T|T]; exfalso; lra.
  - destruct (Rlt_dec (1 / 2) (x - IZR f)) as [G|G].
    + rewrite P. split; [lra|]. intros [T|T]; exfalso; lra.
    + destruct (Z.even f) eqn:E.
      * split; [lra|]. auto.
      * rewrite P. split; [lra|]. intros _. replace (f + 1)%Z with (Z.succ f) by lia. rewrite Z.even_succ, <- Z.negb_even, E. reflexivity.
Qed.
Lemma nearest_real_opp x z : nearest_real (- x) z -> nearest_real x (- z).
Proof.
  unfold nearest_real. rewrite opp_IZR, Z.even_opp. intros [A B]. split; [lra|]. intros [T|T]; apply B; [right|left]; lra.
Qed.
Lemma nearest_real_le x y a b : nearest_real x a -> nearest_real y b -> (x <= y)%R -> (a <= b)%Z.
Proof.
  intros [A A'] [B B'] L. destruct (Z_le_gt_dec a b) as [G|G]; auto. exfalso.
  assert (Q : (IZR b + 1 <= IZR a)%R) by (rewrite <- plus_IZR; apply IZR_le; lia).
  assert (E1 : IZR a = (x + 1 / 2)%R) by lra. assert (E2 : IZR b = (y - 1 / 2)%R) by lra.
  assert (Ea := A' (or_intror E1)). assert (Eb := B' (or_introl E2)).
  assert (E : IZR a = IZR (b + 1)) by (rewrite plus_IZR; lra). apply eq_IZR in E. subst a.
  replace (b + 1)%Z with (Z.succ b) in Ea by lia. rewrite Z.even_succ, <- Z.negb_even, Eb in Ea. discriminate.
Qed.
Lemma nearest_real_nonneg x z : (0 <= x)%R -> nearest_real x z -> (0 <= z)%Z.
Proof.
  intros H [A _]. assert (Q : (IZR (-1) < IZR z)%R) by (simpl; lra). apply lt_IZR in Q. lia.
Qed.

Lemma p10_real k : (0 < IZR (10 ^ Z.of_nat k))%R.
Proof. apply IZR_lt, pow10_pos. Qed.
Lemma real_shown sep k x : shown_real k (FR x) (fixed_real sep k x).
Proof.
  unfold shown_real, fixed_real. assert (P := p10_real k). set (p := (10 ^ Z.of_nat k)%Z) in *. destruct (Rlt_dec x 0) as [L|L].
  - assert (N := nearest_round_real (- x * IZR p)). set (n := round_real _) in *. exists (- n)%Z. split.
    + apply nearest_real_opp. replace (- (x * IZR p))%R with (- x * IZR p)%R by ring. exact N.
    + assert (Hn : (0 <= n)%Z) by (apply nearest_real_nonneg in N; auto; apply Rmult_le_pos; lra).
      assert (Q := read_text true sep k n Hn). cbv zeta in Q. fold p in Q. rewrite Q. f_equal. rewrite qz_opp. unfold Qcdiv. ring.
  - assert (N := nearest_round_real (x * IZR p)). set (n := round_real _) in *. exists n. split; auto.
    assert (Hn : (0 <= n)%Z) by (apply nearest_real_nonneg in N; auto; apply Rmult_le_pos; lra).
    exact (read_text false sep k n Hn).
Qed.
Lemma fl_shown sep k v : shown_real k v (fl_text sep k v).
Proof. destruct v; try reflexivity. apply real_shown. Qed.
Lemma fl_whole v : shown_whole_real v (fl_text true 0 v).
Proof.
  split; [apply fl_shown|]. intros x ->. cbn [fl_text]. unfold fixed_real, separated. cbn [Nat.eqb]. rewrite app_nil_r.
  eexists _, _. split; [reflexivity|]. split; [destruct (Rlt_dec x 0); auto|]. split.
  - apply separate_grouped; [apply znat_ne|apply znat_digits].
  - apply separate_lead; [apply znat_ne|apply znat_lead].
Qed.
Lemma fl_plain k v : k <> 0 -> shown_plain_real k v (fl_text false k v).
Proof.
  intro K. split; [apply fl_shown|]. intros x ->. cbn [fl_text]. unfold fixed_real, plain. rewrite (proj2 (Nat.eqb_neq k 0) K).
  eexists _, _, _. split; [reflexivity|]. split; [destruct (Rlt_dec x 0); auto|]. split; [apply znat_ne|]. split; [apply znat_digits|].
  split; [apply znat_lead|]. split; [apply decimals_digits|apply decimals_length].
Qed.

(** ** Precision and order of printed figures *)
Lemma Q2R_qz z : Q2R (this (qz z)) = IZR z.
Proof.
  transitivity (Q2R (inject_Z z)); [apply Qeq_eqR; unfold qz, Q2Qc; cbn [this]; apply Qred_correct|]. unfold Q2R, inject_Z. simpl. field.
Qed.
Lemma Q2R_frac z p : (0 < p)%Z -> Q2R (this (qz z / qz p)%Qc) = (IZR z / IZR p)%R.
Proof.
  intros H. assert (N : ~ (this (qz p) == 0)%Q).
  { intro E. apply Qeq_eqR in E. rewrite Q2R_qz in E. unfold Q2R in E. simpl in E. apply IZR_lt in H. lra. }
  unfold Qcdiv, Qcmult, Qcinv, Q2Qc. cbn [this].
  rewrite (Qeq_eqR _ _ (Qred_correct _)), Q2R_mult, (Qeq_eqR _ _ (Qred_correct _)), Q2R_inv by exact N.
  rewrite !Q2R_qz. reflexivity.
Qed.
Lemma printed_near sep k x : exists a, read_number (fl_text sep k (FR x)) = Some a /\
  (Rabs (Q2R (this a) - x) <= 1 / (2 * IZR (10 ^ Z.of_nat k)))%R.
Proof.
  destruct (real_shown sep k x) as (z & [N _] & Rd). eexists. split; [exact Rd|]. rewrite Q2R_frac by apply pow10_pos.
  assert (P := p10_real k). set (p := IZR (10 ^ Z.of_nat k)) in *.
  replace (IZR z / p - x)%R with ((IZR z - x * p) / p)%R by (field; lra).
  unfold Rdiv at 1. rewrite Rabs_mult, (Rabs_right (/ p)) by (apply Rle_ge, Rlt_le, Rinv_0_lt_compat; auto).
  replace (1 / (2 * p))%R with (1 / 2 * / p)%R by (field; lra).
  apply Rmult_le_compat_r; [apply Rlt_le, Rinv_0_lt_compat; auto|]. unfold Rabs. destruct (Rcase_abs _); lra.
Qed.
Lemma printed_order s1 s2 k x y a b : (x <= y)%R ->
  read_number (fl_text s1 k (FR x)) = Some a -> read_number (fl_text s2 k (FR y)) = Some b -> (a <= b)%Qc.
Proof.
  intros L Ra Rb. destruct (real_shown s1 k x) as (z & N & Rz). destruct (real_shown s2 k y) as (w & M & Rw).
  cbn [fl_text] in *. assert (a = (qz z / qz (10 ^ Z.of_nat k))%Qc) by congruence. assert (b = (qz w / qz (10 ^ Z.of_nat k))%Qc) by congruence.
  subst a b. assert (P := pow10_pos k).
  assert (ZW : (z <= w)%Z).
  { apply (nearest_real_le _ _ _ _ N M). apply Rmult_le_compat_r; auto. apply Rlt_le, p10_real. }
  unfold Qcdiv. apply Qcmult_le_compat_r; [apply qz_le; auto|].
  apply Qclt_le_weak, qc_inv_pos. rewrite <- qz_0. apply qz_lt. auto.
Qed.

(** ** Tables *)
Lemma nth_nth_error {A} i (l : list A) d : i < List.length l -> nth_error l i = Some (nth i l d).
Proof. revert i. induction l as [|a l IH]; intros [|i] H; simpl in *; try lia; auto. apply IH. lia. Qed.
Lemma row_shown_range r qs : range_shown r qs (range_row r qs).
Proof.
  split; [unfold range_row; cbn [fst]; destruct (y_origin r); [apply z_text_label|reflexivity]|].
  unfold range_row. cbn [snd]. eexists _, _, _, _, _, _, _, _, _. split; [reflexivity|].
  split; [destruct (y_maturity r); [apply z_text_label|reflexivity]|].
  split; [apply cell_plain; discriminate|]. split; [apply cell_plain; discriminate|]. split; [apply cell_whole|]. split; [apply cell_whole|]. split; [apply cell_whole|].
  split; [apply fl_whole|]. split; [apply fl_plain; discriminate|]. induction qs as [|q qs IH]; constructor; auto. apply fl_whole.
Qed.
Lemma range_ok rows cols : (forall c, In c cols -> ends_pct (fst c) = true) ->
  (forall c, In c cols -> List.length (snd c) = List.length rows) ->
  exists head body, range_text rows cols = Ok (head, body) /\ table_shown rows cols head body.
Proof.
  intros H L. unfold range_text. rewrite (proj2 (forallb_forall _ _) H). eexists _, _. split; [reflexivity|].
  split; [reflexivity|]. split; [rewrite map_length, combine_length, seq_length; lia|].
  intros i r Hr. assert (Hi : i < List.length rows) by (apply nth_error_Some; congruence).
  exists (map (fun c => nth i (snd c) FNaN) cols). eexists. split; [|split; [|apply row_shown_range]].
  - clear H. induction cols as [|c cols IH]; constructor; [|apply IH; intros; apply L; right; auto].
    apply nth_nth_error. rewrite L; [auto|left; auto].
  - rewrite nth_error_map. rewrite (nth_nth_error i _ (0, r)).
    2:{ rewrite combine_length, seq_length. lia. }
    rewrite combine_nth by apply seq_length. rewrite seq_nth by auto. cbn [option_map fst snd].
    rewrite (nth_error_nth _ _ _ Hr). reflexivity.
Qed.
Lemma ends_pcthdr x : ends_pct (pcthdr x) = true.
Proof.
  unfold ends_pct, pcthdr. rewrite list_ascii_of_string_of_list_ascii, rev_app_distr. reflexivity.
Qed.

(** ** Mack *)
Lemma summary_cols_shape ppf dist k q two cols : List.length (k_mse k) = List.length (c_rows (k_cl k)) ->
  mack_summary_table ppf dist k q two = Ok cols ->
  (forall c, In c cols -> ends_pct (fst c) = true) /\
  (forall c, In c cols -> List.length (snd c) = S (List.length (c_rows (k_cl k))) /\ nth_error (snd c) 0 = Some FNaN).
Proof.
  intros L H. unfold mack_summary_table in H. destruct (mack_rvs dist k) as [rvs|] eqn:E; [|discriminate]. cbn [bind] in H.
  assert (Lr : List.length rvs = S (List.length (c_rows (k_cl k)))).
  { unfold mack_rvs in E. assert (G : forall (A : Type) (f : fl * fl -> A),
      List.length (map f (combine (mack_reserves k) (mack_std_errors k))) = S (List.length (c_rows (k_cl k)))).
    { intros A f. rewrite map_length, combine_length. unfold mack_reserves, mack_std_errors. rewrite !app_length, !map_length, L. cbn. lia. }
    cbv zeta in E. destruct (String.eqb dist "norm"); [injection E as <-; apply G|].
    destruct (String.eqb dist "lognorm"); [injection E as <-; apply G|discriminate]. }
  apply c36_sum_cols in H as (xs & _ & ->). split; intros c Hc; apply in_map_iff in Hc as (x & <- & _); cbn [fst snd].
  - apply ends_pcthdr.
  - destruct rvs as [|d rvs]; [discriminate|]. cbn [map]. split; [|reflexivity]. cbn [List.length]. rewrite !map_length. exact Lr.
Qed.
Lemma zero_text : fl_text true 0 (FR 0) = list_ascii_of_string "0".
Proof.
  cbn [fl_text]. unfold fixed_real. destruct (Rlt_dec 0 0) as [H|H]; [lra|]. rewrite Rmult_0_l.
  assert (E : round_real 0 = 0%Z).
  { destruct (nearest_round_real 0) as [[A B] _]. assert (-1 < round_real 0 < 1)%Z; [|lia]. split; apply lt_IZR; lra. }
  rewrite E. reflexivity.
Qed.
Section Mack.
  Variables (m : lmat) (n : nat) (C : nat -> nat -> Qc).
  Hypothesis HR : regular m n C.
  Hypothesis HP : positive n C.
  Hypothesis Hn : 3 < n.
  Hypothesis Ev : tail_fits (m_cols m).
  Variable cl : list nat.
  Hypothesis D : clvi m = Ok cl.
  Variables (ind : list (list val)) (W : nat -> nat -> Qc).
  Hypothesis HW : weights ind n W.
  Variables (al : nat) (v : string) (tail : val) (k : mack_result).
  Hypothesis K : mack_cl (mkTri m "origin" "dev" v) cl ind al tail = Ok k.

  Lemma c87_mack ppf dist q two cols : mack_summary_table ppf dist k q two = Ok cols ->
    exists head body, mack_text ppf dist k q two = Ok (head, body) /\ table_shown (mack_table k) cols head body /\
    exists txt, nth_error body 0 = Some txt /\
      skipn 6 (snd txt) = list_ascii_of_string "0" :: list_ascii_of_string "NaN" :: map (fun _ => list_ascii_of_string "NaN") cols.
  Proof.
    intro Hc. destruct (c80_table m n C HR HP Hn Ev cl D ind W HW al v tail k K) as (e & T & Em & _ & Eo & Ey & _ & _ & E0 & _).
    assert (Lx : List.length (m_idx m) = n) by apply HR.
    assert (L1 : List.length (mack_table k) = S n).
    { rewrite <- (map_length y_origin), Eo, app_length, map_length, Lx. simpl. lia. }
    assert (L2 : List.length (c_rows (k_cl k)) = n).
    { apply (f_equal (@List.length _)) in Ey. rewrite app_length, !map_length, L1 in Ey. simpl in Ey. lia. }
    assert (L3 : List.length (k_mse k) = n) by (rewrite Em, map_length, seq_length; auto).
    destruct (summary_cols_shape ppf dist k q two cols ltac:(lia) Hc) as [S1 S2].
    destruct (range_ok (mack_table k) cols S1) as (head & body & Er & Sh).
    { intros c Hi. destruct (S2 c Hi) as [Q _]. lia. }
    exists head, body. unfold mack_text. rewrite Hc. cbn [bind]. split; [exact Er|]. split; [exact Sh|].
    unfold range_text in Er. rewrite (proj2 (forallb_forall _ _) S1) in Er. injection Er as _ Eb.
    destruct (mack_table k) as [|r rs] eqn:Et; [discriminate|]. cbn [List.length seq combine map fst snd] in Eb. subst body.
    eexists. split; [reflexivity|]. unfold range_row. cbn [snd app skipn].
    assert (Or : y_origin r = Some (nth 0 (m_idx m) 0%Z)).
    { destruct (m_idx m) as [|o os]; [simpl in Lx; lia|]. cbn in Eo |- *. congruence. }
    destruct (E0 r (or_introl eq_refl) Or) as [-> ->]. rewrite zero_text. f_equal. f_equal.
    rewrite map_map. apply map_ext_in. intros c Hi. destruct (S2 c Hi) as [_ Q].
    rewrite (nth_error_nth _ _ _ Q). reflexivity.
  Qed.
End Mack.

(** ** Bootstrap *)
Lemma dict_set_all {A} (P : string * A -> Prop) d k x : (forall p, In p d -> P p) -> P (k, x) -> forall p, In p (dict_set d k x) -> P p.
Proof.
  intros H Hk. induction d as [|a d IH]; cbn [dict_set]; intros p Hp.
  - destruct Hp as [<-|[]]. auto.
  - destruct (String.eqb (fst a) k); destruct Hp as [<-|Hp]; auto.
    + apply H. right. auto.
    + apply H. left. auto.
    + apply IH; auto. intros q Hq. apply H. right. auto.
Qed.
Lemma fold_dict_all {A} (P : string * A -> Prop) l d : (forall p, In p d -> P p) -> (forall p, In p l -> P p) ->
  forall p, In p (fold_left (fun d p => dict_set d (fst p) (snd p)) l d) -> P p.
Proof.
  revert d. induction l as [|a l IH]; intros d Hd Hl; [exact Hd|]. cbn [fold_left]. apply IH.
  - apply dict_set_all; auto. destruct a. apply Hl. left. auto.
  - intros p Hp. apply Hl. right. auto.
Qed.
Lemma mapM_in {A B} (f : A -> res B) l r y : mapM f l = Ok r -> In y r -> exists x, In x l /\ f x = Ok y.
Proof.
  revert r. induction l as [|a l IH]; intros r; cbn [mapM].
  - intros H. injection H as <-. intros [].
  - destruct (f a) as [b|] eqn:E; [|discriminate]. cbn [bind]. destruct (mapM f l) as [bs|] eqn:E2; [|discriminate]. cbn [bind].
    intros H. injection H as <-. intros [<-|Hy]; [exists a; split; [left|]; auto|]. destruct (IH bs eq_refl Hy) as (x & Hx & Ex).
    exists x. split; [right|]; auto.
Qed.
Lemma boot_cols_shape rs os q two mt cols : boot_summary_quantiles rs os q two mt = Ok cols ->
  forall c, In c cols -> ends_pct (fst c) = true /\ List.length (snd c) = S (List.length os).
Proof.
  unfold boot_summary_quantiles. destruct (qtls_formatter q two) as [[qs hs]|] eqn:E; [|discriminate]. cbn [bind fst snd].
  destruct (mapM _ qs) as [cs|] eqn:M; [|discriminate]. cbn [bind]. intros H. injection H as <-.
  apply fold_dict_all; [intros p []|]. intros [h c] Hp. assert (Hh := in_combine_l _ _ _ _ Hp). assert (Hc := in_combine_r _ _ _ _ Hp).
  cbn [fst snd]. rewrite (formatter_hdrs _ _ _ _ E) in Hh. apply in_map_iff in Hh as (x & <- & _). split; [apply ends_pcthdr|].
  destruct (mapM_in _ _ _ _ M Hc) as (y & _ & Ey). apply mapM_length in Ey. rewrite Ey. unfold Quant.samples.
  rewrite app_length, map_length. simpl. lia.
Qed.

Lemma c87_boot gm rt m n C cl rl ind sims par rng b sel r q two mt cols :
  regular m n C -> 0 < n ->
  boot_cl gm rt (mkTri m "origin" "dev" "value") cl rl ind sims par rng = Ok b ->
  base_cl gm (mkTri m "origin" "dev" "value") cl ind (SelLabel "all-weighted") (Fin 1%Qc) = (sel, Ok r) ->
  boot_summary_quantiles (o_reserves b) (m_idx m) q two mt = Ok cols ->
  exists rows head body, boot_rows (mkTri m "origin" "dev" "value") cl b = Ok rows /\
    map (fun w => (y_maturity w, y_cldf w, y_emergence w)) rows =
      map (fun w => (Some (s_maturity w), s_cldf w, s_emergence w)) (c_rows r) ++ [(None, NaN, NaN)] /\
    map (fun w => mkBrow (y_origin w) (y_latest w) (y_ultimate w) (y_reserve w) (y_std_error w) (y_cv w)) rows = boot_table b /\
    boot_text (mkTri m "origin" "dev" "value") cl b q two mt = Ok (head, body) /\
    table_shown rows (map (fun c => (fst c, map (fun x => FR (Q2R (this x))) (snd c))) cols) head body.
Proof.
  intros Rg Hn B Bs Hc. assert (Lx : List.length (m_idx m) = n) by apply Rg.
  destruct (boot_records _ _ _ _ _ _ _ _ _ _ _ _ Rg Hn B) as (R & _ & _ & Es & _).
  assert (Ho : map (fun r => fst (fst (fst r))) (o_summary b) = m_idx m).
  { rewrite Es, map_map. cbn [fst]. rewrite <- Lx at 1. apply map_nth_seq_fst. }
  assert (Ls : List.length (o_summary b) = n) by (rewrite <- (map_length (fun r => fst (fst (fst r)))), Ho; auto).
  assert (Lb : List.length (boot_table b) = S n).
  { unfold boot_table, boot_std_errors, boot_variances, Quant.samples. destruct (o_total b) as [[l u] w].
    rewrite map_length, combine_length, app_length, !map_length, app_length, !map_length, Ls. simpl. lia. }
  assert (El : exists ldfs, ldfs_of_label gm m ind "all-weighted" (Fin 1%Qc) = Ok ldfs /\ o_ldfs b = ldfs /\
     chain_ladder (mkTri m "origin" "dev" "value") cl ldfs (Fin 1%Qc) = Ok r).
  { unfold boot_cl in B. cbn [t_mat] in B. unfold base_cl in Bs. cbn [t_mat select_ldfs] in Bs.
    destruct (ldfs_of_label gm m ind "all-weighted" (Fin 1%Qc)) as [ldfs|] eqn:E; [|discriminate]. cbn [bind] in B, Bs.
    exists ldfs. split; [reflexivity|]. split; [|congruence].
    destruct (latest_by_origin _); [|discriminate]. cbn [bind] in B. destruct (tri_fit_cum m (map snd ldfs)); [|discriminate]. cbn [bind] in B.
    destruct (resid_us _ _ _); [|discriminate]. cbn [bind] in B. cbn [t_v] in B. change (String.eqb "value" "value") with true in B.
    cbn [negb] in B. destruct (_ && _)%bool; [discriminate|]. injection B as <-. reflexivity. }
  destruct El as (ldfs & _ & Eb & Ec). unfold chain_ladder in Ec. cbn [t_mat] in Ec.
  destruct (ultimates _ _) as [ult|]; [|discriminate]. cbn [bind] in Ec. destruct (reserves _ _) as [rsv|]; [|discriminate]. cbn [bind] in Ec.
  destruct (maturity m (triind (nrows m) cl)) as [mat|] eqn:Em; [|discriminate]. cbn [bind] in Ec.
  destruct (latest_by_origin _) as [lt|]; [|discriminate]. cbn [bind] in Ec. destruct (trisqrd _ _ _); [|discriminate]. cbn [bind] in Ec.
  assert (Lm : List.length mat = n).
  { apply mapM_length in Em. rewrite Em. unfold triind, mk. rewrite map_length, seq_length. exact Lx. }
  injection Ec as <-. cbn [c_rows].
  assert (Br : exists rows, boot_rows (mkTri m "origin" "dev" "value") cl b = Ok rows /\
    map (fun w => (y_maturity w, y_cldf w, y_emergence w)) rows =
      map (fun mt => (Some mt, slookup (cldfs ldfs) mt, vdiv (Fin 1%Qc) (slookup (cldfs ldfs) mt))) mat ++ [(None, NaN, NaN)] /\
    map (fun w => mkBrow (y_origin w) (y_latest w) (y_ultimate w) (y_reserve w) (y_std_error w) (y_cv w)) rows = boot_table b).
  { unfold boot_rows. cbn [t_mat]. rewrite Em. cbn [bind]. rewrite Eb. eexists. split; [reflexivity|].
    assert (L : List.length (map (fun mt => (Some mt, slookup (cldfs ldfs) mt, vdiv (Fin 1%Qc) (slookup (cldfs ldfs) mt))) mat ++
       [(None, NaN, NaN)]) = List.length (boot_table b)) by (rewrite app_length, map_length, Lm, Lb; simpl; lia).
    revert L. generalize (map (fun mt => (Some mt, slookup (cldfs ldfs) mt, vdiv (Fin 1%Qc) (slookup (cldfs ldfs) mt))) mat ++ [(None, NaN, NaN)]).
    generalize (boot_table b). clear. induction l as [|w l IH]; intros [|[[a c] e] d] L; try discriminate; [split; reflexivity|].
    cbn [combine map]. destruct (IH d) as [I1 I2]; [injection L; auto|]. cbn [y_maturity y_cldf y_emergence y_origin y_latest y_ultimate y_reserve y_std_error y_cv].
    rewrite I1, I2. destruct w. split; reflexivity. }
  destruct Br as (rows & E1 & E2 & E3). assert (Lr : List.length rows = S n).
  { rewrite <- Lb, <- E3, map_length. reflexivity. }
  set (cols' := map (fun c => (fst c, map (fun x => FR (Q2R (this x))) (snd c))) cols).
  assert (Sc := boot_cols_shape _ _ _ _ _ _ Hc).
  destruct (range_ok rows cols') as (head & body & Er & Sh).
  { intros c Hi. apply in_map_iff in Hi as (c' & <- & Hi). cbn [fst]. apply Sc. auto. }
  { intros c Hi. apply in_map_iff in Hi as (c' & <- & Hi). cbn [snd]. rewrite map_length. destruct (Sc c' Hi) as [_ ->]. lia. }
  exists rows, head, body. split; [exact E1|]. split; [|split; [exact E3|split; [|exact Sh]]].
  - rewrite E2. f_equal. rewrite map_map. cbn [s_maturity s_cldf s_emergence].
    assert (L : List.length (m_idx m) = List.length mat) by lia. revert L. clear. generalize (m_idx m). induction mat as [|x mat IH]; intros [|o l] L; try discriminate; auto.
    cbn [combine map fst snd]. f_equal. apply IH. injection L. auto.
  - unfold boot_text. rewrite E1. cbn [bind]. rewrite Ho, Hc. cbn [bind]. exact Er.
Qed.
