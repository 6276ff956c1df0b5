(** What the printed figures read. *)

From Coq Require Import String Ascii QArith Qcanon Qround ZArith List Bool Lia DecimalString.
From Coq Require DecimalFacts DecimalN.
From Verif Require Import Val QcLib Frame Triangle A2A Base Spec Boot Quant SpecQuant QuantFacts QuantClaims SpecCols QuantCols BaseClaims BaseShape SpecPrint Print.
Import ListNotations.
Open Scope list_scope.
Open Scope nat_scope.

(** ** Digits *)
Lemma read_pos d acc : read_digits (Z.pos acc) (list_ascii_of_string (NilEmpty.string_of_uint d)) = Some (Z.pos (Pos.of_uint_acc d acc)).
Proof.
  revert acc. induction d; intros acc; [reflexivity|..];
    cbn [NilEmpty.string_of_uint list_ascii_of_string read_digits Pos.of_uint_acc];
    match goal with |- context [digit_value ?c] => let v := eval vm_compute in (digit_value c) in change (digit_value c) with v end;
    cbv iota; rewrite <- IHd; f_equal; lia.
Qed.
Lemma read_N d : read_digits 0 (list_ascii_of_string (NilEmpty.string_of_uint d)) = Some (Z.of_N (N.of_uint d)).
Proof.
  unfold N.of_uint. induction d; [reflexivity|..];
    cbn [NilEmpty.string_of_uint list_ascii_of_string read_digits Pos.of_uint];
    match goal with |- context [digit_value ?c] => let v := eval vm_compute in (digit_value c) in change (digit_value c) with v end;
    cbv iota; [exact IHd|..]; apply read_pos.
Qed.
Lemma read_znat z : (0 <= z)%Z -> read_digits 0 (znat_text z) = Some z.
Proof. intro H. unfold znat_text. rewrite read_N, DecimalN.Unsigned.of_to. f_equal. apply Z2N.id. auto. Qed.
Lemma znat_digits z : all_digits (znat_text z).
Proof.
  unfold znat_text, all_digits. induction (N.to_uint (Z.to_N z)); cbn [NilEmpty.string_of_uint list_ascii_of_string]; intros c H;
    [contradiction|..]; destruct H as [<-|H]; auto; vm_compute; discriminate.
Qed.
Lemma znat_ne z : znat_text z <> [].
Proof.
  unfold znat_text. intro H. destruct (N.to_uint (Z.to_N z)) eqn:E; try discriminate H.
  assert (Q := DecimalN.Unsigned.of_to (Z.to_N z)). rewrite E in Q. cbn in Q. rewrite <- Q in E. discriminate E.
Qed.
Lemma znat_lead z : no_leading_zero (znat_text z).
Proof.
  unfold znat_text, no_leading_zero. assert (Q := DecimalN.Unsigned.to_of (N.to_uint (Z.to_N z))).
  rewrite DecimalN.Unsigned.of_to in Q. destruct (N.to_uint (Z.to_N z)); try (left; discriminate).
  right. unfold Decimal.unorm in Q. destruct (Decimal.nzhead (Decimal.D0 u)) eqn:E; try (rewrite <- Q in E; exfalso; exact (DecimalFacts.nzhead_nonzero _ _ E)); try discriminate.
  injection Q as ->. reflexivity.
Qed.

(** ** Separators *)
Lemma digit_not c x : digit_value c <> None -> digit_value x = None -> Ascii.eqb c x = false.
Proof. intros H1 H2. destruct (Ascii.eqb_spec c x) as [->|]; auto. contradiction. Qed.
Lemma commas_filter k l : all_digits l -> filter (fun c => negb (Ascii.eqb c ",")) (commas k l) = l.
Proof.
  revert k. induction l as [|c l IH]; intros k H; auto. cbn [commas].
  assert (E : Ascii.eqb c "," = false) by (apply digit_not; [apply H; left; auto|reflexivity]).
  assert (H' : all_digits l) by (intros x Hx; apply H; right; auto).
  destruct (k =? 3); cbn [filter]; try change (negb (Ascii.eqb "," ",")) with false; cbv iota; cbn [filter]; rewrite E; cbn [negb]; f_equal; auto.
Qed.
Lemma filter_rev {A} (p : A -> bool) l : filter p (rev l) = rev (filter p l).
Proof.
  induction l as [|a l IH]; auto. cbn [rev]. rewrite filter_app, IH. cbn [filter]. destruct (p a); cbn [rev]; auto. rewrite app_nil_r. auto.
Qed.
Lemma separate_filter l : all_digits l -> filter (fun c => negb (Ascii.eqb c ",")) (separate l) = l.
Proof.
  intro H. unfold separate. rewrite filter_rev, commas_filter, rev_involutive; auto. intros c Hc. apply H, in_rev. auto.
Qed.
Lemma commas_3 l : l <> [] -> commas 3 l = ","%char :: commas 0 l.
Proof. destruct l; [congruence|reflexivity]. Qed.
Lemma commas_grouped k : forall l, List.length l <= k -> l <> [] -> all_digits l -> grouped (rev (commas 0 l)).
Proof.
  induction k as [|k IH]; intros l L N H; [destruct l; [congruence|simpl in L; lia]|].
  destruct l as [|a [|b [|c l]]]; [congruence| | |].
  - cbn. apply grouped_first; [|cbn; lia]. intros x Hx. apply H. auto.
  - cbn. apply grouped_first; [|cbn; lia]. intros x Hx. apply H. simpl in *. tauto.
  - cbn [commas Nat.eqb]. destruct l as [|d l].
    + cbn. apply grouped_first; [|cbn; lia]. intros x Hx. apply H. simpl in *. tauto.
    + rewrite commas_3 by discriminate. cbn [rev]. rewrite <- !app_assoc. cbn [app].
      apply (grouped_more (rev (commas 0 (d :: l))) [c; b; a]).
      * apply IH; [simpl in *; lia|discriminate|]. intros x Hx. apply H. simpl in *. tauto.
      * intros x Hx. apply H. simpl in *. tauto.
      * reflexivity.
Qed.
Lemma separate_grouped l : l <> [] -> all_digits l -> grouped (separate l).
Proof.
  intros N H. unfold separate. apply (commas_grouped (List.length (rev l))); auto.
  - intro E. apply N. apply (f_equal (@rev _)) in E. rewrite rev_involutive in E. auto.
  - intros c Hc. apply H, in_rev. auto.
Qed.
Lemma hd_commas k l : l <> [] -> last (commas k l) "1"%char = last l "1"%char.
Proof.
  revert k. induction l as [|c l IH]; intros k N; [congruence|]. cbn [commas]. destruct l as [|d l].
  - destruct (k =? 3); reflexivity.
  - assert (E : forall j, commas j (d :: l) <> []) by (intros j; cbn [commas]; destruct (j =? 3); discriminate).
    assert (Q : forall (x : ascii) w, w <> [] -> last (x :: w) "1"%char = last w "1"%char) by (intros x [|y w]; [congruence|reflexivity]).
    rewrite (Q c (d :: l)) by discriminate. destruct (k =? 3).
    + rewrite Q by discriminate. rewrite Q by apply E. apply IH. discriminate.
    + rewrite Q by apply E. apply IH. discriminate.
Qed.
Lemma hd_rev_last (l : list ascii) x : hd x (rev l) = last l x.
Proof.
  induction l as [|a l IH]; auto. cbn [rev]. destruct l as [|b l]; [reflexivity|]. change (last (a :: b :: l) x) with (last (b :: l) x).
  rewrite <- IH. destruct (rev (b :: l)) eqn:E; [|reflexivity]. apply (f_equal (@List.length _)) in E. rewrite rev_length in E. discriminate.
Qed.
Lemma separate_lead l : l <> [] -> no_leading_zero l -> no_leading_zero (separate l).
Proof.
  intros N [H|H].
  - left. unfold separate. rewrite hd_rev_last, hd_commas.
    + rewrite <- hd_rev_last, rev_involutive. auto.
    + intro E. apply N. apply (f_equal (@rev _)) in E. rewrite rev_involutive in E. auto.
  - right. subst l. reflexivity.
Qed.

(** ** Decimals *)
Lemma pow10_pos k : (0 < 10 ^ Z.of_nat k)%Z.
Proof. apply Z.pow_pos_nonneg; lia. Qed.
Lemma decimals_length k n : List.length (decimals k n) = k.
Proof. revert n. induction k as [|k IH]; intro n; auto. cbn [decimals]. rewrite app_length, IH. simpl. lia. Qed.
Lemma decimals_digits k n : all_digits (decimals k n).
Proof.
  revert n. induction k as [|k IH]; intros n c H; [contradiction|]. cbn [decimals] in H. apply in_app_or in H as [H|[<-|[]]]; [eapply IH; eauto|].
  assert (Q := read_digit (n mod 10) 0 [] (Z.mod_pos_bound n 10 ltac:(lia))). cbn [read_digits] in Q.
  destruct (digit_value (digit (n mod 10))); congruence.
Qed.
Lemma read_decimals_k k : forall n acc, (0 <= n)%Z -> read_digits acc (decimals k n) = Some (acc * 10 ^ Z.of_nat k + n mod 10 ^ Z.of_nat k)%Z.
Proof.
  induction k as [|k IH]; intros n acc H.
  - cbn [decimals read_digits]. f_equal. change (10 ^ Z.of_nat 0)%Z with 1%Z. rewrite Z.mod_1_r. lia.
  - cbn [decimals]. rewrite read_app, IH by (apply Z.div_pos; lia).
    rewrite (read_digit (n mod 10)) by (apply Z.mod_pos_bound; lia). cbn [read_digits]. f_equal.
    rewrite Nat2Z.inj_succ, Z.pow_succ_r by lia. assert (P := pow10_pos k). set (p := (10 ^ Z.of_nat k)%Z) in *.
    rewrite (Z.mul_comm 10 p), (Z.mul_comm p 10), Z.rem_mul_r by lia. lia.
Qed.

(** ** Reading *)
Lemma before_digits a r : all_digits a -> before_point (a ++ "."%char :: r) = a /\ after_point (a ++ "."%char :: r) = r.
Proof.
  induction a as [|c a IH]; intro H; [split; reflexivity|]. cbn [app before_point after_point].
  assert (E : Ascii.eqb c "." = false) by (apply digit_not; [apply H; left; auto|reflexivity]). rewrite E.
  destruct IH as [-> ->]; auto. intros x Hx. apply H. right. auto.
Qed.
Lemma before_all a : all_digits a -> before_point a = a /\ after_point a = [].
Proof.
  induction a as [|c a IH]; intro H; [split; reflexivity|]. cbn [app before_point after_point].
  assert (E : Ascii.eqb c "." = false) by (apply digit_not; [apply H; left; auto|reflexivity]). rewrite E.
  destruct IH as [-> ->]; auto. intros x Hx. apply H. right. auto.
Qed.
Lemma read_fixed_pos k n : (0 <= n)%Z ->
  read_unsigned (znat_text (n / 10 ^ Z.of_nat k) ++ (if k =? 0 then [] else "."%char :: decimals k n))
  = Some (qz n / qz (10 ^ Z.of_nat k))%Qc.
Proof.
  intro H. assert (P := pow10_pos k). set (p := (10 ^ Z.of_nat k)%Z) in *. unfold read_unsigned.
  assert (Hd : (0 <= n / p)%Z) by (apply Z.div_pos; lia).
  assert (E : exists r, before_point (znat_text (n / p) ++ (if k =? 0 then [] else "."%char :: decimals k n)) = znat_text (n / p) /\
     after_point (znat_text (n / p) ++ (if k =? 0 then [] else "."%char :: decimals k n)) = r /\ r = decimals k n).
  { exists (decimals k n). destruct (Nat.eqb_spec k 0) as [->|N].
    - rewrite app_nil_r. destruct (before_all (znat_text (n / p)) (znat_digits _)) as [-> ->]. auto.
    - destruct (before_digits (znat_text (n / p)) (decimals k n) (znat_digits _)) as [-> ->]. auto. }
  destruct E as (r & -> & -> & ->). destruct (znat_text (n / p)) eqn:Ez; [exfalso; exact (znat_ne _ Ez)|].
  rewrite <- Ez, read_app, read_znat by auto. rewrite read_decimals_k by auto. rewrite decimals_length. fold p.
  do 3 f_equal. rewrite (Z.mul_comm (n / p)). symmetry. apply Z.div_mod. lia.
Qed.

Lemma filter_digits l : all_digits l -> filter (fun c => negb (Ascii.eqb c ",")) l = l.
Proof.
  induction l as [|c l IH]; intro H; auto. cbn [filter].
  assert (E : Ascii.eqb c "," = false) by (apply digit_not; [apply H; left; auto|reflexivity]). rewrite E. cbn [negb].
  f_equal. apply IH. intros x Hx. apply H. right. auto.
Qed.
Lemma read_fixed sep k x :
  let p := (10 ^ Z.of_nat k)%Z in
  let n := round_half_even ((if qcltb x 0 then - x else x) * qz p)%Qc in
  read_number (fixed sep k x) = Some (if qcltb x 0 then - (qz n / qz p) else qz n / qz p)%Qc.
Proof.
  cbv zeta. unfold fixed. set (p := (10 ^ Z.of_nat k)%Z). assert (P := pow10_pos k). fold p in P.
  set (n := round_half_even _).
  assert (Hn : (0 <= n)%Z).
  { apply round_nonneg. apply qc_mul_nonneg.
    - destruct (qcltb_spec x 0) as [H|H]; [qlra|apply Qcnot_lt_le; auto].
    - rewrite <- qz_0. apply qz_le. lia. }
  assert (F : filter (fun c => negb (Ascii.eqb c ",")) ((if sep then separate (znat_text (n / p)) else znat_text (n / p)) ++
      (if k =? 0 then [] else "."%char :: decimals k n)) = znat_text (n / p) ++ (if k =? 0 then [] else "."%char :: decimals k n)).
  { rewrite filter_app. f_equal.
    - destruct sep; [apply separate_filter|apply filter_digits]; apply znat_digits.
    - destruct (k =? 0); auto. cbn [filter Ascii.eqb negb]. cbn. f_equal. apply filter_digits, decimals_digits. }
  assert (Rd := read_fixed_pos k n Hn). fold p in Rd. unfold read_number. rewrite filter_app, F.
  destruct (znat_text (n / p)) as [|c r] eqn:Ez; [exfalso; exact (znat_ne _ Ez)|].
  assert (Hc : Ascii.eqb c "-" = false).
  { apply digit_not; [|reflexivity]. apply (znat_digits (n / p)). rewrite Ez. left. auto. }
  destruct (qcltb x 0); cbn.
  - cbn in Rd. rewrite Rd. reflexivity.
  - rewrite Hc. exact Rd.
Qed.

(** ** Rounding *)
Lemma half2 : ((1 / qz 2) + (1 / qz 2) = 1)%Qc.
Proof. apply Qc_is_canon. reflexivity. Qed.
Lemma nearest_round x : nearest x (round_half_even x).
Proof.
  destruct (round_near x) as [A B]. split; auto. split; auto. intro T.
  destruct (floor_spec x) as [H1 H2]. rewrite qz_add, qz_1 in H2. assert (Hh := half2). unfold round_half_even in *.
  clear A B. revert Hh T H1 H2. cbv zeta. generalize (1 / qz 2)%Qc (Qfloor x). intros hf f Hh T H1 H2.
  assert (Hp : (0 < hf)%Qc).
  { destruct (Qclt_le_dec 0 hf) as [G|G]; auto. exfalso. assert (0 < 1)%Qc by reflexivity.
    assert (W : (hf + hf < 1)%Qc) by qlra. rewrite Hh in W. exact (Qclt_not_eq _ _ W eq_refl). }
  destruct (qcltb_spec (x - qz f) hf) as [C|C].
  - exfalso. destruct T as [T|T]; rewrite T in *; qlra.
  - destruct (qcltb_spec hf (x - qz f)) as [D|D].
    + exfalso. rewrite qz_add, qz_1, <- Hh in *. destruct T as [T|T].
      * assert (Q : (x = qz f + (hf + hf) + hf)%Qc) by (rewrite T; ring). rewrite Q in H2. qlra.
      * assert (Q : (x = qz f + (hf + hf) - hf)%Qc) by (rewrite T; ring). rewrite Q in D. qlra.
    + destruct (Z.even f) eqn:E; auto. rewrite Z.add_1_r, Z.even_succ, <- Z.negb_even, E. auto.
Qed.
Lemma nearest_opp x z : nearest (- x)%Qc z -> nearest x (- z)%Z.
Proof.
  intros (A & B & C). assert (E := qz_opp z). unfold nearest. rewrite E.
  split; [qlra|]. split; [qlra|]. intro T. rewrite Z.even_opp. apply C. destruct T as [T|T]; [right|left].
  - replace (qz z) with (- - qz z)%Qc by ring. rewrite T. ring.
  - replace (qz z) with (- - qz z)%Qc by ring. rewrite T. ring.
Qed.
Lemma nearest_unique x a b : nearest x a -> nearest x b -> a = b.
Proof.
  intros (A1 & A2 & A3) (B1 & B2 & B3). assert (Hh := half2). revert Hh A1 A2 A3 B1 B2 B3. generalize (1 / qz 2)%Qc. intros hf Hh A1 A2 A3 B1 B2 B3.
  assert (L : forall u w, (x - hf <= qz u)%Qc -> (qz w <= x + hf)%Qc -> (w <= u + 1)%Z).
  { intros u w U W. apply (proj1 (qz_le _ _)). rewrite qz_add, qz_1, <- Hh. qlra. }
  assert (L1 := L a b A1 B2). assert (L2 := L b a B1 A2).
  assert (Q : a = b \/ b = (a + 1)%Z \/ a = (b + 1)%Z) by lia. destruct Q as [Q|[Q|Q]]; auto; exfalso; subst.
  - rewrite qz_add, qz_1, <- Hh in *. assert (E : (qz a = x - hf)%Qc) by (apply Qcle_antisym; qlra).
    assert (E' : (qz a + (hf + hf) = x + hf)%Qc) by (rewrite E; ring). specialize (A3 (or_introl E)). specialize (B3 (or_intror E')).
    rewrite Z.add_1_r, Z.even_succ, <- Z.negb_even, A3 in B3. discriminate.
  - rewrite qz_add, qz_1, <- Hh in *. assert (E : (qz b = x - hf)%Qc) by (apply Qcle_antisym; qlra).
    assert (E' : (qz b + (hf + hf) = x + hf)%Qc) by (rewrite E; ring). specialize (B3 (or_introl E)). specialize (A3 (or_intror E')).
    rewrite Z.add_1_r, Z.even_succ, <- Z.negb_even, B3 in A3. discriminate.
Qed.

Lemma fixed_shown sep k x : shown_as k (Fin x) (fixed sep k x).
Proof.
  unfold shown_as. assert (Q := read_fixed sep k x). cbv zeta in Q. rewrite Q. clear Q.
  set (p := (10 ^ Z.of_nat k)%Z). destruct (qcltb x 0).
  - exists (- round_half_even (- x * qz p))%Z. split.
    + apply nearest_opp. replace (- (x * qz p))%Qc with (- x * qz p)%Qc by ring. apply nearest_round.
    + f_equal. rewrite qz_opp.
      unfold Qcdiv. ring.
  - eexists. split; [apply nearest_round|reflexivity].
Qed.
Lemma cell_shown sep k v : shown_as k v (cell_text sep k v).
Proof. destruct v; try reflexivity. apply fixed_shown. Qed.
Lemma cell_whole v : shown_whole v (cell_text true 0 v).
Proof.
  split; [apply cell_shown|]. intros x ->. cbn [cell_text]. unfold fixed, separated. cbn [Nat.eqb]. rewrite app_nil_r.
  eexists _, _. split; [reflexivity|]. split; [destruct (qcltb x 0); auto|]. split.
  - apply separate_grouped; [apply znat_ne|apply znat_digits].
  - apply separate_lead; [apply znat_ne|apply znat_lead].
Qed.
Lemma cell_plain k v : k <> 0 -> shown_plain k v (cell_text false k v).
Proof.
  intro K. split; [apply cell_shown|]. intros x ->. cbn [cell_text]. unfold fixed, plain. rewrite (proj2 (Nat.eqb_neq k 0) K).
  eexists _, _, _. split; [reflexivity|]. split; [destruct (qcltb x 0); auto|]. split; [apply znat_ne|]. split; [apply znat_digits|].
  split; [apply znat_lead|]. split; [apply decimals_digits|apply decimals_length].
Qed.
Lemma z_text_reads z : read_number (z_text z) = Some (qz z).
Proof.
  assert (G : forall z, (0 <= z)%Z -> exists c r, znat_text z = c :: r /\ Ascii.eqb c "-" = false /\
     filter (fun c => negb (Ascii.eqb c ",")) (znat_text z) = znat_text z /\ read_unsigned (znat_text z) = Some (qz z)).
  { intros w Hw. destruct (znat_text w) as [|c r] eqn:E; [exfalso; exact (znat_ne _ E)|]. exists c, r. split; auto.
    assert (Ad := znat_digits w). rewrite E in Ad. split; [apply digit_not; [apply Ad; left; auto|reflexivity]|].
    split; [apply filter_digits; auto|]. assert (Q := read_fixed_pos 0 w Hw). cbn [Nat.eqb] in Q.
    change (10 ^ Z.of_nat 0)%Z with 1%Z in Q. rewrite Z.div_1_r, app_nil_r, E in Q. rewrite Q. f_equal. rewrite qz_1. field. discriminate. }
  unfold z_text, read_number. destruct (Z.ltb_spec z 0) as [L|L].
  - destruct (G (- z)%Z ltac:(lia)) as (c & r & E & N & F & Rd). cbn [filter]. change (negb (Ascii.eqb "-" ",")) with true. cbv iota.
    rewrite F. change (Ascii.eqb "-" "-") with true. cbv iota. rewrite Rd. cbn [option_map]. f_equal.
    rewrite qz_opp. ring.
  - destruct (G z L) as (c & r & E & N & F & Rd). rewrite F, E in *. rewrite N. exact Rd.
Qed.

Lemma z_text_label z : shown_label z (z_text z).
Proof.
  split; [apply z_text_reads|]. unfold z_text. destruct (z <? 0)%Z.
  - exists ["-"%char], (znat_text (- z)). split; [reflexivity|]. split; auto. split; [apply znat_digits|apply znat_lead].
  - exists [], (znat_text z). split; [reflexivity|]. split; auto. split; [apply znat_digits|apply znat_lead].
Qed.

(** ** Tables *)
Lemma c81_triangle m : nrows m = List.length (m_cells m) ->
  Forall2 shown_label (m_cols m) (fst (triangle_text m)) /\
  Forall2 (fun o txt => shown_label o (fst txt)) (m_idx m) (snd (triangle_text m)) /\
  Forall2 (fun row txt => Forall2 shown_whole row (snd txt)) (m_cells m) (snd (triangle_text m)).
Proof.
  intro L. unfold triangle_text. cbn [fst snd]. split; [induction (m_cols m); constructor; auto using z_text_label|]. split.
  - unfold nrows in L. revert L. generalize (m_cells m). induction (m_idx m) as [|o l IH]; intros [|c cs] H; try discriminate; constructor.
    + apply z_text_label.
    + apply IH. simpl in H. lia.
  - unfold nrows in L. revert L. generalize (m_idx m). induction (m_cells m) as [|c cs IH]; intros [|o l] H; try discriminate; constructor.
    + cbn [snd]. clear. induction c; constructor; auto using cell_whole.
    + apply IH. simpl in H. lia.
Qed.

Lemma c81_summary r : exists body tot, summary_text r = body ++ [tot] /\ Forall2 row_shown (c_rows r) body /\
  fst tot = list_ascii_of_string "total" /\
  exists l u v, snd tot = [[]; list_ascii_of_string "NaN"; list_ascii_of_string "NaN"; l; u; v] /\
    shown_whole (fst (fst (c_total r))) l /\ shown_whole (snd (fst (c_total r))) u /\ shown_whole (snd (c_total r)) v.
Proof.
  unfold summary_text. eexists _, _. split; [reflexivity|]. split; [|split; [reflexivity|]].
  - induction (c_rows r) as [|w l IH]; constructor; auto. clear IH. split; [apply z_text_label|].
    eexists _, _, _, _, _, _. split; [reflexivity|]. split; [apply z_text_label|].
    do 2 (split; [apply cell_plain; discriminate|]). do 2 (split; [apply cell_whole|]). apply cell_whole.
  - eexists _, _, _. split; [reflexivity|]. repeat split; try apply cell_whole; apply cell_whole.
Qed.

(** ** The printed reserve *)
Lemma whole_reads x l : shown_whole (Fin x) l -> exists z, nearest x z /\ read_number l = Some (qz z).
Proof.
  intros [(z & N & Rd) _]. exists z. change (10 ^ Z.of_nat 0)%Z with 1%Z in *. rewrite qz_1 in *. split.
  - replace x with (x * 1)%Qc by ring. auto.
  - rewrite Rd. f_equal. field. discriminate.
Qed.
Lemma qz_inj' a b : qz a = qz b -> a = b.
Proof. intro H. apply Z.le_antisymm; apply (proj1 (qz_le _ _)); rewrite H; apply Qcle_refl. Qed.
Lemma balance l u a b c : nearest l a -> nearest u b -> nearest (u - l)%Qc c -> (Z.abs (c - (b - a)) <= 1)%Z.
Proof.
  intros (A1 & A2 & _) (B1 & B2 & _) (C1 & C2 & _). assert (Hh := half2).
  revert Hh A1 A2 B1 B2 C1 C2. generalize (1 / qz 2)%Qc. intros hf Hh A1 A2 B1 B2 C1 C2.
  assert (U : (qz (c - (b - a)) < qz 2)%Qc).
  { replace (c - (b - a))%Z with (c + a + - b)%Z by lia. rewrite !qz_add, qz_opp.
    replace (qz 2) with (hf + hf + (hf + hf))%Qc by (rewrite Hh; apply Qc_is_canon; reflexivity).
    assert (0 < 1)%Qc by reflexivity. rewrite <- Hh in H. qlra. }
  assert (L : (qz (- 2) < qz (c - (b - a)))%Qc).
  { replace (c - (b - a))%Z with (c + a + - b)%Z by lia. rewrite !qz_add, !qz_opp.
    replace (qz 2) with (hf + hf + (hf + hf))%Qc by (rewrite Hh; apply Qc_is_canon; reflexivity).
    assert (0 < 1)%Qc by reflexivity. rewrite <- Hh in H. qlra. }
  apply (proj1 (qz_lt _ _)) in U, L. lia.
Qed.
Lemma balance_whole l u a b c : nearest (qz l) a -> nearest u b -> nearest (u - qz l)%Qc c ->
  (forall z, u <> qz z + 1 / qz 2)%Qc -> c = (b - a)%Z.
Proof.
  intros A B Cc T.
  assert (Ea : a = l).
  { assert (Q := nearest_round (qz l)). rewrite (round_int []) in Q. exact (nearest_unique _ _ _ A Q). }
  subst a. eapply nearest_unique; [exact Cc|]. destruct B as (B1 & B2 & B3). split; [|split].
  - unfold Z.sub. rewrite qz_add, qz_opp. revert B1. generalize (1 / qz 2)%Qc. intros. qlra.
  - unfold Z.sub. rewrite qz_add, qz_opp. revert B2. generalize (1 / qz 2)%Qc. intros. qlra.
  - unfold Z.sub. rewrite qz_add, qz_opp. intro E. exfalso. destruct E as [E|E].
    + apply (T b). replace (qz b) with ((qz b + - qz l) + qz l)%Qc by ring. rewrite E. ring.
    + apply (T (b - 1)%Z). unfold Z.sub. rewrite qz_add, qz_opp, qz_1.
      replace (qz b) with ((qz b + - qz l) + qz l)%Qc by ring. rewrite E. assert (Hh := half2). revert Hh. generalize (1 / qz 2)%Qc. intros hf <-. ring.
Qed.

Lemma c81_balance gm t cl ind sel tail sel' r : base_cl gm t cl ind sel tail = (sel', Ok r) ->
  forall i row txt l u, nth_error (c_rows r) i = Some row -> nth_error (summary_text r) i = Some txt ->
  s_latest row = Fin l -> s_ultimate row = Fin u ->
  exists tl tu tr a b c, skipn 3 (snd txt) = [tl; tu; tr] /\
    read_number tl = Some (qz a) /\ read_number tu = Some (qz b) /\ read_number tr = Some (qz c) /\
    (Z.abs (c - (b - a)) <= 1)%Z /\
    ((exists z, l = qz z) -> (forall z, u <> qz z + 1 / qz 2)%Qc -> c = (b - a)%Z).
Proof.
  intros B i row txt l u Hr Ht El Eu. destruct (c23_general _ _ _ _ _ _ _ _ B) as (_ & Rs & _).
  assert (Er := Rs row (nth_error_In _ _ Hr)). rewrite El, Eu in Er.
  unfold summary_text in Ht. rewrite nth_error_app1 in Ht by (rewrite map_length; apply nth_error_Some; congruence).
  rewrite (map_nth_error _ _ _ Hr) in Ht. injection Ht as <-. unfold srow_text. cbn [snd skipn].
  assert (W1 := cell_whole (s_latest row)). assert (W2 := cell_whole (s_ultimate row)). assert (W3 := cell_whole (s_reserve row)).
  rewrite El in *. rewrite Eu in *. 
  assert (Er' : s_reserve row = Fin (u - l)%Qc) by (rewrite Er; reflexivity). clear Er. rewrite Er' in *.
  destruct (whole_reads _ _ W1) as (a & Na & Ra). destruct (whole_reads _ _ W2) as (b & Nb & Rb). destruct (whole_reads _ _ W3) as (c & Nc & Rc).
  eexists _, _, _, a, b, c. split; [reflexivity|]. repeat (split; [eassumption|]). split.
  - eapply balance; eauto.
  - intros (z & ->) T. eapply balance_whole; eauto.
Qed.

(** ** The printed totals *)
Lemma nan_sum_fins l : (forall v, In v l -> exists q, v = Fin q) ->
  exists qs, l = map Fin qs /\ nan_sum l = Fin (qsum qs).
Proof.
  induction l as [|v l IH]; intro H.
  - exists []. split; reflexivity.
  - destruct (H v) as (q & ->); [left; auto|]. destruct IH as (qs & -> & E); [intros; apply H; right; auto|].
    exists (q :: qs). split; auto. cbn [nan_sum fold_right] in *. unfold nan_sum in *. cbn [fold_right isnan]. rewrite E. reflexivity.
Qed.
Lemma sum_near qs zs : Forall2 nearest qs zs ->
  (qsum qs - qz (Z.of_nat (List.length zs)) * (1 / qz 2) <= qz (zsum zs))%Qc /\
  (qz (zsum zs) <= qsum qs + qz (Z.of_nat (List.length zs)) * (1 / qz 2))%Qc.
Proof.
  induction 1 as [|q z qs zs N F IH].
  - cbn [qsum zsum fold_right List.length]. change (Z.of_nat 0) with 0%Z. rewrite qz_0. assert (E : (0 * (1 / qz 2) = 0)%Qc) by ring. rewrite E. split; [replace (0 - 0)%Qc with 0%Qc by ring|replace (0 + 0)%Qc with 0%Qc by ring]; apply Qcle_refl.
  - destruct N as (A & B & _). destruct IH as (Il & Iu). cbn [qsum zsum fold_right List.length]. fold (zsum zs).
    rewrite Nat2Z.inj_succ. unfold Z.succ. rewrite !qz_add, qz_1.
    revert A B Il Iu. generalize (1 / qz 2)%Qc (qz (Z.of_nat (List.length zs))) (qz (zsum zs)). intros hf nn sz A B Il Iu.
    split.
    + replace (q + qsum qs - (nn + 1) * hf)%Qc with ((q - hf) + (qsum qs - nn * hf))%Qc by ring. apply Qcplus_le_compat; auto.
    + replace (q + qsum qs + (nn + 1) * hf)%Qc with ((q + hf) + (qsum qs + nn * hf))%Qc by ring. apply Qcplus_le_compat; auto.
Qed.
Lemma total_near qs zs T : Forall2 nearest qs zs -> nearest (qsum qs) T ->
  (2 * Z.abs (T - zsum zs) <= Z.of_nat (List.length zs) + 1)%Z.
Proof.
  intros F (A & B & _). destruct (sum_near _ _ F) as (Il & Iu). assert (Hh := half2).
  revert Hh A B Il Iu. generalize (1 / qz 2)%Qc. intros hf Hh A B Il Iu.
  set (nn := Z.of_nat (List.length zs)) in *.
  assert (Two : (qz 2 = 1 + 1)%Qc) by (apply Qc_is_canon; reflexivity).
  assert (D2 : forall x, ((1 + 1) * (x * hf) = x)%Qc).
  { intro x. replace ((1 + 1) * (x * hf))%Qc with (x * (hf + hf))%Qc by ring. rewrite Hh. ring. }
  assert (U : (qz (2 * (T - zsum zs)) <= qz (nn + 1))%Qc).
  { rewrite qz_mul, Two. unfold Z.sub. rewrite !qz_add, qz_opp, qz_1. assert (Dn := D2 (qz nn)). qlra. }
  assert (L : (qz (- (nn + 1)) <= qz (2 * (T - zsum zs)))%Qc).
  { rewrite qz_mul, Two. unfold Z.sub. rewrite qz_opp, !qz_add, qz_opp, qz_1. assert (Dn := D2 (qz nn)). qlra. }
  apply (proj1 (qz_le _ _)) in U, L. lia.
Qed.
Lemma nearest_int z a : nearest (qz z) a -> a = z.
Proof. intro A. assert (Q := nearest_round (qz z)). rewrite (round_int []) in Q. exact (nearest_unique _ _ _ A Q). Qed.
Lemma total_whole qs zs T : Forall2 nearest qs zs -> nearest (qsum qs) T -> (forall q, In q qs -> exists z, q = qz z) -> T = zsum zs.
Proof.
  intros F N W. assert (E : qsum qs = qz (zsum zs)).
  { clear N. induction F as [|q z qs zs N F IH].
    - cbn. symmetry. apply qz_0.
    - cbn [qsum zsum fold_right]. fold (zsum zs). rewrite IH by (intros; apply W; right; auto).
      destruct (W q) as (w & ->); [left; auto|]. apply nearest_int in N. subst. rewrite qz_add. reflexivity. }
  rewrite E in N. apply nearest_int in N. auto.
Qed.

Lemma column_reads (f : srow -> val) rows : (forall row, In row rows -> exists q, f row = Fin q) ->
  exists qs zs, map f rows = map Fin qs /\ Forall2 nearest qs zs /\
    map (fun row => read_number (cell_text true 0 (f row))) rows = map (fun z => Some (qz z)) zs.
Proof.
  induction rows as [|row rows IH]; intro H.
  - exists [], []. repeat split; constructor.
  - destruct (H row) as (q & E); [left; auto|]. destruct IH as (qs & zs & E1 & F & E2); [intros; apply H; right; auto|].
    destruct (whole_reads q (cell_text true 0 (f row))) as (z & N & Rd); [rewrite <- E; apply cell_whole|].
    exists (q :: qs), (z :: zs). cbn [map]. rewrite E, E1, E2. rewrite E in Rd. rewrite Rd. repeat split; auto.
Qed.

Lemma c81_totals gm t cl ind sel tail sel' r : base_cl gm t cl ind sel tail = (sel', Ok r) ->
  forall k, k < 3 -> (forall row, In row (c_rows r) -> exists q, figure k row = Fin q) ->
  exists zs T, map (printed_figure k) (summary_text r) = map (fun z => Some (qz z)) (zs ++ [T]) /\
    (2 * Z.abs (T - zsum zs) <= Z.of_nat (List.length zs) + 1)%Z /\
    ((forall row, In row (c_rows r) -> exists z, figure k row = Fin (qz z)) -> T = zsum zs).
Proof.
  intros B k Hk Hf. destruct (c23_general _ _ _ _ _ _ _ _ B) as (_ & _ & Et).
  destruct (column_reads (figure k) (c_rows r) Hf) as (qs & zs & E1 & F & E2).
  destruct (nan_sum_fins (map (figure k) (c_rows r))) as (qs' & E3 & E4).
  { intros v Hv. apply in_map_iff in Hv as (row & <- & Hr). auto. }
  assert (qs' = qs). { rewrite E1 in E3. clear -E3. revert qs' E3. induction qs; destruct qs'; cbn; intro E; try discriminate; auto. injection E as <- E. f_equal. auto. } subst qs'.
  destruct (whole_reads (qsum qs) (cell_text true 0 (nan_sum (map (figure k) (c_rows r))))) as (T & NT & RT); [rewrite <- E4; apply cell_whole|].
  exists zs, T. split; [|split].
  - unfold summary_text. rewrite !map_app, map_map. f_equal.
    + rewrite <- E2. apply map_ext. intro row. destruct k as [|[|[|k]]]; [reflexivity..|lia].
    + cbn [map]. f_equal. rewrite <- RT. rewrite Et. cbn [fst snd]. destruct k as [|[|[|k]]]; [reflexivity..|lia].
  - eapply total_near; eauto.
  - intro W. eapply total_whole; eauto. intros q Hq.
    assert (Hi : In (Fin q) (map (figure k) (c_rows r))) by (rewrite E1; apply in_map; auto).
    apply in_map_iff in Hi as (row & E & Hr). destruct (W row Hr) as (z & Ez). exists z. congruence.
Qed.

(** ** Whole-number tables are determined by what is printed *)
Lemma head_not_num l x : separated l -> l <> list_ascii_of_string "NaN" /\ l <> list_ascii_of_string "inf" /\ (read_number l = Some x -> l <> list_ascii_of_string "-inf").
Proof.
  intros (s & g & -> & Hs & G & _).
  assert (D : exists c r, g = c :: r /\ digit_value c <> None).
  { clear Hs. induction G as [l A L|l d G IH A L].
    - destruct l as [|c r]; [simpl in L; lia|]. exists c, r. split; auto. apply A. left. auto.
    - destruct IH as (c & r & -> & H). exists c, (r ++ ","%char :: d). auto. }
  destruct D as (c & r & -> & H). destruct Hs as [-> | ->]; cbn; repeat split; intros; intro E; injection E; intros; subst; apply H; reflexivity.
Qed.
Lemma cell_text_inj v w : whole_cell v -> whole_cell w -> cell_text true 0 v = cell_text true 0 w -> v = w.
Proof.
  intros Hv Hw E.
  assert (K : forall z u, cell_text true 0 (Fin (qz z)) = cell_text true 0 u -> whole_cell u -> u = Fin (qz z)).
  { intros z u E0 Hu. destruct (cell_whole (Fin (qz z))) as [Rz Sz]. specialize (Sz _ eq_refl).
    destruct (whole_reads (qz z) _ (cell_whole (Fin (qz z)))) as (a & Na & Ra). apply nearest_int in Na. subst a.
    destruct (head_not_num _ (qz z) Sz) as (N1 & N2 & N3). specialize (N3 Ra).
    rewrite E0 in *. destruct Hu as [->|(b & ->)].
    - exfalso. apply N1. reflexivity.
    - destruct (whole_reads (qz b) _ (cell_whole (Fin (qz b)))) as (a & Na & Rb). apply nearest_int in Na. subst a. congruence. }
  destruct Hv as [->|(z & ->)].
  - destruct Hw as [->|(b & ->)]; auto. symmetry in E. apply K in E; [auto|left; auto].
  - symmetry. apply K; auto.
Qed.
Lemma c81_faithful m1 m2 : nrows m1 = List.length (m_cells m1) -> nrows m2 = List.length (m_cells m2) ->
  (forall row v, In row (m_cells m1) \/ In row (m_cells m2) -> In v row -> whole_cell v) ->
  triangle_text m1 = triangle_text m2 -> m1 = m2.
Proof.
  intros L1 L2 W E. unfold triangle_text in E. injection E as Ec Eb.
  assert (ZI : forall a b, z_text a = z_text b -> a = b).
  { intros a b H. apply qz_inj'. assert (A := z_text_reads a). rewrite H, z_text_reads in A. congruence. }
  assert (MI : forall l l', map z_text l = map z_text l' -> l = l').
  { induction l; destruct l'; cbn; intro H; try discriminate; auto. injection H as H1 H2. f_equal; auto. }
  assert (S1 : forall A B (x y : list A) (u w : list B), List.length x = List.length u -> List.length y = List.length w -> combine x u = combine y w -> x = y /\ u = w).
  { clear. induction x as [|a x IH]; intros [|b y] [|c u] [|d w] H1 H2 E; try discriminate; auto.
    injection E as -> -> E. destruct (IH y u w) as (-> & ->); auto. }
  unfold nrows in L1, L2. apply S1 in Eb as (Ei & Ex); rewrite ?map_length; auto.
  destruct m1 as [i1 c1 x1], m2 as [i2 c2 x2]. cbn in *. apply MI in Ec, Ei. subst. f_equal.
  assert (RI : forall l l', (forall v, In v l \/ In v l' -> whole_cell v) -> map (cell_text true 0) l = map (cell_text true 0) l' -> l = l').
  { clear. induction l; destruct l'; cbn; intros H E; try discriminate; auto. injection E as E1 E2.
    f_equal; [apply cell_text_inj; auto|apply IHl; auto]. intros y [Hv|Hv]; apply H; auto. }
  clear L1 L2. revert x2 W Ex. induction x1; destruct x2; cbn; intros W E; try discriminate; auto. injection E as E1 E2. f_equal.
  - apply RI; auto. intros y [Hv|Hv]; [apply (W a)|apply (W l)]; auto.
  - apply IHx1; auto. intros row y [Hr|Hr] Hv; apply (W row); auto.
Qed.
