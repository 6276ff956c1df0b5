(** Facts about [Quant.v]. *)

From Coq Require Import String QArith Qcanon Qround ZArith List Bool Ascii Lia Lqa Sorting.Sorted Permutation DecimalString DecimalNat.
From Verif Require Import Val QcLib Frame Triangle A2A Base Boot Quant ListLib SpecQuant.
Import ListNotations.
Open Scope list_scope.
Open Scope nat_scope.

(** ** Order on [Qc] *)
Lemma qcmp_eq x y : Qccompare x y = Eq <-> x = y.
Proof. symmetry. apply Qceq_alt. Qed.
Lemma qcmp_opp x y : Qccompare y x = CompOpp (Qccompare x y).
Proof. unfold Qccompare. symmetry. apply Qcompare_antisym. Qed.
Lemma qcmp_lt x y : Qccompare x y = Lt <-> (x < y)%Qc.
Proof. symmetry. apply Qclt_alt. Qed.
Lemma qcmp_trans x y z : Qccompare x y = Lt -> Qccompare y z = Lt -> Qccompare x z = Lt.
Proof. rewrite !qcmp_lt. apply Qclt_trans. Qed.
Lemma qcmp_le x y : Qccompare x y <> Gt <-> (x <= y)%Qc.
Proof. symmetry. apply Qcle_alt. Qed.

Lemma ssorted_map {A} (R S : A -> A -> Prop) l : (forall a b, R a b -> S a b) ->
  StronglySorted R l -> StronglySorted S l.
Proof.
  intros H. induction 1; constructor; auto. eapply Forall_impl; [|eassumption]. auto.
Qed.
Lemma sort_unique_eq l : sort_unique l = uniq Qccompare l.
Proof.
  unfold sort_unique. apply ssort_id. apply (ssorted_map (slt Qccompare)).
  - unfold slt. intros a b H E. rewrite H in E. discriminate E.
  - apply uniq_sorted; eauto using qcmp_eq, qcmp_opp, qcmp_trans.
Qed.
Lemma sort_unique_in x l : In x (sort_unique l) <-> In x l.
Proof. rewrite sort_unique_eq. apply uniq_in. apply qcmp_eq. Qed.
Lemma sort_unique_sorted l : StronglySorted Qclt (sort_unique l).
Proof.
  rewrite sort_unique_eq. apply (ssorted_map (slt Qccompare)).
  - intros a b H. apply qcmp_lt. exact H.
  - apply uniq_sorted; eauto using qcmp_eq, qcmp_opp, qcmp_trans.
Qed.
Lemma sorted_nodup l : StronglySorted Qclt l -> NoDup l.
Proof.
  induction 1 as [|a l Hl IH Ha]; constructor; auto. intros Hin. rewrite Forall_forall in Ha.
  specialize (Ha a Hin). revert Ha. apply Qclt_not_eq_refl || (intro E; apply (Qclt_not_le _ _ E); apply Qcle_refl).
Qed.

(** ** C35 *)
Lemma unit_b v : vleb v (Fin 1%Qc) && vleb (Fin 0%Qc) v = true <-> in_unit v.
Proof.
  unfold in_unit. destruct v as [| | |x]; simpl; try (split; [discriminate|intros [x [H _]]; discriminate H]).
  rewrite andb_true_iff, !qcleb_le. split.
  - intros [H1 H2]. exists x. auto.
  - intros [y [E [H1 H2]]]. injection E as <-. auto.
Qed.
Lemma unit_all_true q : unit_all q = true <-> forall v, In v q -> in_unit v.
Proof.
  unfold unit_all. rewrite forallb_forall. split; intros H v Hv; apply unit_b; auto.
Qed.
Lemma unit_all_false q : unit_all q = false -> exists v, In v q /\ ~ in_unit v.
Proof.
  unfold unit_all. induction q as [|v q IH]; cbn [forallb]; [discriminate|]. intros H.
  apply andb_false_iff in H. destruct H as [H|H].
  - exists v. split; [left; reflexivity|]. intros Hu. apply unit_b in Hu. rewrite Hu in H. discriminate H.
  - destruct (IH H) as [w [Hw Hn]]. exists w. split; [right|]; assumption.
Qed.
Lemma finite_unit q : (forall v, In v q -> in_unit v) ->
  exists xs, finite q = Some xs /\ q = map Fin xs.
Proof.
  induction q as [|v q IH]; intros H; [exists []; auto|].
  destruct (H v (or_introl eq_refl)) as [x [-> _]].
  destruct IH as [xs [E ->]]; [intros; apply H; right; assumption|]. exists (x :: xs). simpl. rewrite E. auto.
Qed.
Lemma in_map_fin x xs : In (Fin x) (map Fin xs) <-> In x xs.
Proof.
  rewrite in_map_iff. split; [intros [y [E H]]; injection E as <-; exact H|]. intros H. exists x. auto.
Qed.

Lemma half_unit r : (0 <= r <= 1)%Qc -> (0 <= (1 - r) / qz 2 <= 1)%Qc /\ (0 <= (1 + r) / qz 2 <= 1)%Qc.
Proof.
  intros [H1 H2].
  assert (E1 : ((1 - r) / qz 2 = (1 - r) * (1 / qz 2))%Qc) by (field; discriminate).
  assert (E3 : ((1 + r) / qz 2 = (1 + r) * (1 / qz 2))%Qc) by (field; discriminate).
  assert (Hh : ((1 / qz 2) + (1 / qz 2) = 1)%Qc) by (apply Qc_is_canon; reflexivity).
  rewrite E1, E3. revert Hh. generalize (1 / qz 2)%Qc. intros hf Hh.
  assert (Hp : (0 <= hf)%Qc) by qlra.
  repeat split; qnra.
Qed.

Lemma c35 q two :
  match qtls_formatter q two with
  | Ok (qs, hs) =>
      (forall v, In v q -> in_unit v) /\ StronglySorted Qclt qs /\
      (forall x, In x qs <-> wanted q two x) /\ (forall x, In x qs -> (0 <= x <= 1)%Qc) /\
      List.length hs = List.length qs
  | Err e => e = ValueError /\ exists v, In v q /\ ~ in_unit v
  end.
Proof.
  unfold qtls_formatter. destruct (unit_all q) eqn:E.
  - pose proof (proj1 (unit_all_true q) E) as Hu. destruct (finite_unit q Hu) as [xs [Ef ->]]. rewrite Ef.
    assert (Hx : forall x, In x xs -> (0 <= x <= 1)%Qc).
    { intros x Hx. destruct (Hu (Fin x)) as [y [Ey Hy]]; [apply in_map; exact Hx|]. injection Ey as ->. exact Hy. }
    assert (Hs : forall x, In x (if two then sort_unique (map (fun x => (1 - x) / qz 2)%Qc xs ++ map (fun x => (1 + x) / qz 2)%Qc xs) else sort_unique xs) <-> wanted (map Fin xs) two x).
    { intros x. unfold wanted. destruct two; rewrite sort_unique_in.
      - rewrite in_app_iff, !in_map_iff. split.
        + intros [[r [<- Hr]]|[r [<- Hr]]]; exists r; rewrite in_map_fin; auto.
        + intros [r [Hr [->| ->]]]; rewrite in_map_fin in Hr; [left|right]; exists r; auto.
      - rewrite in_map_fin. reflexivity. }
    split; [exact Hu|]. split; [destruct two; apply sort_unique_sorted|]. split; [exact Hs|].
    split; [|rewrite map_length; reflexivity].
    intros x Hin. apply Hs in Hin. unfold wanted in Hin. destruct two.
    + destruct Hin as [r [Hr Hc]]. rewrite in_map_fin in Hr. destruct (half_unit r (Hx r Hr)).
      destruct Hc as [-> | ->]; assumption.
    + rewrite in_map_fin in Hin. auto.
  - split; [reflexivity|]. apply unit_all_false. exact E.
Qed.
Lemma c35_result q :
  match result_formatter q with
  | Ok (qs, hs) =>
      (forall v, In v q -> in_unit v) /\ StronglySorted Qclt qs /\
      (forall x, In x qs <-> In (Fin x) q) /\ (forall x, In x qs -> (0 <= x <= 1)%Qc) /\
      List.length hs = List.length qs
  | Err e => e = ValueError /\ exists v, In v q /\ ~ in_unit v
  end.
Proof.
  pose proof (c35 q false) as H. unfold qtls_formatter, result_formatter in *.
  destruct (unit_all q); [|exact H]. destruct (finite q); [|exact H].
  rewrite map_length in *. exact H.
Qed.
Lemma bad_result q : (exists v, In v q /\ ~ in_unit v) -> result_formatter q = Err ValueError.
Proof.
  intros [v [Hv Hn]]. unfold result_formatter. destruct (unit_all q) eqn:E; [|reflexivity].
  exfalso. apply Hn. exact (proj1 (unit_all_true q) E v Hv).
Qed.
Lemma bad_estimator q two : (exists v, In v q /\ ~ in_unit v) -> qtls_formatter q two = Err ValueError.
Proof.
  intros [v [Hv Hn]]. unfold qtls_formatter. destruct (unit_all q) eqn:E; [|reflexivity].
  exfalso. apply Hn. exact (proj1 (unit_all_true q) E v Hv).
Qed.

(** ** Rounding *)
Lemma floor_spec (x : Qc) : (qz (Qfloor x) <= x)%Qc /\ (x < qz (Qfloor x + 1))%Qc.
Proof.
  split.
  - unfold Qcle. rewrite this_qz. apply Qfloor_le.
  - unfold Qclt. rewrite this_qz. apply Qlt_floor.
Qed.
Lemma round_near x : (x - 1 / qz 2 <= qz (round_half_even x) <= x + 1 / qz 2)%Qc.
Proof.
  destruct (floor_spec x) as [H1 H2]. unfold round_half_even. rewrite qz_add, qz_1 in H2.
  assert (Hh : ((1 / qz 2) + (1 / qz 2) = 1)%Qc) by (apply Qc_is_canon; reflexivity).
  revert Hh. generalize (1 / qz 2)%Qc. intros hf Hh.
  destruct (qcltb_spec (x - qz (Qfloor x)) hf) as [A|A].
  - split; qlra.
  - destruct (qcltb_spec hf (x - qz (Qfloor x))) as [B|B].
    + rewrite qz_add, qz_1. split; qlra.
    + apply Qcnot_lt_le in A, B. destruct (Z.even _); rewrite ?qz_add, ?qz_1; split; qlra.
Qed.
Lemma round_far x y : (x + 1 < y)%Qc -> round_half_even x <> round_half_even y.
Proof.
  intros H E. destruct (round_near x) as [A B]. destruct (round_near y) as [C D]. rewrite E in *.
  assert (Hh : ((1 / qz 2) + (1 / qz 2) = 1)%Qc) by (apply Qc_is_canon; reflexivity).
  revert Hh A B C D. generalize (1 / qz 2)%Qc. intros hf Hh A B C D. revert H. apply Qcle_not_lt. qlra.
Qed.
Lemma round_nonneg x : (0 <= x)%Qc -> (0 <= round_half_even x)%Z.
Proof.
  intros H. destruct (floor_spec x) as [_ H2].
  assert (0 <= Qfloor x)%Z.
  { assert (0 < qz (Qfloor x + 1))%Qc by (eapply Qcle_lt_trans; eassumption).
    rewrite <- qz_0 in H0. apply (proj1 (qz_lt _ _)) in H0. lia. }
  unfold round_half_even. destruct (qcltb _ _); [lia|]. destruct (qcltb _ _); [lia|].
  destruct (Z.even _); lia.
Qed.

(** ** Headers *)
Lemma lstrip_split c l : exists n, l = repeat c n ++ lstrip_char c l.
Proof.
  induction l as [|x l [n IH]]; [exists 0; reflexivity|]. simpl. destruct (Ascii.eqb x c) eqn:E.
  - apply Ascii.eqb_eq in E. subst x. exists (S n). simpl. f_equal. exact IH.
  - exists 0. reflexivity.
Qed.
Lemma rstrip_split c l : exists n, l = rstrip_char c l ++ repeat c n.
Proof.
  destruct (lstrip_split c (rev l)) as [n E]. exists n. unfold rstrip_char.
  rewrite <- (rev_involutive l) at 1. rewrite E at 1. rewrite rev_app_distr. f_equal.
  clear. induction n as [|n IH]; [reflexivity|]. simpl. rewrite IH.
  clear. induction n as [|n IH]; [reflexivity|]. simpl. rewrite IH. reflexivity.
Qed.
Lemma lstrip_stop c l x r : x <> c -> lstrip_char c (l ++ x :: r) = lstrip_char c l ++ x :: r.
Proof.
  intros H. induction l as [|y l IH]; simpl.
  - destruct (Ascii.eqb x c) eqn:E; [apply Ascii.eqb_eq in E; contradiction|reflexivity].
  - destruct (Ascii.eqb y c); [exact IH|reflexivity].
Qed.
Lemma rstrip_stop c a x l : x <> c -> rstrip_char c (a ++ x :: l) = a ++ x :: rstrip_char c l.
Proof.
  intros H. unfold rstrip_char. rewrite rev_app_distr. simpl. rewrite <- app_assoc. simpl.
  rewrite lstrip_stop by exact H. rewrite rev_app_distr. simpl. rewrite rev_involutive, <- app_assoc. reflexivity.
Qed.
Lemma rstrip_id c l : last l c <> c -> rstrip_char c l = l.
Proof.
  intros H. destruct l as [|x l] using rev_ind; [exfalso; apply H; reflexivity|].
  rewrite last_last in H. change [x] with (x :: []). rewrite rstrip_stop by exact H. reflexivity.
Qed.
Lemma rstrip_same c l1 l2 : List.length l1 = List.length l2 ->
  rstrip_char c l1 = rstrip_char c l2 -> l1 = l2.
Proof.
  intros HL E. destruct (rstrip_split c l1) as [n1 E1]. destruct (rstrip_split c l2) as [n2 E2].
  rewrite E1, E2 in HL. rewrite !app_length, !repeat_length, E in HL.
  rewrite E1, E2, E. f_equal. f_equal. lia.
Qed.
Lemma rstrip_last c l : rstrip_char c l <> [] -> last (rstrip_char c l) c <> c.
Proof.
  unfold rstrip_char. induction (rev l) as [|x r IH]; simpl; [congruence|].
  destruct (Ascii.eqb x c) eqn:E; [exact IH|]. intros _. simpl. rewrite last_last.
  apply Ascii.eqb_neq. exact E.
Qed.
Lemma rstrip_in c l x : In x (rstrip_char c l) -> In x l.
Proof. intros H. destruct (rstrip_split c l) as [n E]. rewrite E. apply in_or_app. left. exact H. Qed.

(** What is left of "a.f" after stripping zeros and then dots. *)
Lemma strip_form a f : ~ In "."%char f ->
  rstrip_char "." (rstrip_char "0" (a ++ "."%char :: f)) =
  match rstrip_char "0" f with
  | [] => rstrip_char "." a
  | g => a ++ "."%char :: g
  end.
Proof.
  intros Hf. rewrite rstrip_stop by discriminate.
  destruct (rstrip_char "0" f) as [|y g] eqn:E.
  - change (a ++ ["."%char]) with (a ++ ["."%char]).
    unfold rstrip_char. rewrite rev_app_distr. reflexivity.
  - apply rstrip_id. assert (Hin : forall z, In z (y :: g) -> z <> "."%char).
    { intros z Hz ->. apply Hf. apply (rstrip_in "0"). rewrite E. exact Hz. }
    change (a ++ "."%char :: y :: g) with (a ++ ["."%char] ++ (y :: g)). rewrite app_assoc.
    destruct (exists_last (l := y :: g)) as [l [z Ez]]; [discriminate|]. rewrite Ez, app_assoc, last_last.
    apply Hin. rewrite Ez. apply in_or_app. right. left. reflexivity.
Qed.

Lemma uint_no_dot d : ~ In "."%char (list_ascii_of_string (NilEmpty.string_of_uint d)).
Proof. induction d; simpl; intros H; [exact H|destruct H as [H|H]; [discriminate H|auto]..]. Qed.
Lemma str_nat_inj a b : str_nat a = str_nat b -> a = b.
Proof.
  unfold str_nat. intros H. apply (f_equal NilEmpty.uint_of_string) in H. rewrite !NilEmpty.usu in H.
  injection H as H. apply (f_equal Nat.of_uint) in H. rewrite !Unsigned.of_to in H. exact H.
Qed.
Lemma str_nat_asc_inj a b : list_ascii_of_string (str_nat a) = list_ascii_of_string (str_nat b) -> a = b.
Proof.
  intros H. apply (f_equal string_of_list_ascii) in H. rewrite !string_of_list_ascii_of_string in H.
  apply str_nat_inj. exact H.
Qed.
Lemma digit_inj a b : (0 <= a < 10)%Z -> (0 <= b < 10)%Z -> digit a = digit b -> a = b.
Proof.
  intros Ha Hb H. unfold digit in H. apply (f_equal nat_of_ascii) in H.
  rewrite !nat_ascii_embedding in H by lia. lia.
Qed.
Lemma digit_not_dot a : (0 <= a < 10)%Z -> digit a <> "."%char.
Proof.
  intros Ha H. unfold digit in H. apply (f_equal nat_of_ascii) in H.
  rewrite !nat_ascii_embedding in H by lia. change (nat_of_ascii ".") with 46 in H. lia.
Qed.
Lemma decimals5_no_dot n : ~ In "."%char (decimals5 n).
Proof.
  unfold decimals5. simpl. intros H.
  repeat (destruct H as [H|H]; [revert H; apply digit_not_dot; apply Z.mod_pos_bound; lia|]). exact H.
Qed.
Lemma div_step n m p : (0 < p)%Z -> (n / (p * 10) = m / (p * 10) -> (n / p) mod 10 = (m / p) mod 10 -> n / p = m / p)%Z.
Proof.
  intros Hp H1 H2. rewrite <- !Z.div_div in H1 by lia.
  rewrite (Z.div_mod (n / p) 10), (Z.div_mod (m / p) 10), H1, H2 by lia. reflexivity.
Qed.
Lemma decimals5_inj n m : (n / 100000 = m / 100000)%Z -> decimals5 n = decimals5 m -> n = m.
Proof.
  intros H0 H. unfold decimals5 in H. simpl in H.
  injection H as H1 H2 H3 H4 H5.
  apply digit_inj in H1, H2, H3, H4, H5; try (apply Z.mod_pos_bound; lia).
  apply (div_step n m 10000) in H1; [|lia|exact H0]. apply (div_step n m 1000) in H2; [|lia|exact H1].
  apply (div_step n m 100) in H3; [|lia|exact H2]. apply (div_step n m 10) in H4; [|lia|exact H3].
  apply (div_step n m 1) in H5; [|lia|exact H4]. rewrite !Z.div_1_r in H5. exact H5.
Qed.

Lemma split_dot a b f g : ~ In "."%char a -> ~ In "."%char b ->
  a ++ "."%char :: f = b ++ "."%char :: g -> a = b /\ f = g.
Proof.
  revert b. induction a as [|x a IH]; intros [|y b] Ha Hb H; simpl in H.
  - injection H as H. auto.
  - injection H as H1 H2. exfalso. apply Hb. left. symmetry. exact H1.
  - injection H as H1 H2. exfalso. apply Ha. left. exact H1.
  - injection H as H1 H2. destruct (IH b) as [E1 E2]; auto.
    + intros Hi. apply Ha. right. exact Hi.
    + intros Hi. apply Hb. right. exact Hi.
    + subst. auto.
Qed.
Lemma rstrip_none c a : ~ In c a -> rstrip_char c a = a.
Proof.
  intros H. destruct a as [|x a] using rev_ind; [reflexivity|].
  change [x] with (x :: []). rewrite rstrip_stop; [reflexivity|]. intros ->. apply H.
  apply in_or_app. right. left. reflexivity.
Qed.

Lemma format_strip_inj n m : (0 <= n)%Z -> (0 <= m)%Z ->
  rstrip_char "." (rstrip_char "0" (format5 n)) = rstrip_char "." (rstrip_char "0" (format5 m)) -> n = m.
Proof.
  intros Hn Hm. unfold format5. simpl (["."%char] ++ _).
  rewrite !strip_form by apply decimals5_no_dot.
  rewrite !(rstrip_none ".") by apply uint_no_dot.
  assert (HL : List.length (decimals5 n) = List.length (decimals5 m)) by reflexivity.
  assert (P0 : (0 <= n / 100000)%Z) by (apply Z.div_pos; lia).
  assert (P1 : (0 <= m / 100000)%Z) by (apply Z.div_pos; lia).
  pose proof (uint_no_dot (Nat.to_uint (Z.to_nat (n / 100000)))) as D1.
  pose proof (uint_no_dot (Nat.to_uint (Z.to_nat (m / 100000)))) as D2.
  fold (str_nat (Z.to_nat (n / 100000))) in D1. fold (str_nat (Z.to_nat (m / 100000))) in D2.
  destruct (rstrip_char "0" (decimals5 n)) as [|y g] eqn:E1;
    destruct (rstrip_char "0" (decimals5 m)) as [|z h] eqn:E2; intros H.
  - apply str_nat_asc_inj in H. apply decimals5_inj; [lia|]. apply (rstrip_same "0"); congruence.
  - exfalso. apply D1. rewrite H. apply in_or_app. right. left. reflexivity.
  - exfalso. apply D2. rewrite <- H. apply in_or_app. right. left. reflexivity.
  - apply split_dot in H; [|assumption..]. destruct H as [H1 H2].
    apply str_nat_asc_inj in H1. apply decimals5_inj; [lia|]. apply (rstrip_same "0"); congruence.
Qed.
Definition grain (x : Qc) : Z := round_half_even (x * qz 100 * qz 100000).
Lemma grain_nonneg x : (0 <= x)%Qc -> (0 <= grain x)%Z.
Proof.
  intros H. apply round_nonneg. assert (0 <= qz 100)%Qc by (vm_compute; discriminate).
  assert (0 <= qz 100000)%Qc by (vm_compute; discriminate). qnra.
Qed.
Lemma pct_inj x y : (0 <= x)%Qc -> (0 <= y)%Qc -> pct x = pct y -> grain x = grain y.
Proof. intros Hx Hy H. apply format_strip_inj; auto using grain_nonneg. Qed.
Lemma pct_ext x y : grain x = grain y -> pct x = pct y.
Proof. unfold pct, grain. intros ->. reflexivity. Qed.

Lemma app_inj_len {A} (a b s t : list A) : List.length s = List.length t -> a ++ s = b ++ t -> a = b.
Proof.
  revert b. induction a as [|x a IH]; intros [|y b] HL H; simpl in H; auto.
  - apply (f_equal (@List.length _)) in H. simpl in H. rewrite app_length in H. lia.
  - apply (f_equal (@List.length _)) in H. simpl in H. rewrite app_length in H. lia.
  - injection H as -> H. f_equal. eauto.
Qed.
Lemma dsuffix_len c : List.length (dsuffix c) = 2.
Proof. unfold dsuffix. destruct (Ascii.eqb c "1"), (Ascii.eqb c "2"), (Ascii.eqb c "3"); reflexivity. Qed.
Lemma ordinal_form l : exists s, List.length s = 2 /\ ordinal l = l ++ s.
Proof.
  unfold ordinal. destruct (existsb _ l); eexists; (split; [|reflexivity]); [reflexivity|apply dsuffix_len].
Qed.
Lemma string_asc_inj a b : string_of_list_ascii a = string_of_list_ascii b -> a = b.
Proof.
  intros H. apply (f_equal list_ascii_of_string) in H. rewrite !list_ascii_of_string_of_list_ascii in H. exact H.
Qed.
(** Headers coincide exactly for quantiles that agree to seven decimals. *)
Definition pcthdr (x : Qc) : string := string_of_list_ascii (pct x ++ ["%"%char]).
Definition ordhdr (x : Qc) : string := string_of_list_ascii (ordinal (pct x)).
Lemma pcthdr_iff x y : (0 <= x)%Qc -> (0 <= y)%Qc -> (pcthdr x = pcthdr y <-> grain x = grain y).
Proof.
  intros Hx Hy. split.
  - intros H. apply string_asc_inj in H. apply app_inj_len in H; auto using pct_inj.
  - intros H. unfold pcthdr. rewrite (pct_ext x y H). reflexivity.
Qed.
Lemma ordhdr_iff x y : (0 <= x)%Qc -> (0 <= y)%Qc -> (ordhdr x = ordhdr y <-> grain x = grain y).
Proof.
  intros Hx Hy. split.
  - intros H. apply string_asc_inj in H.
    destruct (ordinal_form (pct x)) as [s [Ls Es]]. destruct (ordinal_form (pct y)) as [t [Lt Et]].
    rewrite Es, Et in H. apply app_inj_len in H; [|congruence]. auto using pct_inj.
  - intros H. unfold ordhdr. rewrite (pct_ext x y H). reflexivity.
Qed.
Lemma grain_far x y : (x + 1 / qz 10000000 < y)%Qc -> grain x <> grain y.
Proof.
  intros H. unfold grain. apply round_far.
  assert (E : (qz 100 * qz 100000 = qz 10000000)%Qc) by (apply Qc_is_canon; reflexivity).
  assert (Hp : (0 < qz 10000000)%Qc) by (vm_compute; reflexivity).
  assert (E1 : ((1 / qz 10000000) * qz 10000000 = 1)%Qc) by (field; discriminate).
  rewrite <- !Qcmult_assoc, E.
  apply (Qcmult_lt_compat_r _ _ (qz 10000000)) in H; [|exact Hp].
  rewrite Qcmult_plus_distr_l, E1 in H. exact H.
Qed.

(** ** Columns *)
Lemma dict_set_new {A} (d : list (string * A)) k v : ~ In k (map fst d) -> dict_set d k v = d ++ [(k, v)].
Proof.
  induction d as [|[a b] d IH]; simpl; intros H; [reflexivity|].
  destruct (String.eqb_spec a k); [exfalso; apply H; left; assumption|].
  f_equal. apply IH. tauto.
Qed.
Lemma dict_fold {A} (ps d : list (string * A)) : NoDup (map fst d ++ map fst ps) ->
  fold_left (fun d p => dict_set d (fst p) (snd p)) ps d = d ++ ps.
Proof.
  revert d. induction ps as [|[k v] ps IH]; intros d H; simpl in *; [rewrite app_nil_r; reflexivity|].
  rewrite dict_set_new.
  - rewrite IH; [rewrite <- app_assoc; reflexivity|].
    rewrite map_app. simpl. rewrite <- app_assoc. exact H.
  - apply NoDup_remove_2 in H. intros Hi. apply H. apply in_or_app. left. exact Hi.
Qed.
Lemma columns_fold {A} (f : Qc -> A) qs hs :
  columns_of f qs hs = fold_left (fun d p => dict_set d (fst p) (snd p)) (combine hs (map f qs)) [].
Proof.
  unfold columns_of. generalize (@nil (string * A)). revert hs.
  induction qs as [|x qs IH]; intros [|h hs] d; simpl; auto.
Qed.
Lemma map_fst_combine {A B} (a : list A) (b : list B) : List.length a = List.length b -> map fst (combine a b) = a.
Proof. revert b. induction a as [|x a IH]; intros [|y b] H; simpl in *; try discriminate; auto. f_equal. auto. Qed.
Lemma map_snd_combine {A B} (a : list A) (b : list B) : List.length a = List.length b -> map snd (combine a b) = b.
Proof. revert b. induction a as [|x a IH]; intros [|y b] H; simpl in *; try discriminate; auto. f_equal. auto. Qed.
Lemma dict_cols {A} (hs : list string) (cols : list A) : NoDup hs -> List.length hs = List.length cols ->
  fold_left (fun d p => dict_set d (fst p) (snd p)) (combine hs cols) [] = combine hs cols.
Proof. intros H HL. rewrite dict_fold; [reflexivity|]. simpl. rewrite map_fst_combine; auto. Qed.

Lemma nodup_hdrs (h : Qc -> string) qs :
  (forall x y, In x qs -> In y qs -> h x = h y -> grain x = grain y) ->
  (forall x y, In x qs -> In y qs -> (x < y)%Qc -> (x + 1 / qz 10000000 < y)%Qc) ->
  StronglySorted Qclt qs -> NoDup (map h qs).
Proof.
  intros Hh Hs. induction 1 as [|x l Hl IH Hx]; simpl; constructor.
  - rewrite in_map_iff. intros [y [E Hy]]. rewrite Forall_forall in Hx. specialize (Hx y Hy).
    apply (grain_far x y).
    + apply Hs; [left; reflexivity|right; exact Hy|exact Hx].
    + symmetry. apply Hh; [right; exact Hy|left; reflexivity|exact E].
  - apply IH; intros; [apply Hh|apply Hs]; auto; right; assumption.
Qed.
