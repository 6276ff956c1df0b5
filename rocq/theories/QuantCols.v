(** Quantile tables for arbitrary requests (C36). *)

From Coq Require Import String QArith Qcanon Qround ZArith List Bool Ascii Lia Sorting.Sorted Permutation DecimalString DecimalNat.
From Verif Require Import Val QcLib Frame Triangle A2A Base Boot Quant SpecQuant SpecCols ListLib RegFacts QuantFacts QuantClaims.
Import ListNotations.
Open Scope list_scope.
Open Scope nat_scope.

(** ** Columns replaced by later ones *)
Fixpoint keep (h : Qc -> string) (l : list Qc) : list Qc :=
  match l with
  | [] => []
  | x :: r => if existsb (fun y => String.eqb (h y) (h x)) r then keep h r else x :: keep h r
  end.
Lemma keep_in h l x : In x (keep h l) -> In x l.
Proof. induction l as [|a l IH]; simpl; [auto|]. destruct (existsb _ l); simpl; tauto. Qed.
Lemma keep_sorted h l : StronglySorted Qclt l -> StronglySorted Qclt (keep h l).
Proof.
  induction 1 as [|a l Hl IH Ha]; simpl; [constructor|]. destruct (existsb _ l); [exact IH|]. constructor; [exact IH|].
  rewrite Forall_forall in *. intros y Hy. apply Ha. eapply keep_in; eauto.
Qed.
Lemma keep_spec h l : StronglySorted Qclt l ->
  forall x, In x (keep h l) <-> In x l /\ forall y, In y l -> (x < y)%Qc -> h y <> h x.
Proof.
  induction 1 as [|a l Hl IH Ha]; intros x; simpl; [tauto|]. rewrite Forall_forall in Ha.
  assert (E : existsb (fun y => String.eqb (h y) (h a)) l = true <-> exists y, In y l /\ h y = h a).
  { rewrite existsb_exists. split; intros [y [Hy Hq]]; exists y; (split; [exact Hy|apply String.eqb_eq; exact Hq]). }
  assert (N : forall y, In y l -> (a < y)%Qc) by exact Ha.
  destruct (existsb _ l) eqn:Ex.
  - rewrite IH. destruct (proj1 E eq_refl) as [y [Hy Hh]]. split.
    + intros [Hx H]. split; [auto|]. intros z [<-|Hz] Hlt; [|auto].
      exfalso. specialize (N x Hx). eapply Qclt_not_le; [exact N|]. apply Qclt_le_weak. exact Hlt.
    + intros [[<-|Hx] H]; [|split; [exact Hx|intros z Hz; apply H; auto]].
      exfalso. apply (H y); auto.
  - assert (E' : forall y, In y l -> h y <> h a).
    { intros y Hy Hh. discriminate (proj2 E (ex_intro _ y (conj Hy Hh))). }
    simpl. rewrite IH. split.
    + intros [<-|[Hx H]].
      * split; [auto|]. intros z [<-|Hz] Hlt; [|auto]. exfalso. eapply Qclt_not_eq; [exact Hlt|reflexivity].
      * split; [auto|]. intros z [<-|Hz] Hlt; [|auto].
        exfalso. specialize (N x Hx). eapply Qclt_not_le; [exact N|]. apply Qclt_le_weak. exact Hlt.
    + intros [[<-|Hx] H]; [auto|]. right. split; [exact Hx|]. intros z Hz. apply H. auto.
Qed.
Lemma dict_set_last {A} (d : list (string * A)) k v w : ~ In k (map fst d) ->
  dict_set (d ++ [(k, v)]) k w = d ++ [(k, w)].
Proof.
  induction d as [|[a b] d IH]; simpl; intros H.
  - rewrite String.eqb_refl. reflexivity.
  - destruct (String.eqb_spec a k); [exfalso; apply H; left; assumption|]. f_equal. apply IH. tauto.
Qed.
Lemma fold_keep {A} (h : Qc -> string) (v : Qc -> A) l a d :
  StronglySorted Qclt (a :: l) ->
  (forall x y z, In x (a :: l) -> In y (a :: l) -> In z (a :: l) -> (x < y)%Qc -> (y < z)%Qc -> h x = h z -> h x = h y) ->
  (forall x, In x (a :: l) -> ~ In (h x) (map fst d)) ->
  fold_left (fun d x => dict_set d (h x) (v x)) l (d ++ [(h a, v a)])
  = d ++ map (fun x => (h x, v x)) (keep h (a :: l)).
Proof.
  revert a d. induction l as [|b l IH]; intros a d Hs Hc Hd; [reflexivity|].
  inversion Hs as [|? ? Hs' Ha]; subst. rewrite Forall_forall in Ha.
  inversion Hs' as [|? ? Hs'' Hb]; subst. rewrite Forall_forall in Hb.
  cbn [fold_left]. destruct (string_dec (h b) (h a)) as [E|E].
  - rewrite E, dict_set_last, <- E; [|apply Hd; left; reflexivity].
    rewrite (IH b d); [|exact Hs'|intros x y z Hx Hy Hz; apply Hc; right; assumption|intros x Hx; apply Hd; right; exact Hx].
    cbn [keep existsb]. rewrite E, String.eqb_refl. reflexivity.
  - assert (Hna : forall y, In y l -> h y <> h a).
    { intros y Hy Ey. apply E. symmetry. apply (Hc a b y); simpl; auto. apply Ha. left. reflexivity. }
    rewrite dict_set_new.
    + rewrite (IH b (d ++ [(h a, v a)])); [|exact Hs'|intros x y z Hx Hy Hz; apply Hc; right; assumption|].
      * rewrite <- app_assoc. simpl. f_equal.
        replace (String.eqb (h b) (h a)) with false by (symmetry; apply String.eqb_neq; exact E). simpl.
        replace (existsb (fun y => String.eqb (h y) (h a)) l) with false; [reflexivity|].
        symmetry. apply Bool.not_true_iff_false. rewrite existsb_exists. intros [y [Hy Ey]].
        apply String.eqb_eq in Ey. apply (Hna y Hy Ey).
      * intros x Hx. rewrite map_app, in_app_iff. simpl. intros [Hi|[Hi|[]]].
        -- apply (Hd x); [right; exact Hx|exact Hi].
        -- destruct Hx as [<-|Hx]; [apply E; symmetry; exact Hi|]. apply (Hna x Hx). symmetry. exact Hi.
    + rewrite map_app, in_app_iff. simpl. intros [Hi|[Hi|[]]].
      * apply (Hd b); [right; left; reflexivity|exact Hi].
      * apply E. symmetry. exact Hi.
Qed.
Lemma fold_keep0 {A} (h : Qc -> string) (v : Qc -> A) l :
  StronglySorted Qclt l ->
  (forall x y z, In x l -> In y l -> In z l -> (x < y)%Qc -> (y < z)%Qc -> h x = h z -> h x = h y) ->
  fold_left (fun d x => dict_set d (h x) (v x)) l [] = map (fun x => (h x, v x)) (keep h l).
Proof.
  destruct l as [|a l]; [reflexivity|]. intros Hs Hc. simpl (fold_left _ (a :: l) []).
  exact (fold_keep h v l a [] Hs Hc (fun _ _ H => H)).
Qed.
Lemma fold_combine {A} (h : Qc -> string) (v : Qc -> A) l d :
  fold_left (fun d p => dict_set d (fst p) (snd p)) (combine (map h l) (map v l)) d
  = fold_left (fun d x => dict_set d (h x) (v x)) l d.
Proof. revert d. induction l as [|x l IH]; intros d; simpl; auto. Qed.

Lemma grain_mono x y : (x <= y)%Qc -> (grain x <= grain y)%Z.
Proof.
  intros H. unfold grain. apply (round_mono []). apply Qcmult_le_compat_r; [|vm_compute; discriminate].
  apply Qcmult_le_compat_r; [exact H|vm_compute; discriminate].
Qed.
Lemma hdr_contig (h : Qc -> string) l :
  (forall x y, In x l -> In y l -> (h x = h y <-> grain x = grain y)) ->
  forall x y z, In x l -> In y l -> In z l -> (x < y)%Qc -> (y < z)%Qc -> h x = h z -> h x = h y.
Proof.
  intros Hh x y z Hx Hy Hz L1 L2 E. apply Hh in E; auto. apply Hh; auto.
  pose proof (grain_mono x y (Qclt_le_weak _ _ L1)). pose proof (grain_mono y z (Qclt_le_weak _ _ L2)). lia.
Qed.

Lemma shown_keep h q two qs : StronglySorted Qclt qs -> (forall x, In x qs <-> wanted q two x) ->
  shown_quantiles h q two (keep h qs).
Proof.
  intros Hs Hi. split; [apply keep_sorted; exact Hs|]. intros x. rewrite (keep_spec h qs Hs x), Hi.
  split; intros [H1 H2]; (split; [exact H1|]); intros y Hy; apply H2; apply Hi; exact Hy.
Qed.

Lemma est_fold {A} (v : Qc -> A) q two qs hs : qtls_formatter q two = Ok (qs, hs) ->
  shown_quantiles pcthdr q two (keep pcthdr qs) /\ hs = map pcthdr qs /\
  fold_left (fun d x => dict_set d (pcthdr x) (v x)) qs [] = map (fun x => (pcthdr x, v x)) (keep pcthdr qs).
Proof.
  intros E. pose proof (c35 q two) as H. rewrite E in H. destruct H as [_ [Hs [Hi [Hu HL]]]].
  split; [apply shown_keep; assumption|]. split; [exact (formatter_hdrs _ _ _ _ E)|].
  apply fold_keep0; [exact Hs|]. apply hdr_contig. intros x y Hx Hy. apply pcthdr_iff; apply Hu; assumption.
Qed.
Lemma res_fold {A} (v : Qc -> A) q qs hs : result_formatter q = Ok (qs, hs) ->
  shown_quantiles ordhdr q false (keep ordhdr qs) /\ hs = map ordhdr qs /\
  fold_left (fun d x => dict_set d (ordhdr x) (v x)) qs [] = map (fun x => (ordhdr x, v x)) (keep ordhdr qs).
Proof.
  intros E. pose proof (c35_result q) as H. rewrite E in H. destruct H as [_ [Hs [Hi [Hu HL]]]].
  split; [apply shown_keep; assumption|]. split; [exact (result_hdrs _ _ _ E)|].
  apply fold_keep0; [exact Hs|]. apply hdr_contig. intros x y Hx Hy. apply ordhdr_iff; apply Hu; assumption.
Qed.

Lemma c36_get_cols (A : Type) (ppf : list (Qc -> A)) q cols : mack_get_quantiles ppf q = Ok cols ->
  exists xs, shown_quantiles ordhdr q false xs /\ cols = map (fun x => (ordhdr x, map (fun f => f x) ppf)) xs.
Proof.
  unfold mack_get_quantiles. destruct (result_formatter q) as [[qs hs]|e] eqn:E; [|discriminate].
  intros H. cbv beta iota delta [bind fst snd] in H. injection H as <-.
  destruct (res_fold (fun x => map (fun f => f x) ppf) q qs hs E) as [Hk [-> Hf]].
  exists (keep ordhdr qs). split; [exact Hk|]. rewrite columns_fold, fold_combine. exact Hf.
Qed.
Lemma c36_sum_cols (A : Type) (nan : A) ppf q two cols : mack_summary_quantiles nan ppf q two = Ok cols ->
  exists xs, shown_quantiles pcthdr q two xs /\
    cols = map (fun x => (pcthdr x, match ppf with [] => [] | _ :: fs => nan :: map (fun f => f x) fs end)) xs.
Proof.
  unfold mack_summary_quantiles. destruct (qtls_formatter q two) as [[qs hs]|e] eqn:E; [|discriminate].
  intros H. cbv beta iota delta [bind fst snd] in H. injection H as <-.
  destruct (est_fold (fun x => match ppf with [] => [] | _ :: fs => nan :: map (fun f => f x) fs end) q two qs hs E) as [Hk [-> Hf]].
  exists (keep pcthdr qs). split; [exact Hk|]. rewrite columns_fold, fold_combine. exact Hf.
Qed.

(** ** Samples *)
Definition rec_of (r : rrec) : Z * nat * val := (v_o r, v_sim r, v_reserve r).
Definition fin_of (r : Z * nat * Qc) : Z * nat * val := (fst r, Fin (snd r)).

Lemma filter_sample (p : Z -> nat -> bool) rs recs : map rec_of rs = map fin_of recs ->
  map v_reserve (filter (fun r => p (v_o r) (v_sim r)) rs)
  = map Fin (map snd (filter (fun r => p (fst (fst r)) (snd (fst r))) recs)).
Proof.
  revert recs. induction rs as [|r rs IH]; intros [|[[o s] x] recs] E; try discriminate; [reflexivity|].
  cbn [map] in E. unfold rec_of at 1, fin_of at 1 in E. cbn [fst snd] in E. injection E as E1 E2 E3 E.
  cbn [filter fst snd]. rewrite E1, E2. destruct (p o s); cbn [map snd]; [rewrite E3; f_equal|]; apply IH; exact E.
Qed.
Lemma fold_skipsum xs : skipsum (map Fin xs) = Fin (fold_right Qcplus 0%Qc xs).
Proof. rewrite skipsum_fin. f_equal; induction xs; simpl; congruence. Qed.
Lemma ncmp_sorted l : StronglySorted lt (uniq Nat.compare l).
Proof.
  eapply ssorted_map; [|apply uniq_sorted].
  - intros a b. unfold slt. apply Nat.compare_lt_iff.
  - intros; apply Nat.compare_eq_iff.
  - intros; apply Nat.compare_antisym.
  - intros x y z. rewrite !Nat.compare_lt_iff. lia.
Qed.
Lemma sample_origin rs recs o : map rec_of rs = map fin_of recs ->
  exists l, sample recs (Some o) l /\ origin_sample rs o = map Fin l.
Proof.
  intros E. eexists. split; [reflexivity|]. unfold origin_sample. apply (filter_sample (fun a _ => (a =? o)%Z)). exact E.
Qed.
Lemma sample_total rs recs : map rec_of rs = map fin_of recs ->
  exists l, sample recs None l /\ total_sample rs = map Fin l /\ (recs <> [] -> l <> []).
Proof.
  intros E. unfold sample, total_sample.
  assert (Es : map v_sim rs = map (fun r => snd (fst r)) recs).
  { transitivity (map (fun p => snd (fst p)) (map rec_of rs)); [rewrite map_map; reflexivity|].
    rewrite E, map_map. reflexivity. }
  exists (map (fun s => fold_right Qcplus 0%Qc (map snd (filter (fun r => snd (fst r) =? s) recs))) (uniq Nat.compare (map v_sim rs))).
  assert (Hin : forall s, In s (uniq Nat.compare (map v_sim rs)) <-> exists r, In r recs /\ snd (fst r) = s).
  { intros s. rewrite uniq_in by (intros; apply Nat.compare_eq_iff). rewrite Es, in_map_iff.
    split; intros [r [H1 H2]]; exists r; tauto. }
  split; [|split].
  - exists (uniq Nat.compare (map v_sim rs)). split; [apply ncmp_sorted|]. split; [exact Hin|reflexivity].
  - rewrite map_map. apply map_ext. intros s.
    rewrite (filter_sample (fun _ b => b =? s) rs recs E). apply fold_skipsum.
  - intros Hne. destruct recs as [|r recs]; [congruence|].
    destruct (uniq Nat.compare (map v_sim rs)) as [|s l] eqn:Eu; [|discriminate].
    exfalso. apply (proj2 (Hin (snd (fst r)))). exists r. split; [left|]; reflexivity.
Qed.
Lemma finite_map xs : finite (map Fin xs) = Some xs.
Proof. induction xs as [|x xs IH]; simpl; [reflexivity|]. rewrite IH. reflexivity. Qed.

(** One value of the table. *)
Definition entry (recs : list (Z * nat * Qc)) m (lb : option Qc) (x : Qc) (o : option Z) (v : Qc) : Prop :=
  exists l w, sample recs o l /\ percentile m l x = Ok w /\
    match lb with None => v = w | Some b => larger w b v end.

Lemma percentile_total m l q : l <> [] -> exists v, percentile m l q = Ok v.
Proof. destruct l; [congruence|]. intros _. eexists. reflexivity. Qed.
Lemma mapM_ok {A B} (f : A -> res B) l : (forall x, In x l -> exists y, f x = Ok y) -> exists r, mapM f l = Ok r.
Proof.
  induction l as [|a l IH]; intros H; simpl; [eauto|]. destruct (H a) as [y ->]; [left; reflexivity|].
  destruct IH as [r ->]; [intros; apply H; right; assumption|]. simpl. eauto.
Qed.

Section Boot.
  Variables (rs : list rrec) (recs : list (Z * nat * Qc)) (os : list Z) (m : interp).
  Hypothesis E : map rec_of rs = map fin_of recs.
  Hypothesis Hos : forall o, In o os -> exists s x, In (o, s, x) recs.
  Hypothesis Hne : recs <> [].

  Lemma sample_ne o l : In o os -> sample recs (Some o) l -> l <> [].
  Proof.
    intros Ho -> Hn. destruct (Hos o Ho) as [s [x Hx]].
    assert (Hi : In x (map snd (filter (fun r => (fst (fst r) =? o)%Z) recs))).
    { apply in_map_iff. exists (o, s, x). split; [reflexivity|]. apply filter_In. split; [exact Hx|]. apply Z.eqb_refl. }
    rewrite Hn in Hi. exact Hi.
  Qed.
  Lemma samples_fin : Forall2 (fun o l => exists xs, l = map Fin xs /\ sample recs o xs /\ xs <> [])
                        (map Some os ++ [None]) (samples rs os).
  Proof.
    unfold samples. apply Forall2_app.
    - assert (G : forall l, (forall o, In o l -> In o os) ->
        Forall2 (fun o l => exists xs, l = map Fin xs /\ sample recs o xs /\ xs <> []) (map Some l) (map (origin_sample rs) l)).
      { induction l as [|o l IH]; intros Hl; simpl; constructor; [|apply IH; intros; apply Hl; right; assumption].
        destruct (sample_origin rs recs o E) as [xs [H1 H2]]. exists xs. split; [exact H2|]. split; [exact H1|].
        eapply sample_ne; [apply Hl; left; reflexivity|exact H1]. }
      apply G. auto.
    - constructor; [|constructor]. destruct (sample_total rs recs E) as [l [H1 [H2 H3]]]. exists l. auto.
  Qed.
  Lemma column_ok x : exists c, mapM (fun l => pctl m l x) (samples rs os) = Ok c /\
    Forall2 (entry recs m None x) (map Some os ++ [None]) c.
  Proof.
    induction samples_fin as [|o l a b [xs [-> [Hs Hn]]] _ IH]; simpl.
    - eexists. split; [reflexivity|constructor].
    - destruct IH as [c [Hc Hf]]. unfold pctl at 1. rewrite finite_map.
      destruct (percentile_total m xs x Hn) as [v Hv]. rewrite Hv. cbn [bind]. rewrite Hc. cbn [bind].
      eexists. split; [reflexivity|]. constructor; [|exact Hf]. exists xs, v. auto.
  Qed.
  Lemma columns_ok qs : exists v, mapM (fun x => mapM (fun l => pctl m l x) (samples rs os)) qs = Ok (map v qs) /\
    forall x, Forall2 (entry recs m None x) (map Some os ++ [None]) (v x).
  Proof.
    exists (fun x => match mapM (fun l => pctl m l x) (samples rs os) with Ok c => c | Err _ => [] end). split.
    - induction qs as [|x qs IH]; [reflexivity|]. cbn [mapM map].
      destruct (column_ok x) as [c [-> _]]. cbn [bind]. rewrite IH. reflexivity.
    - intros x. destruct (column_ok x) as [c [-> Hf]]. exact Hf.
  Qed.

  Lemma c36_boot_sum_cols q two : (forall v, In v q -> in_unit v) ->
    exists cols xs, boot_summary_quantiles rs os q two m = Ok cols /\ shown_quantiles pcthdr q two xs /\
      Forall2 (fun x p => fst p = pcthdr x /\ Forall2 (entry recs m None x) (map Some os ++ [None]) (snd p)) xs cols.
  Proof.
    intros Hq. unfold boot_summary_quantiles. pose proof (c35 q two) as C.
    destruct (qtls_formatter q two) as [[qs hs]|e] eqn:Ef.
    2:{ exfalso. destruct C as [_ [v [Hv Hn]]]. auto. }
    cbn [bind fst snd]. destruct (columns_ok qs) as [v [-> Hv]]. cbn [bind].
    destruct (est_fold v q two qs hs Ef) as [Hk [-> Hf]]. rewrite fold_combine, Hf.
    eexists _, _. split; [reflexivity|]. split; [exact Hk|].
    clear -Hv. induction (keep pcthdr qs) as [|x l IH]; simpl; constructor; [|exact IH].
    split; [reflexivity|exact (Hv x)].
  Qed.
  Lemma c36_boot_get_cols q lb : (forall v, In v q -> in_unit v) ->
    exists cols xs, boot_get_quantiles rs os q m lb = Ok cols /\ shown_quantiles ordhdr q false xs /\
      Forall2 (fun x p => fst p = ordhdr x /\ Forall2 (entry recs m lb x) (map Some os ++ [None]) (snd p)) xs cols.
  Proof.
    intros Hq. unfold boot_get_quantiles. pose proof (c35_result q) as C.
    destruct (result_formatter q) as [[qs hs]|e] eqn:Ef.
    2:{ exfalso. destruct C as [_ [v [Hv Hn]]]. auto. }
    cbn [bind fst snd]. destruct (columns_ok qs) as [v [-> Hv]]. cbn [bind].
    destruct (res_fold v q qs hs Ef) as [Hk [-> Hf]]. rewrite fold_combine, Hf.
    eexists _, _. split; [reflexivity|]. split; [exact Hk|].
    clear -Hv. induction (keep ordhdr qs) as [|x l IH]; simpl; constructor; [|exact IH].
    cbn [fst snd]. split; [reflexivity|]. specialize (Hv x). clear IH.
    induction Hv as [|o w a b [xs [u [H1 [H2 H3]]]] _ IH]; simpl; constructor; [|exact IH].
    exists xs, u. split; [exact H1|]. split; [exact H2|]. subst w. destruct lb; [apply raise_larger|reflexivity].
  Qed.
End Boot.

(** ** What the headers read *)
Lemma read_app l1 l2 acc : read_digits acc (l1 ++ l2)
  = match read_digits acc l1 with Some a => read_digits a l2 | None => None end.
Proof. revert acc. induction l1 as [|c l1 IH]; intros acc; simpl; [reflexivity|]. destruct (digit_value c); auto. Qed.
Lemma read_digit z acc r : (0 <= z < 10)%Z -> read_digits acc (digit z :: r) = read_digits (10 * acc + z) r.
Proof.
  intros H. cbn [read_digits]. unfold digit_value, digit. rewrite nat_ascii_embedding by lia.
  replace ((48 <=? 48 + Z.to_nat z) && (48 + Z.to_nat z <=? 57)) with true.
  - replace (Z.of_nat (48 + Z.to_nat z - 48)) with z by lia. reflexivity.
  - symmetry. apply andb_true_intro. split; apply Nat.leb_le; lia.
Qed.
Lemma read_uint d acc : read_digits (Z.of_nat acc) (list_ascii_of_string (NilEmpty.string_of_uint d))
  = Some (Z.of_nat (Nat.of_uint_acc d acc)).
Proof.
  revert acc. induction d; intros acc; [reflexivity|..];
    cbn [NilEmpty.string_of_uint list_ascii_of_string read_digits Nat.of_uint_acc];
    match goal with |- context [digit_value ?c] => let v := eval vm_compute in (digit_value c) in change (digit_value c) with v end;
    cbv iota; rewrite <- IHd; f_equal; rewrite ?Nat.tail_mul_spec; lia.
Qed.
Lemma read_str_nat n : read_digits 0 (list_ascii_of_string (str_nat n)) = Some (Z.of_nat n).
Proof. unfold str_nat. rewrite (read_uint _ 0). f_equal. f_equal. apply (Unsigned.of_to n). Qed.
Lemma str_nat_ne n : list_ascii_of_string (str_nat n) <> [].
Proof.
  intros H. unfold str_nat in H. destruct (Nat.to_uint n) eqn:E; try discriminate H.
  pose proof (Unsigned.of_to n) as O. rewrite E in O. subst n. discriminate E.
Qed.
Lemma read_decimals n : (0 <= n)%Z -> read_digits (n / 100000) (decimals5 n) = Some n.
Proof.
  intros Hn. unfold decimals5. cbn [map].
  rewrite !read_digit by (apply Z.mod_pos_bound; lia). cbn [read_digits]. f_equal.
  assert (D : forall p, (0 < p)%Z -> (10 * (n / (p * 10)) + (n / p) mod 10 = n / p)%Z).
  { intros p Hp. rewrite <- Z.div_div by lia. pose proof (Z.div_mod (n / p) 10). lia. }
  pose proof (D 10000%Z ltac:(lia)) as D1. pose proof (D 1000%Z ltac:(lia)) as D2. pose proof (D 100%Z ltac:(lia)) as D3.
  pose proof (D 10%Z ltac:(lia)) as D4. pose proof (D 1%Z ltac:(lia)) as D5.
  change (10000 * 10)%Z with 100000%Z in D1. change (1000 * 10)%Z with 10000%Z in D2. change (100 * 10)%Z with 1000%Z in D3.
  change (10 * 10)%Z with 100%Z in D4. change (1 * 10)%Z with 10%Z in D5.
  rewrite D1, D2, D3, D4, D5. apply Z.div_1_r.
Qed.
Lemma rstrip_pad c l : l = rstrip_char c l ++ repeat c (List.length l - List.length (rstrip_char c l)).
Proof.
  destruct (rstrip_split c l) as [n E]. rewrite E at 1. f_equal. f_equal.
  apply (f_equal (@List.length _)) in E. rewrite app_length, repeat_length in E. lia.
Qed.
Lemma reads_pct x : (0 <= x)%Qc -> reads (pct x) (grain x).
Proof.
  intros Hx. pose proof (grain_nonneg x Hx) as Hg. unfold pct. fold (grain x). set (n := grain x) in *. clearbody n.
  unfold format5. simpl (["."%char] ++ _). rewrite strip_form by apply decimals5_no_dot.
  rewrite (rstrip_none ".") by apply uint_no_dot.
  pose proof (rstrip_pad "0"%char (decimals5 n)) as P. change (List.length (decimals5 n)) with 5 in P.
  exists (list_ascii_of_string (str_nat (Z.to_nat (n / 100000)))), (rstrip_char "0" (decimals5 n)).
  split; [apply str_nat_ne|]. split.
  - destruct (rstrip_char "0" (decimals5 n)); [rewrite app_nil_r|]; reflexivity.
  - split; [|split].
    + apply (f_equal (@List.length _)) in P. rewrite app_length in P. change (List.length (decimals5 n)) with 5 in P. lia.
    + apply rstrip_last.
    + rewrite <- P, read_app, read_str_nat, Z2Nat.id by (apply Z.div_pos; lia). apply read_decimals. exact Hg.
Qed.
Lemma c36_text x : (0 <= x)%Qc -> exists l, reads l (round_half_even (x * qz 100 * qz 100000)) /\
  list_ascii_of_string (pcthdr x) = l ++ ["%"%char] /\
  exists s, list_ascii_of_string (ordhdr x) = l ++ list_ascii_of_string s /\
    (In "."%char l -> s = "th"%string) /\
    (~ In "."%char l -> s = suffix_of (last l "0"%char)).
Proof.
  intros Hx. exists (pct x). split; [apply reads_pct; exact Hx|]. unfold pcthdr, ordhdr.
  rewrite !list_ascii_of_string_of_list_ascii. split; [reflexivity|]. unfold ordinal.
  assert (Ei : existsb (fun c => Ascii.eqb c ".") (pct x) = true <-> In "."%char (pct x)).
  { rewrite existsb_exists. split; [intros [c [Hc Ec]]; apply Ascii.eqb_eq in Ec; subst; exact Hc|intros H; exists "."%char; split; [exact H|reflexivity]]. }
  destruct (existsb (fun c => Ascii.eqb c ".") (pct x)).
  - exists "th"%string. split; [reflexivity|]. split; [intros _; reflexivity|]. intros H. exfalso. apply H, Ei. reflexivity.
  - exists (suffix_of (last (pct x) "0"%char)). split; [reflexivity|]. split; [|intros _; reflexivity].
    intros H. apply Ei in H. discriminate H.
Qed.
