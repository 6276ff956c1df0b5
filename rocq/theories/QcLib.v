(** Proof library: ordered-field reasoning on [Qc], finite sums and products,
    and facts about the operations of [Val]. No modelling here. *)

From Coq Require Import QArith Qcanon ZArith List Bool Lia Lqa Permutation.
From Verif Require Import Val.
Import ListNotations.
Open Scope Qc_scope.

(** ** Linear arithmetic on [Qc] by transfer to [Q] *)

Lemma this_plus a b : (this (a + b) == this a + this b)%Q.
Proof. apply Qred_correct. Qed.
Lemma this_mult a b : (this (a * b) == this a * this b)%Q.
Proof. apply Qred_correct. Qed.
Lemma this_opp a : (this (- a) == - this a)%Q.
Proof. apply Qred_correct. Qed.
Lemma this_minus a b : (this (a - b) == this a - this b)%Q.
Proof. unfold Qcminus. rewrite this_plus, this_opp. reflexivity. Qed.
Lemma this_inv a : (this (/ a) == / this a)%Q.
Proof. apply Qred_correct. Qed.
Lemma this_Q2Qc q : (this (Q2Qc q) == q)%Q.
Proof. apply Qred_correct. Qed.
Lemma this_qz z : (this (qz z) == inject_Z z)%Q.
Proof. apply Qred_correct. Qed.
Lemma this_inj a b : (this a == this b)%Q -> a = b.
Proof. apply Qc_is_canon. Qed.
Lemma eq_this (a b : Qc) : a = b -> (this a == this b)%Q.
Proof. intros ->; reflexivity. Qed.
Lemma neq_this (a b : Qc) : a <> b -> ~ (this a == this b)%Q.
Proof. intros H E; apply H, this_inj, E. Qed.

Ltac qc_push :=
  repeat (rewrite ?this_plus, ?this_mult, ?this_opp, ?this_minus, ?this_inv,
          ?this_Q2Qc, ?this_qz in *).
Ltac qc_hyps :=
  unfold Qclt, Qcle in *;
  repeat match goal with
  | H : @eq Qc _ _ |- _ => apply eq_this in H
  | H : not (@eq Qc _ _) |- _ => apply neq_this in H
  end.
Ltac qc_goal :=
  match goal with
  | |- @eq Qc _ _ => apply this_inj
  | |- not (@eq Qc _ _) => let H := fresh in intro H; apply eq_this in H
  | _ => idtac
  end.
Ltac qc2q := qc_goal; qc_hyps; qc_push; unfold inject_Z in *.
Ltac qlra := qc2q; try lra.
Ltac qnra := qc2q; try nra.

(** ** Comparisons *)

Lemma qcltb_spec a b : reflect (a < b) (qcltb a b).
Proof.
  unfold qcltb. destruct (a ?= b) eqn:E; constructor.
  - apply Qceq_alt in E. subst. intro H. qlra.
  - apply Qclt_alt. exact E.
  - apply Qcgt_alt in E. intro. qlra.
Qed.
Lemma qcleb_spec a b : reflect (a <= b) (qcleb a b).
Proof.
  unfold qcleb. destruct (a ?= b) eqn:E; constructor.
  - apply Qceq_alt in E. subst. apply Qcle_refl.
  - apply Qclt_alt in E. qlra.
  - apply Qcgt_alt in E. intro. qlra.
Qed.
Lemma qceqb_spec a b : reflect (a = b) (qceqb a b).
Proof.
  unfold qceqb. destruct (a ?= b) eqn:E; constructor.
  - apply Qceq_alt in E. exact E.
  - apply Qclt_alt in E. intro; subst. qlra.
  - apply Qcgt_alt in E. intro; subst. qlra.
Qed.
Lemma qcltb_lt a b : qcltb a b = true <-> a < b.
Proof. destruct (qcltb_spec a b); split; intros; try easy. Qed.
Lemma qcleb_le a b : qcleb a b = true <-> a <= b.
Proof. destruct (qcleb_spec a b); split; intros; try easy. Qed.
Lemma qceqb_eq a b : qceqb a b = true <-> a = b.
Proof. destruct (qceqb_spec a b); split; intros; try easy. Qed.
Lemma qceqb_refl a : qceqb a a = true.
Proof. apply qceqb_eq; reflexivity. Qed.

Lemma qsgn_pos q : 0 < q -> qsgn q = SPos.
Proof. intro H. unfold qsgn. assert (E : (q ?= 0) = Gt) by (apply Qcgt_alt; exact H). rewrite E. reflexivity. Qed.
Lemma qsgn_neg q : q < 0 -> qsgn q = SNeg.
Proof. intro H. unfold qsgn. assert (E : (q ?= 0) = Lt) by (apply Qclt_alt; exact H). rewrite E. reflexivity. Qed.
Lemma qsgn_zero : qsgn 0 = SZero.
Proof. reflexivity. Qed.
Lemma qsgn_nz q : q <> 0 -> qsgn q <> SZero.
Proof.
  intros H E. apply H. unfold qsgn in E. destruct (q ?= 0) eqn:D; try easy.
  apply Qceq_alt in D. exact D.
Qed.

(** ** Integers in [Qc] *)

Lemma qz_add a b : qz (a + b) = qz a + qz b.
Proof. apply this_inj. qc_push. rewrite inject_Z_plus. reflexivity. Qed.
Lemma qz_mul a b : qz (a * b) = qz a * qz b.
Proof. apply this_inj. qc_push. rewrite inject_Z_mult. reflexivity. Qed.
Lemma qz_opp a : qz (- a) = - qz a.
Proof. apply this_inj. qc_push. rewrite inject_Z_opp. reflexivity. Qed.
Lemma qz_lt a b : qz a < qz b <-> (a < b)%Z.
Proof. unfold Qclt. rewrite !this_qz. rewrite Zlt_Qlt. reflexivity. Qed.
Lemma qz_le a b : qz a <= qz b <-> (a <= b)%Z.
Proof. unfold Qcle. rewrite !this_qz. rewrite Zle_Qle. reflexivity. Qed.
Lemma qz_inj a b : qz a = qz b -> a = b.
Proof.
  intro H. apply eq_this in H. rewrite !this_qz in H.
  apply inject_Z_injective. exact H.
Qed.
Lemma qz_0 : qz 0 = 0. Proof. apply this_inj; reflexivity. Qed.
Lemma qz_1 : qz 1 = 1. Proof. apply this_inj; reflexivity. Qed.
Lemma qn_0 : qn 0 = 0. Proof. apply qz_0. Qed.
Lemma qn_1 : qn 1 = 1. Proof. apply qz_1. Qed.
Lemma qn_S n : qn (S n) = 1 + qn n.
Proof. unfold qn. rewrite Nat2Z.inj_succ, <- Z.add_1_l, qz_add, qz_1. reflexivity. Qed.
Lemma qn_add a b : qn (a + b) = qn a + qn b.
Proof. unfold qn. rewrite Nat2Z.inj_add, qz_add. reflexivity. Qed.
Lemma qn_mul a b : qn (a * b) = qn a * qn b.
Proof. unfold qn. rewrite Nat2Z.inj_mul, qz_mul. reflexivity. Qed.
Lemma qn_lt a b : qn a < qn b <-> (a < b)%nat.
Proof. unfold qn. rewrite qz_lt. lia. Qed.
Lemma qn_le a b : qn a <= qn b <-> (a <= b)%nat.
Proof. unfold qn. rewrite qz_le. lia. Qed.
Lemma qn_inj a b : qn a = qn b -> a = b.
Proof. intro H. apply qz_inj in H. lia. Qed.
Lemma qn_nonneg n : 0 <= qn n.
Proof. rewrite <- qn_0. apply qn_le. lia. Qed.
Lemma qn_pos n : (0 < n)%nat -> 0 < qn n.
Proof. intro. rewrite <- qn_0. apply qn_lt. lia. Qed.

(** ** Order and field facts *)

Lemma qc_pos_neq x : 0 < x -> x <> 0.
Proof. intros H E. subst. qlra. Qed.
Lemma qc_mul_pos x y : 0 < x -> 0 < y -> 0 < x * y.
Proof. intros. qnra. Qed.
Lemma qc_mul_nonneg x y : 0 <= x -> 0 <= y -> 0 <= x * y.
Proof. intros. qnra. Qed.
Lemma qc_inv_pos x : 0 < x -> 0 < / x.
Proof.
  intros. unfold Qclt in *. rewrite this_inv. apply Qinv_lt_0_compat. exact H.
Qed.
Lemma qc_div_pos x y : 0 < x -> 0 < y -> 0 < x / y.
Proof. intros. unfold Qcdiv. apply qc_mul_pos; auto using qc_inv_pos. Qed.
Lemma qc_div_nonneg x y : 0 <= x -> 0 < y -> 0 <= x / y.
Proof.
  intros. unfold Qcdiv. apply qc_mul_nonneg; auto.
  apply Qclt_le_weak. auto using qc_inv_pos.
Qed.
Lemma qc_div_mul x y : y <> 0 -> x / y * y = x.
Proof. intros. field. auto. Qed.
Lemma qc_div_self x : x <> 0 -> x / x = 1.
Proof. intros. field. auto. Qed.
Lemma qc_sq_nonneg x : 0 <= x * x.
Proof. qnra. Qed.
Lemma qc_le_div x y z : 0 < z -> (x <= y / z <-> x * z <= y).
Proof.
  intros Hz. split; intro H.
  - assert (y = y / z * z) as -> by (field; auto using qc_pos_neq).
    apply Qcmult_le_compat_r; auto. qlra.
  - assert (x = x * z / z) as -> by (field; auto using qc_pos_neq).
    unfold Qcdiv. apply Qcmult_le_compat_r; auto.
    apply Qclt_le_weak, qc_inv_pos; auto.
Qed.
Lemma qc_div_le x y z : 0 < z -> (y / z <= x <-> y <= x * z).
Proof.
  intros Hz. split; intro H.
  - assert (y = y / z * z) as -> by (field; auto using qc_pos_neq).
    apply Qcmult_le_compat_r; auto. qlra.
  - assert (x = x * z / z) as -> by (field; auto using qc_pos_neq).
    unfold Qcdiv. apply Qcmult_le_compat_r; auto.
    apply Qclt_le_weak, qc_inv_pos; auto.
Qed.
Lemma qc_lt_le_dec (x y : Qc) : {x < y} + {y <= x}.
Proof. destruct (qcltb_spec x y); [left; auto | right]. qlra. Qed.
Lemma qc_1_neq_0 : 1 <> 0.
Proof. discriminate. Qed.
Lemma qc_0_lt_1 : 0 < 1.
Proof. reflexivity. Qed.

(** ** Sums and products of functions over index ranges *)

Fixpoint qsum (l : list Qc) : Qc :=
  match l with [] => 0 | x :: r => x + qsum r end.
Fixpoint qprod (l : list Qc) : Qc :=
  match l with [] => 1 | x :: r => x * qprod r end.

Lemma qsum_app a b : qsum (a ++ b) = qsum a + qsum b.
Proof. induction a; simpl; [ring | rewrite IHa; ring]. Qed.
Lemma qprod_app a b : qprod (a ++ b) = qprod a * qprod b.
Proof. induction a; simpl; [ring | rewrite IHa; ring]. Qed.
Lemma qsum_perm a b : Permutation a b -> qsum a = qsum b.
Proof. induction 1; simpl; try congruence; ring. Qed.
Lemma qprod_perm a b : Permutation a b -> qprod a = qprod b.
Proof. induction 1; simpl; try congruence; ring. Qed.
Lemma qsum_map_ext {A} (f g : A -> Qc) l :
  (forall x, In x l -> f x = g x) -> qsum (map f l) = qsum (map g l).
Proof.
  intro H. f_equal. apply map_ext_in. exact H.
Qed.
Lemma qsum_map_add {A} (f g : A -> Qc) l :
  qsum (map (fun x => f x + g x) l) = qsum (map f l) + qsum (map g l).
Proof. induction l; simpl; [ring | rewrite IHl; ring]. Qed.
Lemma qsum_map_mulc {A} c (f : A -> Qc) l :
  qsum (map (fun x => c * f x) l) = c * qsum (map f l).
Proof. induction l; simpl; [ring | rewrite IHl; ring]. Qed.
Lemma qsum_map_sub {A} (f g : A -> Qc) l :
  qsum (map (fun x => f x - g x) l) = qsum (map f l) - qsum (map g l).
Proof. induction l; simpl; [ring | rewrite IHl; ring]. Qed.
Lemma qsum_map_const {A} c (l : list A) : qsum (map (fun _ => c) l) = qn (length l) * c.
Proof.
  induction l; cbn [map qsum length]; [rewrite qn_0; ring | rewrite IHl, qn_S; ring].
Qed.
Lemma qsum_nonneg l : (forall x, In x l -> 0 <= x) -> 0 <= qsum l.
Proof.
  induction l; intro H; simpl; [apply Qcle_refl|].
  assert (0 <= a) by (apply H; left; auto).
  assert (0 <= qsum l) by (apply IHl; intros; apply H; right; auto). qlra.
Qed.
Lemma qsum_pos l : l <> [] -> (forall x, In x l -> 0 < x) -> 0 < qsum l.
Proof.
  destruct l; [congruence|]. intros _ H. simpl.
  assert (0 < q) by (apply H; left; auto).
  assert (0 <= qsum l).
  { apply qsum_nonneg. intros. apply Qclt_le_weak, H; right; auto. }
  qlra.
Qed.
Lemma qsum_le {A} (f g : A -> Qc) l :
  (forall x, In x l -> f x <= g x) -> qsum (map f l) <= qsum (map g l).
Proof.
  induction l; intro H; simpl; [apply Qcle_refl|].
  assert (f a <= g a) by (apply H; left; auto).
  assert (qsum (map f l) <= qsum (map g l)) by (apply IHl; intros; apply H; right; auto).
  qlra.
Qed.
Lemma qprod_pos l : (forall x, In x l -> 0 < x) -> 0 < qprod l.
Proof.
  induction l; intro H; simpl; [reflexivity|].
  apply qc_mul_pos; [apply H; left; auto | apply IHl; intros; apply H; right; auto].
Qed.

(** [sumf a n f] is [f a + ... + f (a+n-1)]. *)
Definition sumf (a n : nat) (f : nat -> Qc) : Qc := qsum (map f (seq a n)).
Definition prodf (a n : nat) (f : nat -> Qc) : Qc := qprod (map f (seq a n)).

Lemma sumf_0 a f : sumf a 0 f = 0. Proof. reflexivity. Qed.
Lemma sumf_Sl a n f : sumf a (S n) f = f a + sumf (S a) n f. Proof. reflexivity. Qed.
Lemma sumf_Sr a n f : sumf a (S n) f = sumf a n f + f (a + n)%nat.
Proof.
  unfold sumf. rewrite seq_S, map_app, qsum_app. simpl. ring.
Qed.
Lemma prodf_0 a f : prodf a 0 f = 1. Proof. reflexivity. Qed.
Lemma prodf_Sl a n f : prodf a (S n) f = f a * prodf (S a) n f. Proof. reflexivity. Qed.
Lemma prodf_Sr a n f : prodf a (S n) f = prodf a n f * f (a + n)%nat.
Proof.
  unfold prodf. rewrite seq_S, map_app, qprod_app. simpl. ring.
Qed.
Lemma sumf_ext a n f g :
  (forall i, (a <= i < a + n)%nat -> f i = g i) -> sumf a n f = sumf a n g.
Proof.
  intro H. apply qsum_map_ext. intros i Hi. apply in_seq in Hi. auto.
Qed.
Lemma prodf_ext a n f g :
  (forall i, (a <= i < a + n)%nat -> f i = g i) -> prodf a n f = prodf a n g.
Proof.
  intro H. unfold prodf. f_equal. apply map_ext_in. intros i Hi. apply in_seq in Hi. auto.
Qed.
Lemma sumf_split a n m f : sumf a (n + m) f = sumf a n f + sumf (a + n) m f.
Proof. unfold sumf. rewrite seq_app, map_app, qsum_app. reflexivity. Qed.
Lemma prodf_split a n m f : prodf a (n + m) f = prodf a n f * prodf (a + n) m f.
Proof. unfold prodf. rewrite seq_app, map_app, qprod_app. reflexivity. Qed.
Lemma sumf_shift a n f : sumf (S a) n f = sumf a n (fun i => f (S i)).
Proof. unfold sumf. rewrite <- seq_shift, map_map. reflexivity. Qed.
Lemma prodf_shift a n f : prodf (S a) n f = prodf a n (fun i => f (S i)).
Proof. unfold prodf. rewrite <- seq_shift, map_map. reflexivity. Qed.
Lemma sumf_add a n f g : sumf a n (fun i => f i + g i) = sumf a n f + sumf a n g.
Proof. apply qsum_map_add. Qed.
Lemma sumf_sub a n f g : sumf a n (fun i => f i - g i) = sumf a n f - sumf a n g.
Proof. apply qsum_map_sub. Qed.
Lemma sumf_mulc a n c f : sumf a n (fun i => c * f i) = c * sumf a n f.
Proof. apply qsum_map_mulc. Qed.
Lemma sumf_const a n c : sumf a n (fun _ => c) = qn n * c.
Proof. unfold sumf. rewrite qsum_map_const, seq_length. reflexivity. Qed.
Lemma sumf_nonneg a n f :
  (forall i, (a <= i < a + n)%nat -> 0 <= f i) -> 0 <= sumf a n f.
Proof.
  intro H. apply qsum_nonneg. intros x Hx. apply in_map_iff in Hx.
  destruct Hx as (i & <- & Hi). apply in_seq in Hi. auto.
Qed.
Lemma sumf_pos a n f : (0 < n)%nat ->
  (forall i, (a <= i < a + n)%nat -> 0 < f i) -> 0 < sumf a n f.
Proof.
  intros Hn H. apply qsum_pos.
  - destruct n; [lia|]. discriminate.
  - intros x Hx. apply in_map_iff in Hx.
    destruct Hx as (i & <- & Hi). apply in_seq in Hi. auto.
Qed.
Lemma sumf_le a n f g :
  (forall i, (a <= i < a + n)%nat -> f i <= g i) -> sumf a n f <= sumf a n g.
Proof. intro H. apply qsum_le. intros i Hi. apply in_seq in Hi. auto. Qed.
Lemma prodf_pos a n f :
  (forall i, (a <= i < a + n)%nat -> 0 < f i) -> 0 < prodf a n f.
Proof.
  intro H. apply qprod_pos. intros x Hx. apply in_map_iff in Hx.
  destruct Hx as (i & <- & Hi). apply in_seq in Hi. auto.
Qed.
Lemma sumf_eq0_zero a n f : (forall i, (a <= i < a + n)%nat -> f i = 0) -> sumf a n f = 0.
Proof. intro H. rewrite (sumf_ext a n f (fun _ => 0)); auto. rewrite sumf_const. ring. Qed.

(** ** Facts about [val] *)

Lemma isnan_true v : isnan v = true <-> v = NaN.
Proof. destruct v; simpl; split; congruence. Qed.
Lemma isnan_false v : isnan v = false <-> v <> NaN.
Proof. destruct v; simpl; split; congruence. Qed.

Lemma vsame_eq a b : vsame a b = true <-> a = b.
Proof.
  destruct a, b; simpl; try (split; congruence).
  rewrite qceqb_eq. split; congruence.
Qed.

Lemma vadd_comm a b : vadd a b = vadd b a.
Proof. destruct a, b; simpl; auto. f_equal; ring. Qed.
Lemma vadd_assoc a b c : vadd a (vadd b c) = vadd (vadd a b) c.
Proof. destruct a, b, c; simpl; auto. f_equal; ring. Qed.
Lemma vadd_0_l a : vadd (Fin 0) a = a.
Proof. destruct a; simpl; auto. f_equal; ring. Qed.
Lemma vadd_0_r a : vadd a (Fin 0) = a.
Proof. rewrite vadd_comm. apply vadd_0_l. Qed.
Lemma vmul_comm a b : vmul a b = vmul b a.
Proof. destruct a, b; simpl; auto. f_equal; ring. Qed.
Lemma vmul_1_l a : vmul (Fin 1) a = a.
Proof. destruct a; simpl; auto. f_equal; ring. Qed.
Lemma vmul_1_r a : vmul a (Fin 1) = a.
Proof. rewrite vmul_comm. apply vmul_1_l. Qed.
Lemma vsub_fin a b : vsub (Fin a) (Fin b) = Fin (a - b).
Proof. reflexivity. Qed.
Lemma vdiv_fin a b : b <> 0 -> vdiv (Fin a) (Fin b) = Fin (a / b).
Proof.
  intros H. simpl. destruct (qsgn b) eqn:E; auto. exfalso. apply (qsgn_nz b); auto.
Qed.
Lemma vdiv_nan_l b : vdiv NaN b = NaN.
Proof. destruct b; reflexivity. Qed.
Lemma vdiv_nan_r b : vdiv b NaN = NaN.
Proof. destruct b; reflexivity. Qed.
Lemma vmul_nan_l b : vmul NaN b = NaN.
Proof. destruct b; reflexivity. Qed.
Lemma vmul_nan_r b : vmul b NaN = NaN.
Proof. destruct b; reflexivity. Qed.
Lemma vadd_nan_l b : vadd NaN b = NaN.
Proof. destruct b; reflexivity. Qed.
Lemma vadd_nan_r b : vadd b NaN = NaN.
Proof. destruct b; reflexivity. Qed.

Lemma skipsum_app a b : skipsum (a ++ b) = vadd (skipsum a) (skipsum b).
Proof.
  induction a; cbn [app skipsum].
  - rewrite vadd_0_l. reflexivity.
  - destruct (isnan a); [exact IHa|]. rewrite IHa, vadd_assoc. reflexivity.
Qed.
Lemma skipsum_perm a b : Permutation a b -> skipsum a = skipsum b.
Proof.
  induction 1; cbn [skipsum]; try congruence.
  - rewrite IHPermutation. reflexivity.
  - destruct (isnan x), (isnan y); auto.
    rewrite !vadd_assoc, (vadd_comm x y). reflexivity.
Qed.
Lemma skipsum_fin l : skipsum (map Fin l) = Fin (qsum l).
Proof. induction l; simpl; auto. rewrite IHl. reflexivity. Qed.
Lemma vsum_fin l : vsum (map Fin l) = Fin (qsum l).
Proof.
  unfold vsum. induction l; cbn [map fold_right qsum]; auto. rewrite IHl. reflexivity.
Qed.
Lemma vmean_fin l : l <> [] -> vmean (map Fin l) = Fin (qsum l / qn (length l)).
Proof.
  intro H. unfold vmean. rewrite vsum_fin, map_length, vdiv_fin; auto.
  apply qc_pos_neq, qn_pos. destruct l; simpl; [congruence|lia].
Qed.

(** Comparing lists of values by computation. *)
Fixpoint listb {A} (eqb : A -> A -> bool) (a b : list A) : bool :=
  match a, b with
  | [], [] => true
  | x :: r, y :: s => eqb x y && listb eqb r s
  | _, _ => false
  end.
Lemma listb_eq {A} (eqb : A -> A -> bool) :
  (forall x y, eqb x y = true -> x = y) ->
  forall a b, listb eqb a b = true -> a = b.
Proof.
  intros H a; induction a; destruct b; simpl; intros; try congruence.
  apply andb_true_iff in H0 as [? ?]. f_equal; auto.
Qed.
Definition vlistb := listb vsame.
Definition vmatb := listb (listb vsame).
Lemma vlistb_eq a b : vlistb a b = true -> a = b.
Proof. apply listb_eq. intros; apply vsame_eq; auto. Qed.
Lemma vmatb_eq a b : vmatb a b = true -> a = b.
Proof. apply listb_eq. intros; apply vlistb_eq; auto. Qed.
