(** Mean and variance of Spearman's coefficient over all rankings. *)
From Coq Require Import QArith Qcanon List Lia Arith.
From Verif Require Import Val QcLib SpecTail.
Import ListNotations.
Open Scope list_scope.
Open Scope nat_scope.

Definition ls {A} (f : A -> Qc) (l : list A) : Qc := fold_right (fun x s => f x + s)%Qc 0%Qc l.

Lemma ls_app {A} (f : A -> Qc) l l' : ls f (l ++ l') = (ls f l + ls f l')%Qc.
Proof. induction l; simpl; [ring|]. rewrite IHl. ring. Qed.
Lemma ls_map {A B} (f : B -> Qc) (g : A -> B) l : ls f (map g l) = ls (fun x => f (g x)) l.
Proof. induction l; simpl; [auto|]. rewrite IHl. ring. Qed.
Lemma ls_ext {A} (f g : A -> Qc) l : (forall x, In x l -> f x = g x) -> ls f l = ls g l.
Proof. induction l; simpl; intro H; [auto|]. rewrite IHl by auto. rewrite H by auto. ring. Qed.
Lemma ls_plus {A} (f g : A -> Qc) l : ls (fun x => f x + g x)%Qc l = (ls f l + ls g l)%Qc.
Proof. induction l; simpl; [ring|]. rewrite IHl. ring. Qed.
Lemma ls_scal {A} (c : Qc) (f : A -> Qc) l : ls (fun x => c * f x)%Qc l = (c * ls f l)%Qc.
Proof. induction l; simpl; [ring|]. rewrite IHl. ring. Qed.
Lemma ls_flat {A B} (f : B -> Qc) (g : A -> list B) l : ls f (flat_map g l) = ls (fun x => ls f (g x)) l.
Proof. induction l; simpl; [auto|]. rewrite ls_app, IHl. auto. Qed.
Lemma ls_one {A} (l : list A) : ls (fun _ => 1%Qc) l = qn (length l).
Proof. induction l; [reflexivity|]. simpl ls. simpl length. rewrite IHl, qn_S. ring. Qed.

Lemma picks_fst {A} (l : list A) : map fst (picks l) = l.
Proof. induction l; simpl; [auto|]. rewrite map_map. f_equal. etransitivity; [|exact IHl]. apply map_ext. reflexivity. Qed.
Lemma picks_len {A} (l : list A) p : In p (picks l) -> length l = S (length (snd p)).
Proof.
  revert p. induction l as [|x r IH]; simpl; [contradiction|]. intros p [<-|H]; [auto|].
  apply in_map_iff in H. destruct H as [q [<- H]]. simpl. rewrite (IH _ H). auto.
Qed.
Lemma picks_sum {A} (f : A -> Qc) (l : list A) p : In p (picks l) -> ls f (snd p) = (ls f l - f (fst p))%Qc.
Proof.
  revert p. induction l as [|x r IH]; simpl; [contradiction|]. intros p [<-|H].
  - simpl. ring.
  - apply in_map_iff in H. destruct H as [q [<- H]]. simpl. fold (ls f (snd q)). fold (ls f r). rewrite (IH _ H). ring.
Qed.

Fixpoint dot (a : list Qc) (r : list nat) : Qc :=
  match a, r with
  | c :: a', x :: r' => (c * qn x + dot a' r')%Qc
  | _, _ => 0%Qc
  end.
Fixpoint qfact (n : nat) : Qc := match n with O => 1%Qc | S k => (qn (S k) * qfact k)%Qc end.
Definition id1 (c : Qc) : Qc := c.
Definition sq2 (c : Qc) : Qc := (c * c)%Qc.
Definition n1 (x : nat) : Qc := qn x.
Definition n2 (x : nat) : Qc := (qn x * qn x)%Qc.

Lemma count_orderings n : forall l : list nat, length l = n ->
  ls (fun _ => 1%Qc) (orderings n l) = qfact n.
Proof.
  induction n; intros l H; [reflexivity|]. simpl orderings. rewrite ls_flat.
  rewrite (ls_ext _ (fun _ => (qfact n * 1)%Qc)).
  - rewrite ls_scal. rewrite ls_one. rewrite <- (map_length fst), picks_fst, H. simpl. ring.
  - intros p Hp. rewrite ls_map. rewrite IHn; [ring|]. apply picks_len in Hp. lia.
Qed.

Lemma sum_picks (f : nat -> Qc) l : ls (fun p : nat * list nat => f (fst p)) (picks l) = ls f l.
Proof. rewrite <- (ls_map f fst), picks_fst. auto. Qed.

Lemma qn_nz n : n <> 0 -> qn n <> 0%Qc.
Proof. intros H E. apply H. apply qn_inj. exact E. Qed.

Lemma inv_1 : (/ 1)%Qc = 1%Qc.
Proof. apply Qc_is_canon; reflexivity. Qed.

Lemma first_moment n : forall (a : list Qc) (l : list nat), length a = n -> length l = n ->
  (ls (dot a) (orderings n l) = qfact n * (ls id1 a * ls n1 l / qn n))%Qc.
Proof.
  induction n; intros a l Ha Hl.
  { destruct a; [|discriminate]. destruct l; [|discriminate]. unfold ls, Qcdiv. cbn [orderings fold_right dot qfact]. ring. }
  destruct a as [|c a]; [discriminate|]. simpl in Ha. injection Ha as Ha.
  simpl orderings. rewrite ls_flat.
  rewrite (ls_ext _ (fun p => (qfact n * c) * n1 (fst p) + (qfact n * (ls id1 a / qn n) * (ls n1 l - n1 (fst p))))%Qc).
  2:{ intros p Hp. rewrite ls_map. simpl dot.
      rewrite (ls_ext _ (fun x => (c * qn (fst p)) * 1 + dot a x)%Qc) by (intros; ring).
      rewrite ls_plus, ls_scal. pose proof (picks_len _ _ Hp).
      rewrite count_orderings by lia. rewrite IHn by (auto; lia). rewrite (picks_sum n1 l p Hp). unfold n1. unfold Qcdiv. ring. }
  rewrite ls_plus, !ls_scal. rewrite (sum_picks n1).
  rewrite (ls_ext _ (fun p : nat * list nat => ls n1 l * 1 + (-(1)) * n1 (fst p))%Qc) by (intros; ring).
  rewrite ls_plus, !ls_scal, (sum_picks n1), ls_one, <- (map_length fst), picks_fst, Hl.
  change (ls id1 (c :: a)) with (c + ls id1 a)%Qc. change (qfact (S n)) with (qn (S n) * qfact n)%Qc.
  destruct n as [|n].
  - destruct a; [|discriminate]. change (ls id1 []) with 0%Qc. change (qfact 0) with 1%Qc. rewrite qn_1.
    unfold Qcdiv. rewrite inv_1. ring.
  - pose proof (qn_nz (S n) (Nat.neq_succ_0 n)) as P1. pose proof (qn_nz (S (S n)) (Nat.neq_succ_0 (S n))) as P2.
    rewrite (qn_S (S n)) in *. field. split; assumption.
Qed.

(** The second moment. *)
Lemma second_moment n : forall (a : list Qc) (l : list nat), length a = n -> length l = n ->
  (ls (fun r => dot a r * dot a r) (orderings n l) =
   qfact n * (ls id1 a * ls n1 l / qn n * (ls id1 a * ls n1 l / qn n)
              + (ls sq2 a - ls id1 a * ls id1 a / qn n) * (ls n2 l - ls n1 l * ls n1 l / qn n) / (qn n - 1)))%Qc.
Proof.
  induction n; intros a l Ha Hl.
  { destruct a; [|discriminate]. destruct l; [|discriminate]. unfold ls, Qcdiv. cbn [orderings fold_right dot qfact]. ring. }
  destruct a as [|c a]; [discriminate|]. simpl in Ha. injection Ha as Ha.
  simpl orderings. rewrite ls_flat.
  pose (A1 := ls id1 a). pose (A2 := ls sq2 a). pose (B1 := ls n1 l). pose (B2 := ls n2 l). pose (k := qn n).
  rewrite (ls_ext _ (fun p => qfact n * ((A1 / k * (A1 / k) * (B1 * B1)
                                     + (A2 - A1 * A1 / k) * (B2 - B1 * B1 / k) / (k - 1)) * 1)
     + (qfact n * ((c * (A1 * B1 / k) + c * (A1 * B1 / k) - A1 / k * (A1 / k) * (B1 + B1)
                    + (A2 - A1 * A1 / k) * ((B1 + B1) / k) / (k - 1)) * n1 (fst p))
     + qfact n * ((c * c - c * (A1 / k) - c * (A1 / k) + A1 / k * (A1 / k)
                   - (A2 - A1 * A1 / k) * (1 + / k) / (k - 1)) * n2 (fst p))))%Qc).
  2:{ intros p Hp. rewrite ls_map. simpl dot.
      rewrite (ls_ext _ (fun x => (c * qn (fst p) * (c * qn (fst p))) * 1
                 + ((c * qn (fst p) + c * qn (fst p)) * dot a x + dot a x * dot a x))%Qc) by (intros; ring).
      rewrite !ls_plus, !ls_scal. pose proof (picks_len _ _ Hp).
      rewrite count_orderings by lia. rewrite IHn by (auto; lia). rewrite first_moment by (auto; lia).
      rewrite (picks_sum n1 l p Hp), (picks_sum n2 l p Hp).
      fold A1 A2 B1 B2 k. change (n1 (fst p)) with (qn (fst p)). change (n2 (fst p)) with (qn (fst p) * qn (fst p))%Qc.
      unfold Qcdiv. ring. }
  rewrite !ls_plus, !ls_scal. rewrite (sum_picks n1), (sum_picks n2), ls_one, <- (map_length fst), picks_fst, Hl.
  fold B1 B2.
  change (ls id1 (c :: a)) with (c + A1)%Qc. change (ls sq2 (c :: a)) with (c * c + A2)%Qc.
  change (qfact (S n)) with (qn (S n) * qfact n)%Qc.
  rewrite (qn_S n). fold k.
  destruct n as [|[|n]].
  - destruct a; [|discriminate]. subst A1 A2 k. change (ls id1 []) with 0%Qc. change (ls sq2 []) with 0%Qc.
    destruct l as [|x [|]]; try discriminate. subst B1 B2. unfold ls. cbn [fold_right].
    change (qfact 0) with 1%Qc. unfold n1, n2. rewrite qn_0. unfold Qcdiv.
    replace (1 + 0)%Qc with 1%Qc by ring. rewrite inv_1. ring.
  - destruct a as [|d [|]]; try discriminate. subst A1 A2 k. change (ls id1 [d]) with (d + 0)%Qc.
    change (ls sq2 [d]) with (d * d + 0)%Qc. rewrite qn_1.
    change (qfact 1) with (qn 1 * 1)%Qc. rewrite qn_1.
    replace (1 + 1 - 1)%Qc with 1%Qc by ring.
    assert (T : (1 + 1)%Qc <> 0%Qc) by discriminate.
    unfold Qcdiv. rewrite !inv_1. replace (d * d + 0 - (d + 0) * (d + 0) * 1)%Qc with 0%Qc by ring.
    generalize (/ (1 - 1))%Qc. intro z. field. exact T.
  - assert (N1 : k <> 0%Qc) by (apply qn_nz; lia).
    assert (N2 : (k - 1)%Qc <> 0%Qc).
    { unfold k. rewrite qn_S. replace (1 + qn (S n) - 1)%Qc with (qn (S n)) by ring. apply qn_nz. lia. }
    assert (N3 : (1 + k)%Qc <> 0%Qc) by (unfold k; rewrite <- qn_S; apply qn_nz; lia).
    replace (1 + k - 1)%Qc with k by ring. field. repeat split; assumption.
Qed.

Lemma sum_seq1 N : ls n1 (seq 1 N) = (qn N * (qn N + 1) / qz 2)%Qc.
Proof.
  assert (T : qz 2 <> 0%Qc) by discriminate.
  induction N; [apply Qc_is_canon; reflexivity|].
  rewrite seq_S, ls_app, IHN. change (ls n1 [1 + N]) with (qn (S N) + 0)%Qc. rewrite qn_S.
  assert (E2 : qz 2 = (1 + 1)%Qc) by (apply Qc_is_canon; reflexivity). rewrite E2 in *. field. exact T.
Qed.
Lemma sum_seq2 N : ls n2 (seq 1 N) = (qn N * (qn N + 1) * (qn N + qn N + 1) / qz 6)%Qc.
Proof.
  assert (T : qz 6 <> 0%Qc) by discriminate.
  induction N; [apply Qc_is_canon; reflexivity|].
  rewrite seq_S, ls_app, IHN. change (ls n2 [1 + N]) with (qn (S N) * qn (S N) + 0)%Qc. rewrite qn_S.
  assert (E2 : qz 6 = ((1 + 1) * (1 + 1 + 1))%Qc) by (apply Qc_is_canon; reflexivity). rewrite E2 in *. field. exact T.
Qed.

Lemma in_orderings n : forall l r, length l = n -> In r (orderings n l) ->
  length r = n /\ ls n2 r = ls n2 l.
Proof.
  induction n; intros l r Hl H.
  - destruct l; [|discriminate]. destruct H as [<-|[]]. auto.
  - simpl in H. apply in_flat_map in H. destruct H as [p [Hp H]]. apply in_map_iff in H.
    destruct H as [s [<- Hs]]. pose proof (picks_len _ _ Hp). destruct (IHn (snd p) s) as [L E]; [lia|auto|].
    split; [simpl; lia|]. change (ls n2 (fst p :: s)) with (n2 (fst p) + ls n2 s)%Qc.
    rewrite E, (picks_sum n2 _ _ Hp). ring.
Qed.

(** Sum of squared differences by the inner product. *)
Lemma sqdiff : forall (s r : list nat), length s = length r ->
  fold_right (fun p t => (qn (fst p) - qn (snd p)) * (qn (fst p) - qn (snd p)) + t)%Qc 0%Qc (combine s r)
  = (ls n2 s + ls n2 r - (dot (map qn s) r + dot (map qn s) r))%Qc.
Proof.
  induction s as [|x s IH]; destruct r as [|y r]; try discriminate; [reflexivity|].
  intro H. injection H as H. simpl combine. cbn [fold_right fst snd]. rewrite (IH r H).
  change (ls n2 (x :: s)) with (qn x * qn x + ls n2 s)%Qc. change (ls n2 (y :: r)) with (qn y * qn y + ls n2 r)%Qc.
  simpl dot. ring.
Qed.

Lemma qfact_nz n : qfact n <> 0%Qc.
Proof. induction n; [discriminate|]. simpl. intro H. apply Qcmult_integral in H. destruct H as [H|H]; auto. revert H. apply qn_nz. lia. Qed.

Lemma spearman_dot N r : In r (orderings N (seq 1 N)) ->
  spearman N r = (1 - qz 12 / (qn N * qn N * qn N - qn N) * ls n2 (seq 1 N)
                  + qz 12 / (qn N * qn N * qn N - qn N) * dot (map qn (seq 1 N)) r)%Qc.
Proof.
  intro H. apply in_orderings in H; [|apply seq_length]. destruct H as [L E].
  unfold spearman. rewrite sqdiff by (rewrite seq_length; auto). rewrite E.
  replace (qz 12) with (qz 6 * (1 + 1))%Qc by (apply Qc_is_canon; reflexivity). unfold Qcdiv. ring.
Qed.

Lemma average_ls {A} (f : A -> Qc) l : average f l = (ls f l / qn (length l))%Qc.
Proof. reflexivity. Qed.

Lemma cube_factor (k : Qc) : (k * k * k - k = k * ((k - 1) * (k + 1)))%Qc.
Proof. ring. Qed.

Lemma perm_moments N : 2 <= N ->
  average (spearman N) (orderings N (seq 1 N)) = 0%Qc /\
  average (fun r => spearman N r * spearman N r)%Qc (orderings N (seq 1 N)) = (1 / qn (N - 1))%Qc.
Proof.
  intro H. pose (k := qn N).
  assert (K1 : qn (N - 1) = (k - 1)%Qc) by (unfold k; replace N with (S (N - 1)) at 2 by lia; rewrite qn_S; ring).
  assert (P0 : k <> 0%Qc) by (apply qn_nz; lia).
  assert (P1 : (k - 1)%Qc <> 0%Qc) by (rewrite <- K1; apply qn_nz; lia).
  assert (P2 : (k + 1)%Qc <> 0%Qc).
  { unfold k. rewrite Qcplus_comm, <- qn_S. apply qn_nz. lia. }
  assert (T : qz 2 <> 0%Qc) by discriminate. assert (S6 : qz 6 <> 0%Qc) by discriminate.
  assert (L1 := first_moment N (map qn (seq 1 N)) (seq 1 N)).
  assert (L2 := second_moment N (map qn (seq 1 N)) (seq 1 N)).
  assert (L0 := count_orderings N (seq 1 N)). rewrite ls_one in L0.
  rewrite map_length, seq_length in *. specialize (L0 eq_refl). specialize (L1 eq_refl eq_refl). specialize (L2 eq_refl eq_refl).
  rewrite (ls_map id1 qn) in L1, L2. rewrite (ls_map sq2 qn) in L2.
  change (ls (fun x => id1 (qn x)) (seq 1 N)) with (ls n1 (seq 1 N)) in *.
  change (ls (fun x => sq2 (qn x)) (seq 1 N)) with (ls n2 (seq 1 N)) in *.
  rewrite !average_ls, L0.
  pose (D := (k * k * k - k)%Qc). pose (c := (qz 12 / D)%Qc). pose (e := (1 - c * ls n2 (seq 1 N))%Qc).
  rewrite (ls_ext _ (fun r => e * 1 + c * dot (map qn (seq 1 N)) r)%Qc).
  2:{ intros r Hr. rewrite (spearman_dot _ _ Hr). unfold e, c, D, k. ring. }
  rewrite (ls_ext (fun r => spearman N r * spearman N r)%Qc
            (fun r => (e * e) * 1 + ((e * c + e * c) * dot (map qn (seq 1 N)) r
                      + (c * c) * (dot (map qn (seq 1 N)) r * dot (map qn (seq 1 N)) r)))%Qc).
  2:{ intros r Hr. rewrite (spearman_dot _ _ Hr). unfold e, c, D, k. ring. }
  rewrite !ls_plus, !ls_scal, ls_one, L0, L1, L2. pose proof (qfact_nz N) as F.
  set (f := qfact N) in *. fold k. rewrite K1. unfold e, c, D. rewrite cube_factor, sum_seq1, sum_seq2. fold k.
  replace (qz 12) with (qz 6 * qz 2)%Qc by (apply Qc_is_canon; reflexivity).
  assert (E6 : qz 6 = (qz 2 * (1 + qz 2))%Qc) by (apply Qc_is_canon; reflexivity). rewrite E6.
  assert (E2 : qz 2 = (1 + 1)%Qc) by (apply Qc_is_canon; reflexivity). rewrite E2 in *.
  assert (T3 : (1 + (1 + 1))%Qc <> 0%Qc) by discriminate.
  split; field; repeat split; assumption.
Qed.
