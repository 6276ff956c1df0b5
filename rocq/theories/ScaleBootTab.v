(** The summary table and the quantiles of rescaled simulated reserves (C92). *)

From Coq Require Import String QArith Qcanon Qround Qreals Reals ZArith List Bool Lia Lra Sorting.Sorted.
From Verif Require Import Val Frame Triangle A2A Base Mack Boot Quant Dist BootSum SpecUnits ListLib QcLib ScaleBoot ScaleBootClaims.
Import ListNotations.
Open Scope list_scope.
Open Scope nat_scope.

Section T.
  Variable c : Qc.
  Hypothesis Cp : (0 < c)%Qc.
  Notation sc := (vmul (Fin c)).

  Lemma origin_sample_sc rs o : origin_sample (map (srec c) rs) o = map sc (origin_sample rs o).
  Proof.
    unfold origin_sample. rewrite (filter_map (srec c) _ (fun r => (v_o r =? o)%Z)) by auto. rewrite !map_map. auto.
  Qed.
  Lemma total_sample_sc rs : total_sample (map (srec c) rs) = map sc (total_sample rs).
  Proof.
    unfold total_sample. rewrite !map_map. change (map (fun x => v_sim (srec c x)) rs) with (map v_sim rs). apply map_ext. intro s.
    rewrite (filter_map (srec c) _ (fun r => v_sim r =? s)) by auto. rewrite <- (sc_skip c Cp), !map_map. auto.
  Qed.
  Lemma samples_sc rs os : Quant.samples (map (srec c) rs) os = map (map sc) (Quant.samples rs os).
  Proof.
    unfold Quant.samples. rewrite map_app, map_map. cbn [map]. rewrite total_sample_sc. f_equal. apply map_ext.
    intro o. apply origin_sample_sc.
  Qed.

  Lemma finite_sc l : finite (map sc l) = match finite l with Some q => Some (map (Qcmult c) q) | None => None end.
  Proof.
    induction l as [|v l IH]; cbn [map finite]; auto.
    destruct v; cbn; rewrite ?(qsgn_c c Cp); cbn; auto. rewrite IH. destruct (finite l); auto.
  Qed.
  Lemma percentile_sc me l q : percentile me (map (Qcmult c) l) q = match percentile me l q with Ok x => Ok (c * x)%Qc | Err e => Err e end.
  Proof.
    unfold percentile. destruct l as [|x l]; auto. cbn [map]. change (c * x :: map (Qcmult c) l)%Qc with (map (Qcmult c) (x :: l)).
    rewrite (ssort_map Qccompare Qccompare (Qcmult c)) by (intros; apply qcmp_mul; auto). rewrite map_length.
    assert (N : forall j s, nth j (map (Qcmult c) s) 0%Qc = (c * nth j s 0)%Qc).
    { intros j s. rewrite <- (map_nth (Qcmult c)). f_equal. ring. }
    rewrite !N. destruct me; f_equal; try ring. unfold Qcdiv. ring.
  Qed.
  Lemma pctl_sc me l q : pctl me (map sc l) q = match pctl me l q with Ok x => Ok (c * x)%Qc | Err e => Err e end.
  Proof. unfold pctl. rewrite finite_sc. destruct (finite l); auto. apply percentile_sc. Qed.

  Lemma mapM_sc {A B} (f : A -> res B) (f' : A -> res B) (g : B -> B) l :
    (forall a, f' a = match f a with Ok x => Ok (g x) | Err e => Err e end) ->
    mapM f' l = match mapM f l with Ok r => Ok (map g r) | Err e => Err e end.
  Proof.
    intro H. induction l as [|a l IH]; cbn [mapM]; auto. rewrite H. destruct (f a); cbn [bind]; auto. rewrite IH.
    destruct (mapM f l); cbn [bind]; auto.
  Qed.
  Notation scols := (columns_units c).
  Lemma cols_sc rs os qs : forall me,
    mapM (fun x => mapM (fun l => pctl me l x) (Quant.samples (map (srec c) rs) os)) qs
    = match mapM (fun x => mapM (fun l => pctl me l x) (Quant.samples rs os)) qs with Ok r => Ok (map (map (Qcmult c)) r) | Err e => Err e end.
  Proof.
    intro me. apply mapM_sc. intro x. rewrite samples_sc.
    transitivity (mapM (fun l => pctl me (map sc l) x) (Quant.samples rs os)).
    - generalize (Quant.samples rs os). intro l. induction l as [|a l IH]; cbn [map mapM]; auto. rewrite IH. auto.
    - apply mapM_sc. intro l. apply pctl_sc.
  Qed.
  Lemma dict_sc d k v : scols (dict_set d k v) = dict_set (scols d) k (map (Qcmult c) v).
  Proof.
    induction d as [|p d IH]; cbn [dict_set columns_units map]; auto. cbn [fst snd]. destruct (String.eqb (fst p) k); cbn [map]; auto.
    fold (columns_units c (dict_set d k v)). rewrite IH. auto.
  Qed.
  Lemma fold_sc hs : forall cols d,
    fold_left (fun d p => dict_set d (fst p) (snd p)) (combine hs (map (map (Qcmult c)) cols)) (scols d)
    = scols (fold_left (fun d p => dict_set d (fst p) (snd p)) (combine hs cols) d).
  Proof.
    induction hs as [|h hs IH]; intros [|x cols] d; cbn [map combine fold_left]; auto. cbn [fst snd]. rewrite <- dict_sc. apply IH.
  Qed.
  Lemma c92_summary_quantiles rs os q two me :
    boot_summary_quantiles (map (srec c) rs) os q two me
    = match boot_summary_quantiles rs os q two me with Ok l => Ok (scols l) | Err e => Err e end.
  Proof.
    unfold boot_summary_quantiles. destruct (qtls_formatter q two) as [r|e]; cbn [bind]; auto. rewrite cols_sc.
    destruct (mapM _ (fst r)); cbn [bind]; auto. f_equal. apply (fold_sc (snd r) _ []).
  Qed.
  Lemma c92_get_quantiles rs os q me lb :
    boot_get_quantiles (map (srec c) rs) os q me (match lb with Some b => Some (c * b)%Qc | None => None end)
    = match boot_get_quantiles rs os q me lb with Ok l => Ok (scols l) | Err e => Err e end.
  Proof.
    unfold boot_get_quantiles. destruct (result_formatter q) as [r|e]; cbn [bind]; auto. rewrite cols_sc.
    destruct (mapM _ (fst r)); cbn [bind]; auto. f_equal. rewrite (fold_sc (snd r) _ []). unfold columns_units. rewrite !map_map.
    apply map_ext. intros (h, v). cbn [fst snd]. f_equal. rewrite !map_map. apply map_ext. intro x. unfold raise_to. destruct lb as [b|]; auto.
    unfold qcltb. rewrite (qcmp_mul c Cp). destruct (x ?= b)%Qc; auto.
  Qed.

  (** *** Standard errors *)
  Lemma sc_cc v : sc (sc v) = vmul (Fin (c * c)%Qc) v.
  Proof.
    assert (E := qsgn_c c Cp). assert (E' : qsgn (c * c)%Qc = SPos) by (apply qsgn_c, qc_mul_pos; auto).
    destruct v; cbn; rewrite ?E, ?E'; cbn; rewrite ?E; auto. f_equal. ring.
  Qed.
  Lemma variance_sc l : variance1 (map sc l) = sc (sc (variance1 l)).
  Proof.
    unfold variance1. rewrite (sc_mean c Cp), map_length, <- !(sc_div_l c Cp). f_equal.
    rewrite <- !(sc_sum c Cp), !map_map. f_equal. apply map_ext. intro v.
    rewrite (sc_sub c Cp), (sc_mul_l c Cp), (sc_mul_r c Cp). auto.
  Qed.
  Lemma Q2R_mul (a b : Qc) : Q2R (this (a * b)%Qc) = (Q2R (this a) * Q2R (this b))%R.
  Proof. cbn [Qcmult Q2Qc this]. rewrite <- Q2R_mult. apply Qeq_eqR, Qred_correct. Qed.
  Lemma Q2R_c : (0 < Q2R (this c))%R.
  Proof. replace 0%R with (Q2R 0) by (unfold Q2R; simpl; lra). apply Qlt_Rlt. exact Cp. Qed.
  Lemma of_sc v : of_val (sc v) = fscal (Q2R (this c)) (of_val v).
  Proof. destruct v; cbn; rewrite ?(qsgn_c c Cp); cbn; auto. f_equal. apply (Q2R_mul c q). Qed.
  Lemma sqrt_sc v : fsqrt (of_val (sc (sc v))) = fscal (Q2R (this c)) (fsqrt (of_val v)).
  Proof.
    rewrite !of_sc. assert (H := Q2R_c). set (x := Q2R (this c)) in *. destruct (of_val v) as [| | |r]; cbn [fscal fsqrt]; auto.
    destruct (Rlt_dec r 0) as [L|L].
    - destruct (Rlt_dec (x * (x * r)) 0) as [L'|L']; auto. exfalso. apply L'.
      rewrite <- Rmult_assoc. rewrite <- (Rmult_0_r (x * x)). apply Rmult_lt_compat_l; auto. apply Rmult_lt_0_compat; auto.
    - destruct (Rlt_dec (x * (x * r)) 0) as [L'|L'].
      + exfalso. apply (Rlt_not_le _ _ L'). apply Rmult_le_pos; [lra|]. apply Rmult_le_pos; lra.
      + cbn [fscal]. f_equal. rewrite <- Rmult_assoc, sqrt_mult_alt by (apply Rmult_le_pos; lra). rewrite sqrt_square by lra. auto.
  Qed.
  Lemma div_sc a b : fdiv (fscal (Q2R (this c)) a) (fscal (Q2R (this c)) b) = fdiv a b.
  Proof.
    assert (H := Q2R_c). set (x := Q2R (this c)) in *. destruct a as [| | |a], b as [| | |b]; cbn [fscal fdiv]; auto.
    - destruct (Rlt_dec (x * b) 0) as [L|L], (Rlt_dec b 0) as [L'|L']; auto; exfalso; nra.
    - destruct (Rlt_dec (x * b) 0) as [L|L], (Rlt_dec b 0) as [L'|L']; auto; exfalso; nra.
    - destruct (Req_EM_T (x * b) 0) as [L|L], (Req_EM_T b 0) as [L'|L']; try (exfalso; nra).
      + destruct (Req_EM_T (x * a) 0) as [K|K], (Req_EM_T a 0) as [K'|K']; auto; try (exfalso; nra).
        destruct (Rlt_dec (x * a) 0), (Rlt_dec a 0); auto; exfalso; nra.
      + f_equal. field. split; auto. lra.
  Qed.
End T.

(** *** The summary table *)
Notation sbrow := row_units.
Lemma c92_table k b : (0 < k)%Qc -> boot_table (sres k b) = map (sbrow (k * k)%Qc) (boot_table b).
Proof.
  intro Kp. assert (Cp : (0 < k * k)%Qc) by (apply qc_mul_pos; auto). set (c := (k * k)%Qc) in *.
  assert (Es : boot_std_errors (sres k b) = map (fscal (Q2R (this c))) (boot_std_errors b)).
  { unfold boot_std_errors, boot_variances. unfold sres. cbn [o_reserves o_summary]. fold c.
    rewrite (samples_sc c Cp), !map_map.
    assert (E : map (fun x => fst (fst (fst (let '(o, l, u, v) := x in (o, vmul (Fin c) l, vmul (Fin c) u, vmul (Fin c) v))))) (o_summary b)
      = map (fun r => fst (fst (fst r))) (o_summary b)).
    { apply map_ext. intros (((o, l), u), v). auto. }
    rewrite E. apply map_ext. intro l. rewrite (variance_sc c Cp), (sqrt_sc c Cp). auto. }
  unfold boot_table. rewrite Es. unfold sres. cbn [o_summary o_total]. fold c.
  set (f := fun r : option Z * val * val * val => let '(o, l, u, v) := r in (o, vmul (Fin c) l, vmul (Fin c) u, vmul (Fin c) v)).
  set (cols := map (fun r : Z * val * val * val => let '(o, l, u, r0) := r in (Some o, l, u, r0)) (o_summary b)
              ++ [let '(l, u, r) := o_total b in (None, l, u, r)]).
  assert (Ec : map (fun r : Z * val * val * val => let '(o, l, u, r0) := r in (Some o, l, u, r0))
     (map (fun r : Z * val * val * val => let '(o, l, u, v) := r in (o, vmul (Fin c) l, vmul (Fin c) u, vmul (Fin c) v)) (o_summary b))
     ++ [let '(l, u, r) := let '(l, u, v) := o_total b in (vmul (Fin c) l, vmul (Fin c) u, vmul (Fin c) v) in (None, l, u, r)] = map f cols).
  { unfold cols. rewrite map_app, !map_map. f_equal.
    - apply map_ext. intros (((o, l), u), v). auto.
    - destruct (o_total b) as ((l, u), v). auto. }
  rewrite Ec. rewrite (combine_sc f), !map_map. apply map_ext. intros ((((o, l), u), r), se). cbn [fst snd f].
  unfold row_units. cbn [w_origin w_latest w_ultimate w_reserve w_std_error w_cv]. rewrite (of_sc c Cp), (div_sc c Cp). auto.
Qed.
