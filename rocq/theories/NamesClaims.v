(** Column names and operations (C15). *)

From Coq Require Import String Ascii QArith Qcanon ZArith List Bool Lia.
From Verif Require Import Val Frame Triangle A2A Base Mack Boot QcLib ListLib Spec.
Import ListNotations.
Open Scope string_scope.
Open Scope list_scope.
Open Scope nat_scope.

Section Value.
  (** Only the name of the value column differs. *)
  Variables (m : lmat) (v : string).
  Let t := mkTri m "origin" "dev" v.
  Let s := mkTri m "origin" "dev" "value".
  Lemma nv_latest : latest t = latest s.
  Proof. reflexivity. Qed.
  Lemma nv_lo : latest_by_origin t = latest_by_origin s.
  Proof. reflexivity. Qed.
  Lemma nv_ld : latest_by_devp t = latest_by_devp s.
  Proof. reflexivity. Qed.
  Lemma nv_diag k : diagonal t k = diagonal s k.
  Proof. reflexivity. Qed.
  Lemma nv_cl cl ldfs tail : chain_ladder t cl ldfs tail = chain_ladder s cl ldfs tail.
  Proof. reflexivity. Qed.
  Lemma nv_base gm cl ind sel tail : base_cl gm t cl ind sel tail = base_cl gm s cl ind sel tail.
  Proof. reflexivity. Qed.
  Lemma nv_mack cl ind alpha tail : mack_cl t cl ind alpha tail = mack_cl s cl ind alpha tail.
  Proof. reflexivity. Qed.
End Value.

Section Other.
  (** The origin or the dev column has another name. *)
  Variables (t : tri).
  Hypothesis H : t_o t <> "origin" \/ t_d t <> "dev".
  Lemma no_latest : latest t = Err KeyError.
  Proof.
    unfold latest, to_tbl. destruct (String.eqb_spec (t_o t) "origin"); cbn; auto.
    destruct (String.eqb_spec (t_d t) "dev"); auto. destruct H; congruence.
  Qed.
  Lemma no_lo : latest_by_origin t = Err KeyError.
  Proof. unfold latest_by_origin. rewrite no_latest. reflexivity. Qed.
  Lemma no_ld : latest_by_devp t = Err KeyError.
  Proof. unfold latest_by_devp. rewrite no_latest. reflexivity. Qed.
  Lemma no_diag k : exists e, diagonal t k = Err e.
  Proof. unfold diagonal. rewrite no_latest. cbn. destruct (_ <? _)%Z; eauto. Qed.
  Lemma no_cl cl ldfs tail : chain_ladder t cl ldfs tail = Err KeyError.
  Proof. unfold chain_ladder, ultimates. rewrite no_lo. reflexivity. Qed.
  Lemma no_base gm cl ind sel tail : exists e, snd (base_cl gm t cl ind sel tail) = Err e.
  Proof.
    unfold base_cl. destruct (select_ldfs gm (t_mat t) ind sel tail) as [sel' [l|e]]; cbn; eauto.
    rewrite no_cl. eauto.
  Qed.
  Lemma no_mack cl ind alpha tail : exists e, mack_cl t cl ind alpha tail = Err e.
  Proof.
    unfold mack_cl. destruct (mack_ldfs t ind alpha (Fin 1%Qc)); cbn; eauto. rewrite no_cl. cbn. eauto.
  Qed.
  Lemma no_boot gm sq cl rl ind sims par rng : exists e, boot_cl gm sq t cl rl ind sims par rng = Err e.
  Proof.
    unfold boot_cl. destruct (ldfs_of_label gm (t_mat t) ind "all-weighted" (Fin 1%Qc)); cbn; eauto.
    rewrite no_lo. cbn. eauto.
  Qed.
End Other.

Lemma no_value_boot gm sq t cl rl ind sims par rng : t_v t <> "value" ->
  exists e, boot_cl gm sq t cl rl ind sims par rng = Err e.
Proof.
  intro H. unfold boot_cl. destruct (ldfs_of_label gm (t_mat t) ind "all-weighted" (Fin 1%Qc)); cbn; eauto.
  destruct (latest_by_origin t); cbn; eauto. destruct (tri_fit_cum _ _); cbn; eauto.
  destruct (resid_us _ _ _); cbn; eauto. destruct (String.eqb_spec (t_v t) "value"); [contradiction|]. cbn. eauto.
Qed.

Lemma to_tbl_iff t b : (exists f, to_tbl t b = Ok f) <-> t_o t = "origin".
Proof.
  unfold to_tbl. destruct (String.eqb_spec (t_o t) "origin"); split; intro H; eauto; try congruence.
  destruct H. discriminate.
Qed.

Lemma to_cum_names t : t_d t <> "value" -> (t_o t <> "origin" \/ t_d t <> "dev" \/ t_v t <> "value") ->
  t_o t <> t_d t -> t_o t <> t_v t -> t_d t <> t_v t -> exists e, to_cum t = Err e.
Proof.
  intros Hdv H A B C. unfold to_cum, to_tbl.
  destruct (String.eqb_spec (t_o t) "origin") as [Eo|]; cbn [bind]; [|cbn; eauto].
  destruct H as [H|H]; [contradiction|].
  unfold halloc. cbn [app length]. unfold cum_ctor. cbn [dflt].
  set (f := recs_frame (t_o t) (t_d t) (t_v t) (to_tbl_recs (t_mat t) true)). change (hget [f] 0) with f.
  destruct (fint f "origin") as [os|e] eqn:Fo; [|cbn; eauto].
  destruct (fval f "value") as [vs|e] eqn:Fv; [|cbn; eauto].
  assert (Ev : t_v t = "value").
  { revert Fv. unfold fval, fcount, fget, f, recs_frame. cbn. rewrite Eo. cbn.
    destruct (String.eqb_spec (t_d t) "value") as [E|_]; [contradiction|].
    destruct (String.eqb_spec (t_v t) "value") as [E|_]; auto. cbn. discriminate. }
  assert (Hd : t_d t <> "dev") by (destruct H; congruence).
  unfold base_ctor.
  destruct (fdrop _ "value") as [f2|e] eqn:D; [|cbn; eauto].
  unfold halloc. set (h3 := (hset _ _ _ ++ _) ++ _). set (r3 := length _).
  assert (G : hget h3 r3 = frename f2 "cumval" "value").
  { unfold h3, r3. unfold hget. rewrite app_nth2; [|lia]. rewrite Nat.sub_diag. reflexivity. }
  rewrite G. unfold validate.
  assert (ND : fhas (frename f2 "cumval" "value") "dev" = false).
  { revert D. unfold fdrop. destruct (fhas _ "value"); [|discriminate]. intro D. injection D as <-.
    unfold f, recs_frame. rewrite Eo, Ev. unfold fset, frename, fhas. cbn.
    destruct (String.eqb_spec (t_d t) "cumval") as [E|E]; cbn.
    - rewrite E. cbn. reflexivity.
    - destruct (String.eqb_spec (t_d t) "value"); [contradiction|]. cbn.
      destruct (String.eqb_spec (t_d t) "cumval"); [contradiction|]. cbn.
      destruct (String.eqb_spec (t_d t) "dev"); [contradiction|]. cbn. reflexivity. }
  destruct (fhas (frename f2 "cumval" "value") "origin"); cbn [negb]; [|cbn; eauto].
  rewrite ND. cbn. eauto.
Qed.

From Verif Require Import BuildFacts CumFacts FillFacts TotriFacts TblFacts TriClaims ConvFacts TriClaims2 ConvIff.

Lemma to_cum_iff f o d v l : o <> d -> o <> v -> d <> v -> d <> "value" ->
  table_in f o d v l -> l <> [] -> all_finite l ->
  exists ob, totri f "incr" "incr" "tabular" o d v = Ok ob /\
    ((exists t, to_cum (ob_tri ob) = Ok t) <-> o = "origin" /\ d = "dev" /\ v = "value").
Proof.
  intros Hod Hov Hdv Hd T Hl F.
  assert (E := totri_incr_table o d v Hod Hov Hdv f l "incr" "incr" T Hl eq_refl eq_refl).
  eexists. split; [exact E|]. split.
  - intros (t & Et).
    destruct (String.string_dec o "origin") as [Eo|No]; [destruct (String.string_dec d "dev") as [Ed|Nd]; [destruct (String.string_dec v "value") as [Ev|Nv]|]|]; auto;
      exfalso; cbn [ob_tri] in Et;
      (match type of Et with to_cum ?x = _ => destruct (to_cum_names x) as (e & Q); cbn; auto end); congruence.
  - intros (-> & -> & ->). destruct (incr_to_cum_all f l T Hl F) as (ob & m & E1 & E2 & _).
    rewrite E in E1. injection E1 as <-. eauto.
Qed.
