(** C18 and C27: indicator assignments, cached properties, histories of calls. *)

From Coq Require Import String QArith Qcanon ZArith List Bool Lia Ascii.
From Verif Require Import Val QcLib Frame Triangle A2A Base Mack Diag Boot State ListLib SpecState
  StateFacts StateClaims StateBuilt ExTri.
Import ListNotations.
Open Scope string_scope.
Open Scope list_scope.
Open Scope nat_scope.

(** ** C18 *)

(** Whatever else was read, called or assigned, reading a2aind gives a frame of the
    shape of a2a whose cells hold the last value assigned, or 1/0 for an observed or
    unobserved link ratio. *)
Theorem C18_indicators : forall gm sq t c0 cl rl h,
  offsets t c0 cl -> rlvi (t_mat t) = Ok rl -> Forall (known t) h ->
  exists i, snd (exec gm sq t OA2aind (after gm sq t h (new_cache t c0))) = Ok (BCells i) /\
    List.length i = nrows (a2a (t_mat t)) /\
    Forall (fun r => List.length r = ncols (a2a (t_mat t))) i /\
    forall o d, In o (m_idx (a2a (t_mat t))) -> In d (m_cols (a2a (t_mat t))) ->
      mget (mkMat (m_idx (a2a (t_mat t))) (m_cols (a2a (t_mat t))) i) o d =
      match last_value (assignments h (answers gm sq t h (new_cache t c0))) o d with
      | Some v => v
      | None => if isnan (mget (a2a (t_mat t)) o d) then Fin 0 else Fin 1
      end.
Proof. intros gm sq t c0 cl rl h H0 Hr Hh. exact (c18 gm sq t cl rl Hr c0 h H0 Hh). Qed.
Print Assumptions C18_indicators.

(** Nothing else changes: what does not depend on the indicators reads as on the new
    object, after any history of assignments. *)
Theorem C18_nothing_else : forall gm sq t c0 cl rl h o,
  offsets t c0 cl -> rlvi (t_mat t) = Ok rl -> Forall (known t) h -> indicator_free o = true ->
  snd (exec gm sq t o (after gm sq t h (new_cache t c0))) = snd (exec gm sq t o (new_cache t c0)).
Proof. intros gm sq t c0 cl rl h o H0 Hr Hh Ho. exact (c18_else gm sq t cl rl Hr c0 h o H0 Hh Ho). Qed.
Print Assumptions C18_nothing_else.

(** Assignments through the frame are always accepted; assignments through the setter
    are once a2aind has been read. *)
Theorem C18_accepted_partial : forall gm sq t c0 cl rl h o d v,
  offsets t c0 cl -> rlvi (t_mat t) = Ok rl -> Forall (known t) h -> known t (OSet o d v) ->
  snd (exec gm sq t (OSetAt o d v) (after gm sq t h (new_cache t c0))) = Ok (BUnit tt) /\
  (In OA2aind h ->
   snd (exec gm sq t (OSet o d v) (after gm sq t h (new_cache t c0))) = Ok (BUnit tt)).
Proof.
  intros gm sq t c0 cl rl h o d v H0 Hr Hh Hk. split.
  - exact (c18_at gm sq t cl rl c0 h o d v Hr H0 Hh Hk).
  - exact (c18_set gm sq t cl rl c0 h o d v Hr H0 Hh Hk).
Qed.
Print Assumptions C18_accepted_partial.

(** The documented setter raises on every triangle whose a2aind was never read. *)
Theorem C18_unread_setter_refuted : forall gm sq t c0 o d v,
  snd (exec gm sq t (OSet o d v) (new_cache t c0)) = Err AttributeError.
Proof. reflexivity. Qed.
Print Assumptions C18_unread_setter_refuted.

Definition ex_t : tri := mkTri ex_m "origin" "dev" "value".
Definition ex_hist : list op :=
  [OSet 2001 12 (vz 0); OTriind; OA2aind; OSet 2002 12 (vz 0); OMackCl 1 (vz 1);
   OSetAt 2001 24 (Fin (1 / qz 2)%Qc); OBaseCl (SelLabel "all-simple") (vz 1); OSet 2002 12 (vz 1);
   OLatestByOrigin; OSetAt 2002 12 (vz 3); ODiagonal (-1)].
Example ex_C18 : offsets ex_t None [3; 2; 1; 0] /\ rlvi ex_m = Ok [3; 2; 1; 0] /\ Forall (known ex_t) ex_hist.
Proof.
  split; [exact ex_clvi|]. split; [vm_compute; reflexivity|].
  repeat constructor; vm_compute; tauto.
Qed.
(** The first assignment of [ex_hist] raised; the other four count. *)
Example ex_C18_assignments :
  map (fun a => fst a) (assignments ex_hist (answers ex_gm (fun v => v) ex_t ex_hist (new_cache ex_t None))) =
  [(2002, 12); (2001, 24); (2002, 12); (2002, 12)]%Z.
Proof. vm_compute. reflexivity. Qed.

(** ** C27 *)

(** After any history of reads, calls and assignments, a read or call returns what it
    returns on a new triangle to which only the (accepted) assignments were made. *)
Theorem C27_history : forall gm sq t c0 cl rl h o,
  offsets t c0 cl -> rlvi (t_mat t) = Ok rl -> Forall (known t) h -> is_update o = false ->
  snd (exec gm sq t o (after gm sq t h (new_cache t c0))) =
  snd (exec gm sq t o (after gm sq t (only_updates (assignments h (answers gm sq t h (new_cache t c0))))
                             (new_cache t c0))).
Proof. intros gm sq t c0 cl rl h o H0 Hr Hh Ho. exact (c27 gm sq t cl rl Hr c0 h o H0 Hh Ho). Qed.
Print Assumptions C27_history.

(** Without assignments every step of a history returns what a first call on a new
    triangle returns. *)
Theorem C27_reads_and_calls : forall gm sq t c0 cl rl h,
  offsets t c0 cl -> rlvi (t_mat t) = Ok rl -> Forall (fun o => is_update o = false) h ->
  answers gm sq t h (new_cache t c0) = map (fun o => snd (exec gm sq t o (new_cache t c0))) h.
Proof.
  intros gm sq t c0 cl rl h H0 Hr Hh.
  assert (G : forall h' k, inv t cl rl (a2aind_init (t_mat t)) k -> Forall (fun o => is_update o = false) h' ->
     answers gm sq t h' k = map (fun o => pure gm sq t cl rl (a2aind_init (t_mat t)) o) h').
  { clear h Hh. intros h. induction h as [|o h IH]; intros k Hk Hh; [reflexivity|]. simpl.
    destruct (exec_pure gm sq t cl rl _ Hr o (Forall_inv Hh) k Hk) as [Hk' Hp].
    destruct (exec gm sq t o k) as [k' r]. simpl in Hk', Hp. subst r.
    rewrite (IH k' Hk' (Forall_inv_tail Hh)). reflexivity. }
  rewrite (G h _ (new_inv t cl rl c0 H0) Hh). apply map_ext_in. intros o Ho. rewrite Forall_forall in Hh.
  destruct (exec_pure gm sq t cl rl _ Hr o (Hh o Ho) _ (new_inv t cl rl c0 H0)) as [_ Hp]. symmetry. exact Hp.
Qed.
Print Assumptions C27_reads_and_calls.

(** In terms of the functions the other properties are about: at any point the
    estimators see the cells and the current indicators [i] (those read by a2aind). *)
Theorem C27_estimators : forall gm sq t c0 cl rl h i,
  offsets t c0 cl -> rlvi (t_mat t) = Ok rl -> Forall (known t) h ->
  snd (exec gm sq t OA2aind (after gm sq t h (new_cache t c0))) = Ok (BCells i) ->
  let k := after gm sq t h (new_cache t c0) in
  snd (exec gm sq t OA2aAvgs k) = (do x <- a2a_avgs gm (t_mat t) i ; Ok (BAvgs x)) /\
  (forall sel tail, snd (exec gm sq t (OBaseCl sel tail) k) =
     Ok (BBase (fst (base_cl gm t cl i sel tail)) (snd (base_cl gm t cl i sel tail)))) /\
  (forall alpha tail, snd (exec gm sq t (OMackCl alpha tail) k) =
     (do x <- mack_cl t cl i alpha tail ; Ok (BMack x))) /\
  (forall sims par rng ms, maturity (t_mat t) (triind (nrows (t_mat t)) cl) = Ok ms ->
     snd (exec gm sq t (OBootCl sims par rng) k) =
     (do x <- boot_cl gm sq t cl rl i sims par rng ; Ok (BBoot x))).
Proof.
  intros gm sq t c0 cl rl h i H0 Hr Hh Hi.
  pose proof (c27_pure gm sq t cl rl Hr c0 h) as P.
  rewrite (P OA2aind H0 Hh eq_refl) in Hi. injection Hi as Hi.
  cbv zeta. split; [|split; [|split]].
  - rewrite (P OA2aAvgs H0 Hh eq_refl), Hi. reflexivity.
  - intros sel tail. rewrite (P (OBaseCl sel tail) H0 Hh eq_refl), Hi. reflexivity.
  - intros alpha tail. rewrite (P (OMackCl alpha tail) H0 Hh eq_refl), Hi. reflexivity.
  - intros sims par rng ms Hm. rewrite (P (OBootCl sims par rng) H0 Hh eq_refl), Hi.
    unfold pure. rewrite Hm. unfold boot_cl.
    destruct (ldfs_of_label _ _ _ _ _) as [ldfs|e]; cbv beta iota delta [bind]; [|reflexivity].
    destruct (latest_by_origin t) as [lt|e]; reflexivity.
Qed.
Print Assumptions C27_estimators.

(** Every cumulative triangle returned by [totri] meets the hypotheses. *)
Theorem C27_totri : forall h data ty fmt shape o d v h' ob,
  starts "c"%char ty = true -> totri_h h data ty fmt shape o d v = (h', Ok ob) ->
  exists cl rl, offsets (ob_tri ob) (ob_clvi ob) cl /\ rlvi (t_mat (ob_tri ob)) = Ok rl.
Proof. exact totri_ready. Qed.
Print Assumptions C27_totri.

Example ex_C27_reads : Forall (fun o => is_update o = false)
  [OMaturity; OMackCl 1 (vz 1); OTriind; OBaseCl (SelLabel "all-weighted") (vz 1); OA2aind; OMaturity;
   OBootCl 0 true (fun _ => (fun _ => NaN, fun _ _ => NaN)); OLatest].
Proof. repeat constructor. Qed.
(** The history [ex_hist] matters for later results: its assignments change the ldfs. *)
Example ex_C27_changes :
  let k := after ex_gm (fun v => v) ex_t ex_hist (new_cache ex_t None) in
  match snd (exec ex_gm (fun v => v) ex_t OA2aAvgs k),
        snd (exec ex_gm (fun v => v) ex_t OA2aAvgs (new_cache ex_t None)) with
  | Ok (BAvgs a), Ok (BAvgs b) =>
      forallb (fun p => vlistb (snd (fst p)) (snd (snd p))) (combine a b) = false
  | _, _ => False
  end.
Proof. vm_compute. reflexivity. Qed.

(** What the cached offsets of a [totri] object are: they can differ from those of its
    own cells, because they are computed before the fill loop ends.  Here the latest
    origin has no value at the first development period; its cell is set to 1, but clvi
    and triind still say that column 1 ends at the origin before. *)
Definition stale_frame : frame :=
  recs_frame "origin" "dev" "value"
    [mkrec 2001 1 (vz 10); mkrec 2001 2 (vz 20); mkrec 2002 2 (vz 5)]%Z.
Theorem C27_stale_offsets_refuted :
  match totri stale_frame "cum" "incr" "tabular" "origin" "dev" "value" with
  | Ok ob =>
      let t := ob_tri ob in
      isnan (cell (m_cells (t_mat t)) 1 0) = false /\
      snd (exec ex_gm (fun v => v) t OClvi (new_cache t (ob_clvi ob))) = Ok (BNats [0; 1]) /\
      clvi (t_mat t) = Ok [1; 1] /\
      snd (exec ex_gm (fun v => v) t OTriind (new_cache t (ob_clvi ob))) =
        Ok (BBools [[false; false]; [true; false]]) /\
      snd (exec ex_gm (fun v => v) t OTriind (new_cache t None)) =
        Ok (BBools [[false; false]; [false; false]])
  | Err _ => False
  end.
Proof. vm_compute. repeat split. Qed.
Print Assumptions C27_stale_offsets_refuted.
