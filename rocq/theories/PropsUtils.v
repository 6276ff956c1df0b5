(** Properties C46 and C47: the dataset utilities. *)

From Coq Require Import String QArith Qcanon ZArith List Bool Ascii Lia Sorting.Sorted.
From Verif Require Import Val Frame Triangle QcLib Spec Utils SpecUtils UtilsClaims.
Import ListNotations.
Open Scope string_scope.
Open Scope list_scope.

(** ** C46 *)

(** With the database present and a known loss type: when no filter is given or some record
    passes all given filters, the answer is the table of exactly the passing records (and,
    for [train_only], training records) in file order, turned into the requested type;
    otherwise ValueError. *)
Theorem C46_filters : forall fs dr path rows,
  ref_get dr "lrdb" = Some path -> fs path = Some (Lrdb rows) ->
  forall tri_type loss_type lob grcode grname train, known_loss loss_type ->
  (no_filter lob grcode grname \/ (exists r, In r rows /\ matching lob grcode grname r) ->
   exists sel, picks (fun r => matching lob grcode grname r /\ (train = true -> l_train r = 1%Z)) rows sel /\
     load_lrdb fs dr tri_type loss_type lob grcode grname train = as_type tri_type (table_of (loss_of loss_type) sel)) /\
  (~ no_filter lob grcode grname -> (forall r, In r rows -> ~ matching lob grcode grname r) ->
   load_lrdb fs dr tri_type loss_type lob grcode grname train = Err ValueError).
Proof. exact c46. Qed.
Print Assumptions C46_filters.

(** [picks] determines the table. *)
Theorem C46_selection_unique : forall (A : Type) (P : A -> Prop) l s t, picks P l s -> picks P l t -> s = t.
Proof. exact @picks_unique. Qed.
Print Assumptions C46_selection_unique.

(** Unknown loss types and triangle types raise ValueError. *)
Theorem C46_bad_loss_type : forall fs dr tri_type loss_type lob grcode grname train, ~ known_loss loss_type ->
  load_lrdb fs dr tri_type loss_type lob grcode grname train = Err ValueError.
Proof. exact c46_bad_loss. Qed.
Print Assumptions C46_bad_loss_type.
Theorem C46_bad_tri_type : forall t l, (forall r, t <> String "c"%char r) -> (forall r, t <> String "i"%char r) ->
  as_type (Some t) l = Err ValueError.
Proof. exact c46_bad_type. Qed.
Print Assumptions C46_bad_tri_type.

(** A reference to a file that is not there raises FileNotFoundError (after the check of
    the loss type), a missing reference KeyError. *)
Theorem C46_missing_files : forall fs dr name path, ref_get dr name = Some path -> fs path = None ->
  (forall t, load fs dr name t = Err FileNotFoundError) /\
  (name = "lrdb" -> forall tri_type loss_type lob grcode grname train, known_loss loss_type ->
   load_lrdb fs dr tri_type loss_type lob grcode grname train = Err FileNotFoundError).
Proof. exact c46_missing. Qed.
Print Assumptions C46_missing_files.
Theorem C46_missing_reference : forall fs dr, ~ In "lrdb" (map fst dr) ->
  forall tri_type loss_type lob grcode grname train, known_loss loss_type ->
  load_lrdb fs dr tri_type loss_type lob grcode grname train = Err KeyError.
Proof. exact c46_noref. Qed.
Print Assumptions C46_missing_reference.
Example C46_missing_nonvacuous :
  ref_get [("lrdb", "lrdb.csv")] "lrdb" = Some "lrdb.csv" /\ known_loss "paid" /\
  load_lrdb (fun _ => None) [("lrdb", "lrdb.csv")] None "paid" None None None true = Err FileNotFoundError /\
  ~ In "lrdb" (map fst [("raa", "RAA.csv")]).
Proof. repeat split; try reflexivity; [eexists; left; reflexivity|]. intros [H|[]]; discriminate H. Qed.

(** An incremental triangle aggregates the selected records: each cell is the total of its
    records. *)
Theorem C46_incremental_aggregates : forall l, l <> [] ->
  exists ob os ds, as_type (Some "incr") l = Ok (LTri ob) /\
    distinct_sorted os (map r_o l) /\ distinct_sorted ds (map r_d l) /\
    holds (t_mat (ob_tri ob)) os ds (cell_total (adjusted l)).
Proof. exact c46_incr. Qed.
Print Assumptions C46_incremental_aggregates.

Definition ex_rows : list lrow :=
  [mkL "comauto" 1767 "State Farm" 1988 1 (vz 11) (vz 3) 1; mkL "comauto" 86 "Allstate" 1988 1 (vz 7) (vz 2) 1;
   mkL "ppauto" 1767 "State Farm" 1988 1 (vz 20) (vz 9) 1; mkL "comauto" 1767 "State Farm" 1989 1 (vz 12) (vz 4) 1;
   mkL "comauto" 1767 "State Farm" 1989 2 (vz 13) (vz 5) 0].
Definition ex_refs : refs := [("raa", "RAA.csv"); ("lrdb", "lrdb.csv"); ("amw09", "amw09.csv")].
Definition ex_files : files := fun p =>
  if String.eqb p "lrdb.csv" then Some (Lrdb ex_rows)
  else if String.eqb p "RAA.csv" then Some (Plain [mkrec 1981 1 (vz 5012); mkrec 1981 2 (vz 3257)])
  else if String.eqb p "amw09.csv" then Some (Plain [mkrec 0 0 (vz 5946975)]) else None.
Example ex_lrdb : known_loss "incurred" /\
  (exists r, In r ex_rows /\ matching (Some "comauto") (Some 1767%Z) None r) /\
  load_lrdb ex_files ex_refs None "incurred" (Some "comauto") (Some 1767%Z) None true =
    Ok (LTable [mkrec 1988 1 (vz 11); mkrec 1989 1 (vz 12)]) /\
  load_lrdb ex_files ex_refs None "paid" (Some "comauto") (Some 1767%Z) None false =
    Ok (LTable [mkrec 1988 1 (vz 3); mkrec 1989 1 (vz 4); mkrec 1989 2 (vz 5)]).
Proof.
  split; [exists "ncurred"; right; reflexivity|]. split; [|split; reflexivity].
  exists (mkL "comauto" 1767 "State Farm" 1988 1 (vz 11) (vz 3) 1). split; [left; reflexivity|].
  repeat split.
Qed.
(** A code of another line of business is absent. *)
Example ex_absent : ~ no_filter (Some "ppauto") (Some 86%Z) None /\
  (forall r, In r ex_rows -> ~ matching (Some "ppauto") (Some 86%Z) None r).
Proof.
  split; [intros [H _]; discriminate H|]. intros r Hr [H1 [H2 _]]. simpl in H1, H2.
  repeat (destruct Hr as [<-|Hr]; [simpl in H1, H2; discriminate|]). destruct Hr.
Qed.

(** ** C47 *)

(** The names are in increasing order (so distinct), every dataset but lrdb. *)
Theorem C47_datasets : forall dr, NoDup (map fst dr) ->
  StronglySorted (fun a b => String.compare a b = Lt) (get_datasets dr) /\
  (forall name, In name (get_datasets dr) <-> In name (map fst dr) /\ name <> "lrdb").
Proof. exact c47_datasets. Qed.
Print Assumptions C47_datasets.

(** Every listed name loads its file. *)
Theorem C47_listed_names_load : forall fs dr name, installed fs dr -> In name (get_datasets dr) ->
  exists path l, In (name, path) dr /\ fs path = Some (Plain l) /\ load fs dr name None = Ok (LTable l).
Proof. exact c47_load. Qed.
Print Assumptions C47_listed_names_load.

(** Unknown names raise KeyError, and so does the database itself. *)
Theorem C47_unknown_names : forall fs dr name t, ~ In name (map fst dr) -> load fs dr name t = Err KeyError.
Proof. exact c47_unknown. Qed.
Print Assumptions C47_unknown_names.
Theorem C47_load_lrdb_by_name : forall fs dr path rows t,
  ref_get dr "lrdb" = Some path -> fs path = Some (Lrdb rows) -> load fs dr "lrdb" t = Err KeyError.
Proof. exact c47_lrdb. Qed.
Print Assumptions C47_load_lrdb_by_name.

(** The catalogue of the database: each line of business, and each combination, once. *)
Theorem C47_lobs : forall rows,
  StronglySorted (fun a b => String.compare a b = Lt) (get_lrdb_lobs rows) /\
  (forall k, In k (get_lrdb_lobs rows) <-> exists r, In r rows /\ l_key r = k).
Proof. exact c47_lobs. Qed.
Print Assumptions C47_lobs.
Theorem C47_specs : forall rows,
  NoDup (get_lrdb_specs rows) /\ StronglySorted by_key_code (get_lrdb_specs rows) /\
  (forall k g n, In (k, g, n) (get_lrdb_specs rows) <->
     exists r, In r rows /\ l_key r = k /\ l_grcode r = g /\ l_grname r = n).
Proof. exact c47_specs. Qed.
Print Assumptions C47_specs.
(** Every listed combination can be loaded. *)
Theorem C47_specs_load : forall fs dr path rows k g n loss train,
  ref_get dr "lrdb" = Some path -> fs path = Some (Lrdb rows) -> known_loss loss ->
  In (k, g, n) (get_lrdb_specs rows) ->
  exists l, load_lrdb fs dr None loss (Some k) (Some g) (Some n) train = Ok (LTable l).
Proof. exact c47_specs_load. Qed.
Print Assumptions C47_specs_load.

Example ex_catalogue :
  NoDup (map fst ex_refs) /\ installed ex_files ex_refs /\ get_datasets ex_refs = ["amw09"; "raa"] /\
  get_lrdb_lobs ex_rows = ["comauto"; "ppauto"] /\
  get_lrdb_specs ex_rows = [("comauto", 86%Z, "Allstate"); ("comauto", 1767%Z, "State Farm"); ("ppauto", 1767%Z, "State Farm")].
Proof.
  split; [repeat constructor; simpl; intuition discriminate|]. split; [|repeat split; reflexivity].
  intros name path [H|[H|[H|[]]]] Hn; injection H as <- <-; try (exfalso; apply Hn; reflexivity); eexists; reflexivity.
Qed.
(** The catalogue of this version (datasets/__init__.py 11-20). *)
Definition trikit_refs : refs :=
  [("raa", "RAA.csv"); ("ta83", "TaylorAshe83.csv"); ("lrdb", "lrdb.csv"); ("amw09", "amw09.csv");
   ("autoliab", "AutoLiabMedical.csv"); ("glre", "GLReinsurance2004.csv"); ("singinjury", "SingaporeInjury.csv");
   ("singproperty", "SingaporeProperty.csv")].
Example trikit_datasets : NoDup (map fst trikit_refs) /\
  get_datasets trikit_refs = ["amw09"; "autoliab"; "glre"; "raa"; "singinjury"; "singproperty"; "ta83"].
Proof. split; [repeat constructor; simpl; intuition discriminate|reflexivity]. Qed.
