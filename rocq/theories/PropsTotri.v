(** C69: how the options of totri are read. *)

From Coq Require Import String Ascii QArith Qcanon ZArith List Bool Lia.
From Verif Require Import Val Frame Triangle QcLib Spec SpecArgs SpecTotri PropsTri2 TotriClaims.
Import ListNotations.
Open Scope string_scope.
Open Scope list_scope.
Open Scope nat_scope.

(** ** C69.  [tri_type]: the first letter decides, in either case; blanks in front are
    not allowed. *)
Theorem C69_type_option :
  forall (h : heap) (data : data_arg) (fmt shape o d v ty : string),
  (opens ["i"; "I"]%char ty ->
     totri_h h data ty fmt shape o d v = totri_h h data "incr" fmt shape o d v) /\
  (opens ["c"; "C"]%char ty ->
     totri_h h data ty fmt shape o d v = totri_h h data "cum" fmt shape o d v) /\
  (~ opens ["i"; "I"]%char ty -> ~ opens ["c"; "C"]%char ty ->
     forall ob, snd (totri_h h data ty fmt shape o d v) <> Ok ob).
Proof. exact c69_type. Qed.
Print Assumptions C69_type_option.

(** [data_format], tables: what does not start with a c (blanks aside) is read as
    incremental. *)
Theorem C69_table_format_option :
  forall (h : heap) (r : ref) (ty o d v fmt : string),
  (opens_trimmed ["c"; "C"]%char fmt ->
     totri_h h (DFrame r) ty fmt "tabular" o d v = totri_h h (DFrame r) ty "cum" "tabular" o d v) /\
  (~ opens_trimmed ["c"; "C"]%char fmt ->
     totri_h h (DFrame r) ty fmt "tabular" o d v = totri_h h (DFrame r) ty "incr" "tabular" o d v).
Proof. exact c69_format_table. Qed.
Print Assumptions C69_table_format_option.

(** [data_format], triangles: anything else is a NameError. *)
Theorem C69_triangle_format_option :
  forall (h : heap) (m : lmat) (nm : option string) (ty o d v fmt : string),
  (opens_trimmed ["i"; "I"]%char fmt ->
     totri_h h (DTri m nm) ty fmt "triangle" o d v = totri_h h (DTri m nm) ty "incr" "triangle" o d v) /\
  (opens_trimmed ["c"; "C"]%char fmt ->
     totri_h h (DTri m nm) ty fmt "triangle" o d v = totri_h h (DTri m nm) ty "cum" "triangle" o d v) /\
  (~ opens_trimmed ["i"; "I"]%char fmt -> ~ opens_trimmed ["c"; "C"]%char fmt ->
     totri_h h (DTri m nm) ty fmt "triangle" o d v = (h, Err NameError)).
Proof. exact c69_format_triangle. Qed.
Print Assumptions C69_triangle_format_option.

(** [data_shape], in exactly these spellings; the data are left alone. *)
Theorem C69_shape_option :
  forall (h : heap) (data : data_arg) (ty o d v fmt shape : string),
  shape <> "tabular" -> shape <> "triangle" ->
  totri_h h data ty fmt shape o d v = (h, Err NameError).
Proof. exact c69_shape. Qed.
Print Assumptions C69_shape_option.

(** A triangle whose index has a name other than "origin" is rejected. *)
Theorem C69_index_name :
  forall (h : heap) (m : lmat) (s ty o d v fmt : string), s <> "origin" ->
  opens_trimmed ["i"; "I"]%char fmt \/ opens_trimmed ["c"; "C"]%char fmt ->
  totri_h h (DTri m (Some s)) ty fmt "triangle" o d v = (h, Err KeyError).
Proof. exact c69_named. Qed.
Print Assumptions C69_index_name.

(** A cumulative triangle read as incremental is [to_incr]'s: differences. *)
Theorem C69_cumulative_to_incremental :
  forall (m : lmat) (nm : option string) (os ds : list Z) (f : Z -> Z -> val),
  increasing os -> increasing ds -> os <> [] -> holds m os ds f ->
  gap_free os ds f -> finite_cells os ds f -> covered os ds f -> positive_first os ds f ->
  (nm = None \/ nm = Some "origin") ->
  exists mi g,
    totri_tri m nm "incr" "cum" "triangle" "origin" "dev" "value" = Ok (mkObj (mkTri mi "origin" "dev" "value") None) /\
    holds mi os ds g /\
    (forall o d, In o os -> first_in ds d -> g o d = f o d) /\
    (forall o d d', In o os -> next_in ds d d' -> g o d' = vsub (f o d') (f o d)) /\
    to_incr (mkTri m "origin" "dev" "value") = Ok (mkTri mi "origin" "dev" "value").
Proof. exact c69_incr. Qed.
Print Assumptions C69_cumulative_to_incremental.

(** An incremental run-off triangle read as cumulative is [to_cum]'s: running totals. *)
Theorem C69_incremental_to_cumulative :
  forall (m : lmat) (nm : option string) (os ds : list Z) (g : Z -> Z -> val),
  increasing os -> increasing ds -> os <> [] -> holds m os ds g ->
  runoff os ds g -> finite_cells os ds g -> positive_first os ds g ->
  (nm = None \/ nm = Some "origin") ->
  exists mc f c,
    totri_tri m nm "cum" "incr" "triangle" "origin" "dev" "value" = Ok (mkObj (mkTri mc "origin" "dev" "value") c) /\
    holds mc os ds f /\
    (forall o d, In o os -> In d ds -> g o d = NaN -> f o d = NaN) /\
    (forall o d, In o os -> In d ds -> g o d <> NaN ->
       f o d = val_sum (map (g o) (filter (fun x => (x <=? d)%Z) ds))) /\
    to_cum (mkTri m "origin" "dev" "value") = Ok (mkTri mc "origin" "dev" "value").
Proof. exact c69_cum. Qed.
Print Assumptions C69_incremental_to_cumulative.

Example C69_nonvacuous :
  opens ["i"; "I"]%char "Incremental" /\ ~ opens ["i"; "I"]%char " incr" /\ ~ opens ["c"; "C"]%char " incr" /\
  opens_trimmed ["c"; "C"]%char "  Cum" /\ ~ opens_trimmed ["c"; "C"]%char "nonsense" /\
  holds tri_mat tri_os tri_ds tri_f /\ runoff tri_os tri_ds tri_f /\ positive_first tri_os tri_ds tri_f /\
  match totri_tri tri_mat None "incr" "cum" "triangle" "origin" "dev" "value" with
  | Ok ob => vmatb (m_cells (t_mat (ob_tri ob))) [[vz 10; vz 5; vz 2]; [vz 20; vz 6; NaN]; [vz 5; NaN; NaN]] = true
  | Err _ => False end /\
  match totri_tri tri_mat None "cum" "incr" "triangle" "origin" "dev" "value" with
  | Ok ob => vmatb (m_cells (t_mat (ob_tri ob))) [[vz 10; vz 25; vz 42]; [vz 20; vz 46; NaN]; [vz 5; NaN; NaN]] = true
  | Err _ => False end.
Proof.
  split; [exists "I"%char; eexists; split; [reflexivity|simpl; auto]|].
  split; [intros (c & r & E & H); injection E as <- _; destruct H as [H|[H| []]]; discriminate|].
  split; [intros (c & r & E & H); injection E as <- _; destruct H as [H|[H| []]]; discriminate|].
  split.
  { exists "  ", "Cum". split; [reflexivity|]. split.
    - intros c [<-|[<-| []]]; left; reflexivity.
    - exists "C"%char. eexists. split; [reflexivity|simpl; auto]. }
  split.
  { intros (a & r & E & B & (c & r' & -> & H)). destruct a as [|x a].
    - injection E as <- _. destruct H as [H|[H| []]]; discriminate.
    - injection E as <- _. specialize (B "n"%char (or_introl eq_refl)).
      unfold blank in B. vm_compute in B. intuition discriminate. }
  split; [apply tri_holds|]. split; [apply tri_runoff|]. split; [apply tri_positive|].
  split; vm_compute; reflexivity.
Qed.
