(** Properties C35-C37 (quantiles) and C48 (axis ticks). *)

From Coq Require Import String QArith Qcanon ZArith List Bool Lia Sorting.Sorted Permutation.
From Verif Require Import Val QcLib Frame Triangle A2A Base Boot Quant SpecQuant QuantFacts QuantClaims.
Import ListNotations.
Open Scope string_scope.
Open Scope list_scope.
Open Scope Q_scope.

(** ** C35: quantile vectors *)

(** A request is answered exactly when all its entries are numbers of [0, 1]; the answer is
    the strictly increasing list of the wanted quantiles, all in [0, 1], with one header
    each; a rejected request raises ValueError. *)
Theorem C35_quantiles : forall q two_sided,
  match qtls_formatter q two_sided with
  | Ok (qs, hs) =>
      (forall v, In v q -> in_unit v) /\ StronglySorted Qclt qs /\
      (forall x, In x qs <-> wanted q two_sided x) /\ (forall x, In x qs -> (0 <= x <= 1)%Qc) /\
      List.length hs = List.length qs
  | Err e => e = ValueError /\ exists v, In v q /\ ~ in_unit v
  end.
Proof. exact c35. Qed.
Print Assumptions C35_quantiles.

(** The same for the formatter of the result objects. *)
Theorem C35_result_quantiles : forall q,
  match result_formatter q with
  | Ok (qs, hs) =>
      (forall v, In v q -> in_unit v) /\ StronglySorted Qclt qs /\
      (forall x, In x qs <-> In (Fin x) q) /\ (forall x, In x qs -> (0 <= x <= 1)%Qc) /\
      List.length hs = List.length qs
  | Err e => e = ValueError /\ exists v, In v q /\ ~ in_unit v
  end.
Proof. exact c35_result. Qed.
Print Assumptions C35_result_quantiles.

(** Both estimators and both [get_quantiles] inherit the rejection. *)
Theorem C35_rejected : forall q, (exists v, In v q /\ ~ in_unit v) ->
  (forall (A : Type) (ppf : list (Qc -> A)), mack_get_quantiles ppf q = Err ValueError) /\
  (forall (A : Type) (nan : A) ppf two, mack_summary_quantiles nan ppf q two = Err ValueError) /\
  (forall rs os m lb, boot_get_quantiles rs os q m lb = Err ValueError) /\
  (forall rs os two m, boot_summary_quantiles rs os q two m = Err ValueError).
Proof. exact c35_rejected. Qed.
Print Assumptions C35_rejected.

Definition half : Qc := (1 / qz 2)%Qc.
Definition q95 : Qc := (qz 95 / qz 100)%Qc.
(** Answers with the numbers as fractions. *)
Definition shown {A B} (f : A -> B) (r : res A) : option B := match r with Ok a => Some (f a) | Err _ => None end.
Definition show_qs (p : list Qc * list string) := (map this (fst p), snd p).
Definition show_cols (c : list (string * list Qc)) := map (fun p => (fst p, map this (snd p))) c.
Example ex_two_sided :
  shown show_qs (qtls_formatter [Fin q95; Fin half; Fin q95] true) =
  Some ([1 # 40; 1 # 4; 3 # 4; 39 # 40], ["2.5%"; "25%"; "75%"; "97.5%"]).
Proof. vm_compute. reflexivity. Qed.
Example ex_result :
  shown show_qs (result_formatter [Fin q95; Fin (qz 1 / qz 100)%Qc; Fin (qz 995 / qz 1000)%Qc; Fin half]) =
  Some ([1 # 100; 1 # 2; 19 # 20; 199 # 200], ["1st"; "50th"; "95th"; "99.5th"]).
Proof. vm_compute. reflexivity. Qed.
Example ex_rejected : exists v, In v [Fin half; Fin (qz 95)] /\ ~ in_unit v.
Proof.
  exists (Fin (qz 95)). split; [right; left; reflexivity|]. intros [x [E [_ H]]]. injection E as <-.
  revert H. vm_compute. intros H. apply H. reflexivity.
Qed.

(** ** C36: own column *)

(** Full statement: distinct wanted quantiles have distinct headers.  It is false: the
    headers keep seven decimals of the quantile. *)
Theorem C36_refuted : exists q qs h,
  qtls_formatter q false = Ok (qs, [h; h]) /\ NoDup qs /\ List.length qs = 2%nat /\
  exists (f : Qc -> val) cols, mack_get_quantiles [f] q = Ok cols /\ List.length cols = 1%nat.
Proof. exact c36_refuted. Qed.
Print Assumptions C36_refuted.

(** Headers collide exactly when the percentages agree after rounding to five decimals. *)
Theorem C36_headers : forall x y, (0 <= x)%Qc -> (0 <= y)%Qc ->
  (pcthdr x = pcthdr y <-> round_half_even (x * qz 100 * qz 100000) = round_half_even (y * qz 100 * qz 100000)) /\
  (ordhdr x = ordhdr y <-> round_half_even (x * qz 100 * qz 100000) = round_half_even (y * qz 100 * qz 100000)).
Proof. intros x y Hx Hy. split; [exact (pcthdr_iff x y Hx Hy)|exact (ordhdr_iff x y Hx Hy)]. Qed.
Print Assumptions C36_headers.

(** Missing for the full statement: quantiles closer than 1e-7.  For quantiles more than
    1e-7 apart every wanted quantile has its own column, in increasing order, holding
    that quantile's values. *)
Theorem C36_mack_get_quantiles_partial : forall (A : Type) (ppf : list (Qc -> A)) q cols,
  mack_get_quantiles ppf q = Ok cols -> apart q false ->
  NoDup (map fst cols) /\
  exists qs, lists_wanted q false qs /\ map snd cols = map (fun x => map (fun f => f x) ppf) qs.
Proof. exact c36_mack_get. Qed.
Print Assumptions C36_mack_get_quantiles_partial.

Theorem C36_mack_summary_partial : forall (A : Type) (nan : A) ppf q two cols,
  mack_summary_quantiles nan ppf q two = Ok cols -> apart q two ->
  NoDup (map fst cols) /\
  exists qs, lists_wanted q two qs /\
    map snd cols = map (fun x => match ppf with [] => [] | _ :: fs => nan :: map (fun f => f x) fs end) qs.
Proof. exact c36_mack_summary. Qed.
Print Assumptions C36_mack_summary_partial.

Theorem C36_boot_summary_partial : forall rs os q two m cols,
  boot_summary_quantiles rs os q two m = Ok cols -> apart q two ->
  NoDup (map fst cols) /\
  exists qs, lists_wanted q two qs /\
    Forall2 (fun x c => Forall2 (fun l v => pctl m l x = Ok v) (samples rs os) c) qs (map snd cols).
Proof. exact c36_boot_summary. Qed.
Print Assumptions C36_boot_summary_partial.

Theorem C36_boot_get_quantiles_partial : forall rs os q m lb cols,
  boot_get_quantiles rs os q m lb = Ok cols -> apart q false ->
  NoDup (map fst cols) /\
  exists qs, lists_wanted q false qs /\
    Forall2 (fun x c => Forall2 (fun l v => exists w, pctl m l x = Ok w /\ v = raise_to lb w) (samples rs os) c)
            qs (map snd cols).
Proof. exact c36_boot_get. Qed.
Print Assumptions C36_boot_get_quantiles_partial.

Definition ex_rs : list rrec :=
  [mkR 0 2001 (vz 5) (vz 8) (vz 3); mkR 0 2002 (vz 4) (vz 9) (vz 5);
   mkR 1 2001 (vz 5) (vz 6) (vz 1); mkR 1 2002 (vz 4) (vz 2) (vz (-2));
   mkR 2 2001 (vz 5) (vz 12) (vz 7); mkR 2 2002 (vz 4) (vz 10) (vz 6)].
Definition ex_q : list val := [Fin half; Fin (qz 3 / qz 4)%Qc].
Example ex_apart : apart ex_q false.
Proof.
  intros x y [Hx|[Hx|[]]] [Hy|[Hy|[]]]; injection Hx as <-; injection Hy as <-; intros H;
    try exact eq_refl; exfalso; revert H; vm_compute; discriminate.
Qed.
Example ex_get_quantiles :
  shown show_cols (boot_get_quantiles ex_rs [2001; 2002]%Z ex_q Linear None) =
  Some [("50th", [3 # 1; 5 # 1; 8 # 1]); ("75th", [5 # 1; 11 # 2; 21 # 2])].
Proof. vm_compute. reflexivity. Qed.

(** ** C37: percentiles *)

(** For every non-empty sample and each of the five interpolation methods. *)
Theorem C37_monotone : forall l, l <> [] -> forall m a b, (0 <= a)%Qc -> (a <= b)%Qc -> (b <= 1)%Qc ->
  exists v w, percentile m l a = Ok v /\ percentile m l b = Ok w /\ (v <= w)%Qc.
Proof. exact pmono. Qed.
Print Assumptions C37_monotone.

Theorem C37_bounds : forall l, l <> [] -> forall m a, (0 <= a <= 1)%Qc ->
  exists v mn mx, percentile m l a = Ok v /\ is_min l mn /\ is_max l mx /\ (mn <= v <= mx)%Qc.
Proof. exact pbetween. Qed.
Print Assumptions C37_bounds.

Theorem C37_ends : forall l, l <> [] -> forall m,
  (exists v, percentile m l 0 = Ok v /\ is_min l v) /\ (exists v, percentile m l 1 = Ok v /\ is_max l v).
Proof. intros l H m. split; [exact (p0 l H m)|exact (p1 l H m)]. Qed.
Print Assumptions C37_ends.

(** The value at [k/(n-1)] is the [k]-th order statistic, for every method; between two of
    them the linear method interpolates; every method lies between "lower" and "higher",
    which are sample values. *)
Theorem C37_order_statistics : forall l, l <> [] -> forall m t k,
  order_stats l t -> (k < List.length l)%nat -> (1 < List.length l)%nat ->
  percentile m l (qn k / qn (List.length l - 1))%Qc = Ok (nth k t 0%Qc).
Proof. exact pknot. Qed.
Print Assumptions C37_order_statistics.

Theorem C37_linear : forall l, l <> [] -> forall t k q,
  order_stats l t -> (k < List.length l)%nat ->
  (qn k <= qn (List.length l - 1) * q <= qn (k + 1))%Qc ->
  percentile Linear l q =
    Ok (nth k t 0 + (qn (List.length l - 1) * q - qn k) * (nth (k + 1) t 0 - nth k t 0))%Qc.
Proof. exact plin. Qed.
Print Assumptions C37_linear.

Theorem C37_methods : forall l, l <> [] -> forall q, (0 <= q <= 1)%Qc -> forall m, exists lo v hi,
  percentile Lower l q = Ok lo /\ percentile m l q = Ok v /\ percentile Higher l q = Ok hi /\
  (lo <= v <= hi)%Qc /\ In lo l /\ In hi l.
Proof. intros l H q. exact (plow l H _ q (ssort_stats l)). Qed.
Print Assumptions C37_methods.

(** [lb]: the same columns, every value replaced by the larger of it and [lb]. *)
Theorem C37_lower_bound : forall rs os q m b,
  match boot_get_quantiles rs os q m None, boot_get_quantiles rs os q m (Some b) with
  | Ok c0, Ok c1 =>
      Forall2 (fun p r => fst p = fst r /\ Forall2 (fun v w => larger v b w) (snd p) (snd r)) c0 c1
  | Err e0, Err e1 => e0 = e1
  | _, _ => False
  end.
Proof. exact c37_lb. Qed.
Print Assumptions C37_lower_bound.

Example ex_sample : [qz 7; qz 1; qz 3; qz 3] <> [] /\
  order_stats [qz 7; qz 1; qz 3; qz 3] [qz 1; qz 3; qz 3; qz 7] /\
  shown this (percentile Linear [qz 7; qz 1; qz 3; qz 3] (qz 9 / qz 10)%Qc) = Some (29 # 5).
Proof.
  split; [discriminate|]. split; [|vm_compute; reflexivity]. split.
  - apply (Permutation_cons_app [qz 1; qz 3; qz 3] []). apply Permutation_refl.
  - repeat constructor; vm_compute; discriminate.
Qed.
Example ex_lb :
  shown show_cols (boot_get_quantiles ex_rs [2001; 2002]%Z [Fin 0%Qc; Fin half] Lower (Some 0%Qc)) =
  Some [("0th", [1 # 1; 0 # 1; 0 # 1]); ("50th", [3 # 1; 5 # 1; 8 # 1])].
Proof. vm_compute. reflexivity. Qed.

(** ** C48: axis ticks *)

(** Missing for the full statement: maxima of at most 1, at least 10^10 or equal to a
    power of ten. Inside the decades there are five equidistant ticks from 0, and the top
    tick exceeds the maximum by less than the maximum itself. *)
Theorem C48_ticks_partial : forall x, decade x ->
  exists u, get_yticks x = Ok (map (fun k => u * (qn k / qz 4))%Qc (seq 0 5)) /\
    (x < u)%Qc /\ (u < x + x)%Qc.
Proof. exact c48_ok. Qed.
Print Assumptions C48_ticks_partial.

(** Every other maximum raises ValueError. *)
Theorem C48_ticks_refuted : (forall x, ~ decade x -> get_yticks x = Err ValueError) /\
  ~ decade half /\ ~ decade (qz 100) /\ ~ decade (qz 20000000000).
Proof. exact c48_refuted. Qed.
Print Assumptions C48_ticks_refuted.

Example ex_decade : decade (qz 5345) /\ shown (map this) (get_yticks (qz 5345)) = Some [0 # 1; 1500 # 1; 3000 # 1; 4500 # 1; 6000 # 1].
Proof.
  split.
  - exists 3%nat. split; [lia|]. split; vm_compute; reflexivity.
  - vm_compute. reflexivity.
Qed.
