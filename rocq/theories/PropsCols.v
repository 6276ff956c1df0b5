(** C36, continued: quantile tables for requests with quantiles of any distance, the text
    of the headers, and the samples the bootstrap quantiles are taken of. *)

From Coq Require Import String QArith Qcanon ZArith List Bool Ascii Lia Sorting.Sorted.
From Verif Require Import Val QcLib Frame Triangle A2A Base Boot Quant SpecQuant SpecCols QuantFacts QuantClaims QuantCols PropsQuant.
Import ListNotations.
Open Scope string_scope.
Open Scope list_scope.
Open Scope nat_scope.

(** For every answered request: the columns are those of the wanted quantiles in increasing
    order, except that of several quantiles with the same header only the largest is shown. *)
Theorem C36_get_columns : forall (A : Type) (ppf : list (Qc -> A)) q cols,
  mack_get_quantiles ppf q = Ok cols ->
  exists xs, shown_quantiles ordhdr q false xs /\ cols = map (fun x => (ordhdr x, map (fun f => f x) ppf)) xs.
Proof. exact c36_get_cols. Qed.
Print Assumptions C36_get_columns.

Theorem C36_summary_columns : forall (A : Type) (nan : A) ppf q two cols,
  mack_summary_quantiles nan ppf q two = Ok cols ->
  exists xs, shown_quantiles pcthdr q two xs /\
    cols = map (fun x => (pcthdr x, match ppf with [] => [] | _ :: fs => nan :: map (fun f => f x) fs end)) xs.
Proof. exact c36_sum_cols. Qed.
Print Assumptions C36_summary_columns.

(** The bootstrap tables exist for every request of quantiles in [0, 1].  [recs]: the
    simulated reserves; the values of a column are the quantiles of the origins' samples
    and, last, of the sums by simulation; with a lower bound, the larger of both. *)
Theorem C36_boot_get_columns : forall rs (recs : list (Z * nat * Qc)) os m,
  map (fun r => (v_o r, v_sim r, v_reserve r)) rs = map (fun r => (fst r, Fin (snd r))) recs ->
  (forall o, In o os -> exists s x, In (o, s, x) recs) -> recs <> [] ->
  forall q lb, (forall v, In v q -> in_unit v) ->
  exists cols xs, boot_get_quantiles rs os q m lb = Ok cols /\ shown_quantiles ordhdr q false xs /\
    Forall2 (fun x p => fst p = ordhdr x /\
      Forall2 (fun o v => exists l w, sample recs o l /\ percentile m l x = Ok w /\
                 match lb with None => v = w | Some b => larger w b v end)
              (map Some os ++ [None]) (snd p)) xs cols.
Proof. exact c36_boot_get_cols. Qed.
Print Assumptions C36_boot_get_columns.

Theorem C36_boot_summary_columns : forall rs (recs : list (Z * nat * Qc)) os m,
  map (fun r => (v_o r, v_sim r, v_reserve r)) rs = map (fun r => (fst r, Fin (snd r))) recs ->
  (forall o, In o os -> exists s x, In (o, s, x) recs) -> recs <> [] ->
  forall q two, (forall v, In v q -> in_unit v) ->
  exists cols xs, boot_summary_quantiles rs os q two m = Ok cols /\ shown_quantiles pcthdr q two xs /\
    Forall2 (fun x p => fst p = pcthdr x /\
      Forall2 (fun o v => exists l w, sample recs o l /\ percentile m l x = Ok w /\ v = w)
              (map Some os ++ [None]) (snd p)) xs cols.
Proof. exact c36_boot_sum_cols. Qed.
Print Assumptions C36_boot_summary_columns.

(** The samples of which C36, C37 and C73 speak. *)
Theorem C36_samples : forall rs (recs : list (Z * nat * Qc)) os,
  map (fun r => (v_o r, v_sim r, v_reserve r)) rs = map (fun r => (fst r, Fin (snd r))) recs ->
  (forall o, In o os -> exists s x, In (o, s, x) recs) -> recs <> [] ->
  Forall2 (fun o l => exists xs, l = map Fin xs /\ sample recs o xs /\ xs <> []) (map Some os ++ [None]) (samples rs os).
Proof. exact samples_fin. Qed.
Print Assumptions C36_samples.

(** The headers are the percentage rounded to five decimals in plain notation, followed by
    "%" in summaries and by an ordinal suffix in [get_quantiles]: "th" after a fraction,
    else by the last digit. *)
Theorem C36_header_text : forall x, (0 <= x)%Qc ->
  exists l, reads l (round_half_even (x * qz 100 * qz 100000)) /\
    list_ascii_of_string (pcthdr x) = l ++ ["%"%char] /\
    exists s, list_ascii_of_string (ordhdr x) = l ++ list_ascii_of_string s /\
      (In "."%char l -> s = "th"%string) /\
      (~ In "."%char l -> s = suffix_of (last l "0"%char)).
Proof. exact c36_text. Qed.
Print Assumptions C36_header_text.

(** Hence the eleventh, twelfth and thirteenth percentile are called 11st, 12nd and 13rd. *)
Theorem C36_ordinals_refuted :
  map ordhdr [qz 11 / qz 100; qz 12 / qz 100; qz 13 / qz 100]%Qc = ["11st"; "12nd"; "13rd"]%string.
Proof. vm_compute. reflexivity. Qed.
Print Assumptions C36_ordinals_refuted.

(** Two of three wanted quantiles share a header; two origins, three simulations. *)
Definition close_q : list val := [Fin half; Fin (qz 50000001 / qz 100000000)%Qc; Fin (qz 3 / qz 4)%Qc].
Example C36_columns_nonvacuous :
  (forall v, In v close_q -> in_unit v) /\
  shown show_cols (mack_get_quantiles [(fun x => x)] close_q)
    = Some [("50th", [50000001 # 100000000]%Q); ("75th", [3 # 4]%Q)] /\
  (exists recs : list (Z * nat * Qc),
     map (fun r => (v_o r, v_sim r, v_reserve r)) ex_rs = map (fun r => (fst r, Fin (snd r))) recs /\
     (forall o, In o [2001; 2002]%Z -> exists s x, In (o, s, x) recs) /\ recs <> []) /\
  shown show_cols (boot_get_quantiles ex_rs [2001; 2002]%Z close_q Lower (Some (qz 4)))
    = Some [("50th", [4 # 1; 5 # 1; 8 # 1]%Q); ("75th", [4 # 1; 5 # 1; 8 # 1]%Q)].
Proof.
  split; [|split; [vm_compute; reflexivity|split; [|vm_compute; reflexivity]]].
  - intros v [<-|[<-|[<-|[]]]]; eexists; (split; [reflexivity|]); split; vm_compute; discriminate.
  - exists [(2001%Z, 0, qz 3); (2002%Z, 0, qz 5); (2001%Z, 1, qz 1); (2002%Z, 1, qz (-2)); (2001%Z, 2, qz 7); (2002%Z, 2, qz 6)].
    split; [reflexivity|]. split; [|discriminate].
    intros o [<-|[<-|[]]]; exists 0; eexists; simpl; eauto 7.
Qed.
