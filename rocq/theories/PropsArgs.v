(** C67: which names of averages and which process distributions are accepted. *)

From Coq Require Import String QArith Qcanon ZArith List Bool Lia.
From Verif Require Import Val Frame Triangle A2A Base Mack Boot QcLib Spec Spec2 ExTri PropsBoot Args SpecArgs ArgsClaims.
Import ListNotations.
Open Scope string_scope.
Open Scope list_scope.
Open Scope nat_scope.

(** ** C67.  A triangle of n origins has the averages "all-kind" and "kind-k", 1 <= k <=
    n - 2, each once; [base_cl] with any other name (other case, blanks, larger k) is
    a KeyError. *)
Theorem C67_average_names :
  forall (gm : list val -> val) (m : lmat) (n : nat) (C : nat -> nat -> Qc) (ind : list (list val)) avgs,
  regular m n C -> positive n C -> 0 < n -> a2a_avgs gm m ind = Ok avgs ->
  NoDup (map fst avgs) /\ (forall s, In s (map fst avgs) <-> average_name n s) /\
  forall o d v cl tail s, ~ average_name n s ->
    snd (base_cl gm (mkTri m o d v) cl ind (SelLabel s) tail) = Err KeyError.
Proof. exact c67_labels. Qed.
Print Assumptions C67_average_names.

(** The bootstrap accepts "gamma" as process distribution, in any case and with blanks
    around; any other text is an error, a ValueError unless the simulation of the
    triangles fails before. *)
Theorem C67_process_distribution :
  forall (gm : list val -> val) (rt : val -> val) (t : tri) (cl rl : list nat) (ind : list (list val)) (sims : nat)
         (par : bool) (procdist : string) (rng : list val -> (nat -> val) * (list (val * val) -> nat -> val)),
  (says_gamma procdist ->
     boot_call gm rt t cl rl ind sims par procdist rng = boot_cl gm rt t cl rl ind sims par rng) /\
  (~ says_gamma procdist -> forall b, boot_cl gm rt t cl rl ind sims par rng = Ok b ->
     boot_call gm rt t cl rl ind sims par procdist rng = Err ValueError) /\
  (~ says_gamma procdist -> exists e, boot_call gm rt t cl rl ind sims par procdist rng = Err e).
Proof. exact c67_procdist. Qed.
Print Assumptions C67_process_distribution.

Example C67_nonvacuous : regular bt_m 4 ex_C /\ positive 4 ex_C /\
  (exists avgs, a2a_avgs ex_gm bt_m ex_ind = Ok avgs /\ List.length avgs = 12) /\
  average_name 4 "weighted-2" /\ ~ average_name 4 "weighted-3" /\ ~ average_name 4 "All-Weighted" /\
  says_gamma " Gamma" /\ ~ says_gamma "lognorm" /\ exists b, ex_boot 2 = Ok b.
Proof.
  assert (V : forall k, 3 <= k -> ~ average_name 4 ("weighted-" ++ str_nat k)).
  { intros k Hk (kind & Hi & [E|(j & Hj & E)]).
    - destruct Hi as [<-|[<-|[<-|[<-| []]]]]; discriminate.
    - destruct Hi as [<-|[<-|[<-|[<-| []]]]]; try discriminate. cbn [append] in E. injection E as E.
      apply AvgFacts.str_nat_inj in E. lia. }
  split; [apply bt_regular|]. split; [apply ex_positive|]. split; [|split; [|split; [|split; [|split; [|split]]]]].
  - eexists. split; [vm_compute; reflexivity|]. reflexivity.
  - exists "weighted". split; [cbn; auto|]. right. exists 2. split; [lia|reflexivity].
  - exact (V 3 (le_n 3)).
  - intros (kind & Hi & [E|(j & Hj & E)]); destruct Hi as [<-|[<-|[<-|[<-| []]]]]; discriminate.
  - apply procdist_spec. vm_compute. reflexivity.
  - intro H. apply procdist_spec in H. discriminate H.
  - eexists. vm_compute. reflexivity.
Qed.
