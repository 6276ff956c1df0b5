(** C100: the two random stages of the bootstrap.  The vocabulary is that of
    SpecStream.v.  [draws g l size]: the residuals drawn from [l] with generator [g];
    [used g l size]: how many raw numbers that takes; [gamma g ps]: the gamma variates. *)

From Coq Require Import QArith Qcanon ZArith List Bool Lia.
From Verif Require Import Val QcLib Boot SpecStream.
Import ListNotations.
Open Scope list_scope.
Open Scope nat_scope.

(** random_state a generator: the raw numbers used up by the resampling of residuals have
    no influence on the gamma variates.  random_state None: the two stages use two
    generators.  Missing: an integer random_state, where it is false
    ([C100_integer_seed_refuted]). *)
Theorem C100_separate_numbers_partial :
  forall (W : Type) (seed : Z -> stream W) (fresh1 fresh1' fresh2 g g' : stream W)
         (draws : stream W -> list val -> nat -> nat -> val) (used : stream W -> list val -> nat -> nat)
         (gamma : stream W -> list (val * val) -> nat -> val) (size : nat),
  reads gamma ->
  let resample g l k := (draws g l k, after (used g l k) g) in
  (exists rng rng',
     boot_rng seed fresh1 fresh2 resample gamma (RsState g) size = Ok rng /\
     boot_rng seed fresh1 fresh2 resample gamma (RsState g') size = Ok rng' /\
     forall l, used g' l size = used g l size -> (forall k, used g l size <= k -> g' k = g k) ->
       fst (rng l) = draws g l size /\ fst (rng' l) = draws g' l size /\
       forall ps k, snd (rng' l) ps k = snd (rng l) ps k) /\
  (exists rng rng',
     boot_rng seed fresh1 fresh2 resample gamma RsNone size = Ok rng /\
     boot_rng seed fresh1' fresh2 resample gamma RsNone size = Ok rng' /\
     forall l, fst (rng l) = draws fresh1 l size /\ fst (rng' l) = draws fresh1' l size /\
       snd (rng l) = gamma fresh2 /\ snd (rng' l) = gamma fresh2).
Proof.
  intros W seed fresh1 fresh1' fresh2 g g' draws used gamma size Hg resample. split.
  - eexists. eexists. split; [reflexivity|]. split; [reflexivity|]. intros l Hu Ha. split; [reflexivity|]. split; [reflexivity|].
    intros ps k. cbn [resample fst snd]. apply Hg. intro i. unfold after. rewrite Hu. apply Ha. lia.
  - eexists. eexists. split; [reflexivity|]. split; [reflexivity|]. intro l. repeat split; reflexivity.
Qed.
Print Assumptions C100_separate_numbers_partial.

(** An integer random_state: both stages start with the first number of the same
    sequence.  Whatever the gamma variates do with the numbers they read, they are what
    the generator would give if no residual had been drawn before; and two sequences
    that differ only in numbers used up by the residuals give different variates as soon
    as these read one of those numbers. *)
Theorem C100_integer_seed_refuted :
  forall (W : Type) (seed seed' : Z -> stream W) (fresh1 fresh2 : stream W)
         (draws : stream W -> list val -> nat -> nat -> val) (used : stream W -> list val -> nat -> nat)
         (gamma : stream W -> list (val * val) -> nat -> val) (size : nat) (z : Z),
  let resample g l k := (draws g l k, after (used g l k) g) in
  exists rng rng' rng0 rng0',
    boot_rng seed fresh1 fresh2 resample gamma (RsInt z) size = Ok rng /\
    boot_rng seed' fresh1 fresh2 resample gamma (RsInt z) size = Ok rng' /\
    boot_rng seed fresh1 fresh2 resample gamma (RsState (seed z)) size = Ok rng0 /\
    boot_rng seed' fresh1 fresh2 resample gamma (RsState (seed' z)) size = Ok rng0' /\
    forall l, fst (rng l) = draws (seed z) l size /\ snd (rng l) = gamma (seed z) /\
      forall ps k, gamma (seed' z) ps k <> gamma (seed z) ps k ->
        reads gamma -> used (seed' z) l size = used (seed z) l size ->
        (forall i, used (seed z) l size <= i -> seed' z i = seed z i) ->
        snd (rng' l) ps k <> snd (rng l) ps k /\ snd (rng0' l) ps k = snd (rng0 l) ps k.
Proof.
  intros W seed seed' fresh1 fresh2 draws used gamma size z resample.
  do 4 eexists. do 4 (split; [reflexivity|]). intro l. split; [reflexivity|]. split; [reflexivity|].
  intros ps k D Hg Hu Ha. split; [exact D|]. cbn [resample fst snd]. apply Hg. intro i. unfold after. rewrite Hu. apply Ha. lia.
Qed.
Print Assumptions C100_integer_seed_refuted.

(** Numbers 0, 1; the k-th residual is the number k itself, as is the k-th variate. *)
Definition st_draws (g : stream bool) (l : list val) (size k : nat) : val := if g k then Fin 1%Qc else Fin 0%Qc.
Definition st_used (g : stream bool) (l : list val) (size : nat) : nat := size.
Definition st_gamma (g : stream bool) (ps : list (val * val)) (k : nat) : val := if g k then Fin 1%Qc else Fin 0%Qc.
Example C100_nonvacuous : reads st_gamma /\
  st_gamma (fun i => i =? 0) [] 0 <> st_gamma (fun _ => false) [] 0 /\
  st_used (fun i => i =? 0) [] 3 = st_used (fun _ => false) [] 3 /\
  (forall i, st_used (fun _ => false) [] 3 <= i -> (i =? 0) = false) /\
  st_draws (fun i => i =? 0) [] 3 0 <> st_draws (fun _ => false) [] 3 0.
Proof.
  split.
  { intros g g' a k H. unfold st_gamma. rewrite H. reflexivity. }
  split; [discriminate|]. split; [reflexivity|]. split; [|discriminate].
  intros i Hi. unfold st_used in Hi. apply Nat.eqb_neq. lia.
Qed.
