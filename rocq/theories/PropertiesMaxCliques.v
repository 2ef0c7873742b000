(** Property theorems about [max_cliques]. *)
From Verif Require Import Base Spec MaxCliquesModel MaxCliquesProofs.

(** C01.  [set_of K] is the vertex set of the yielded list [K]; [orc] resolves
    every set order. *)
Theorem C01_max_cliques_enumerates_maximal_cliques :
  forall (n : nat) (M : matrix) (orc : nat -> nat),
  0 < n -> undirected n M ->
  exists cliques,
    ends_with (fun fuel => max_cliques fuel orc M) (Ok cliques) /\
    (forall K, In K cliques -> NoDup K /\ maximal_clique n M (set_of K)) /\
    (forall S, maximal_clique n M S ->
       exactly_once (fun K => same_set (set_of K) S) cliques).
Proof. exact max_cliques_full. Qed.
Print Assumptions C01_max_cliques_enumerates_maximal_cliques.

(** C02.  Any matrix whatsoever.  A yielded list that still held the [None]
    placeholder and an escaping KeyError are [Err] in the model. *)
Theorem C02_max_cliques_terminates :
  forall (M : matrix) (orc : nat -> nat),
  exists cliques,
    ends_with (fun fuel => max_cliques fuel orc M) (Ok cliques) /\
    (M = [] -> cliques = []).
Proof. exact max_cliques_terminates. Qed.
Print Assumptions C02_max_cliques_terminates.

(** Hypotheses met: the path 0 - 1 - 2 with a loop at 1 (self loops ignored). *)
Example C01_instance :
  undirected 3 [[false; true; false]; [true; true; true]; [false; true; false]] /\
  max_cliques 20 (fun _ => 0) [[false; true; false]; [true; true; true]; [false; true; false]]
  = Some (Ok [[1; 0]; [1; 2]]).
Proof.
  split; [|vm_compute; reflexivity].
  split; [split; [reflexivity|]|].
  - cbn. intuition; subst; reflexivity.
  - intros [|[|[|[|i]]]] [|[|[|[|j]]]]; reflexivity.
Qed.
