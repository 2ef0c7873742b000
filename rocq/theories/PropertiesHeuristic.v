(** Property theorems about [find_heuristic_1pc]. *)
From Verif Require Import Base Spec HeuristicSpec MaxCliquesModel HeuristicModel HeuristicProofs
  HeuristicExact.

(** C03 *)
Theorem C03_heuristic_recovers_one_pure_child :
  forall (l n : nat) (B M : matrix) (orc : nat -> nat),
  0 < n -> one_pure_child l n B -> dependence_graph l n B M ->
  exists C, ends_with (fun fuel => find_heuristic_1pc fuel orc M) (Ok C) /\
            same_up_to_latent_order B C.
Proof. exact heuristic_recovers. Qed.
Print Assumptions C03_heuristic_recovers_one_pure_child.

(** C04 *)
Theorem C04_heuristic_explains_every_dependence :
  forall (n : nat) (M : matrix) (orc : nat -> nat),
  0 < n -> undirected n M ->
  exists r, ends_with (fun fuel => find_heuristic_1pc fuel orc M) r /\
  (r = Err TypeError \/
   exists C K, r = Ok C /\ maximum_independent_set n M K /\
     has_shape (length K) n C /\
     (forall i v, i < length K -> v < n ->
        (entry C i v = true <-> v = nth i K 0 \/ adjacent M (nth i K 0) v)) /\
     covers_edges n M C /\ covers_vertices n C).
Proof. exact heuristic_returns. Qed.
Print Assumptions C04_heuristic_explains_every_dependence.

(** C05 is false: on the 5-cycle every run raises TypeError. *)
Theorem C05_heuristic_total_refuted :
  exists n M, 0 < n /\ undirected n M /\ unit_diagonal n M /\
  forall orc, ends_with (fun fuel => find_heuristic_1pc fuel orc M) (Err TypeError).
Proof. exact heuristic_total_refuted. Qed.
Print Assumptions C05_heuristic_total_refuted.
(** Nor is there an answer for the graph without measurements. *)
Theorem C05_empty_graph_refuted :
  forall orc, ends_with (fun fuel => find_heuristic_1pc fuel orc []) (Err StopIteration).
Proof. exact heuristic_empty. Qed.
Print Assumptions C05_empty_graph_refuted.

(** Exactly when there is an answer.  Whatever the order in which the sets
    are iterated, a maximum independent set decides: an answer if it dominates
    the edges, TypeError otherwise. *)
Theorem C05_outcome_partial :
  forall (n : nat) (M : matrix) (orc : nat -> nat), 0 < n -> undirected n M ->
  exists K, maximum_independent_set n M K /\
    ((dominates_edges n M K /\
      exists C, ends_with (fun fuel => find_heuristic_1pc fuel orc M) (Ok C)) \/
     (~ dominates_edges n M K /\
      ends_with (fun fuel => find_heuristic_1pc fuel orc M) (Err TypeError))).
Proof. exact heuristic_outcome. Qed.
Print Assumptions C05_outcome_partial.

(** An answer for every order iff every maximum independent set dominates;
    TypeError for every order iff none does. *)
Theorem C05_always_answers_iff :
  forall (n : nat) (M : matrix), 0 < n -> undirected n M ->
  ((forall orc, exists C, ends_with (fun fuel => find_heuristic_1pc fuel orc M) (Ok C)) <->
   (forall K, maximum_independent_set n M K -> dominates_edges n M K)).
Proof. exact heuristic_returns_iff. Qed.
Print Assumptions C05_always_answers_iff.
Theorem C05_never_answers_iff :
  forall (n : nat) (M : matrix), 0 < n -> undirected n M ->
  ((forall orc, ends_with (fun fuel => find_heuristic_1pc fuel orc M) (Err TypeError)) <->
   (forall K, maximum_independent_set n M K -> ~ dominates_edges n M K)).
Proof. exact heuristic_fails_iff. Qed.
Print Assumptions C05_never_answers_iff.

(** Both can happen for the same graph: on the chain 0-1-2-3 the answer
    depends on the order in which sets are iterated. *)
Definition path4 : matrix := of_edges 4 true [(0, 1); (1, 2); (2, 3)].
Theorem C05_depends_on_set_order_refuted :
  exists n M, 0 < n /\ undirected n M /\ unit_diagonal n M /\
  (exists orc C, ends_with (fun fuel => find_heuristic_1pc fuel orc M) (Ok C)) /\
  (exists orc, ends_with (fun fuel => find_heuristic_1pc fuel orc M) (Err TypeError)).
Proof.
  assert (HM : undirected 4 path4) by apply of_edges_undirected.
  assert (Hends : forall orc f r, find_heuristic_1pc f orc path4 = Some r ->
            ends_with (fun fuel => find_heuristic_1pc fuel orc path4) r).
  { intros orc f r H. destruct (heuristic_outcome 4 path4 orc ltac:(lia) HM) as (K & _ & Hr).
    destruct Hr as [[_ (C & HC)]|[_ HC]]; pose proof HC as [_ HC'];
      rewrite (HC' f r H); exact HC. }
  exists 4, path4. split; [lia|]. split; [exact HM|]. split.
  - intros [|[|[|[|i]]]] Hi; try reflexivity; lia.
  - split.
    + exists (fun _ => 0). eexists. apply (Hends _ 60). vm_compute. reflexivity.
    + exists (fun i => if i =? 0 then 1 else if i =? 2 then 1 else 0).
      apply (Hends _ 60). vm_compute. reflexivity.
Qed.
Print Assumptions C05_depends_on_set_order_refuted.

(** C06 is false: on the 4-cycle every run returns a latent whose children are
    not pairwise dependent. *)
Theorem C06_heuristic_rows_are_cliques_refuted :
  exists n M, 0 < n /\ undirected n M /\
  forall orc, exists C, ends_with (fun fuel => find_heuristic_1pc fuel orc M) (Ok C) /\
                        ~ rows_are_cliques n M C.
Proof. exact heuristic_cliques_refuted. Qed.
Print Assumptions C06_heuristic_rows_are_cliques_refuted.

(** C64: exactly the dependence graphs of one-pure-child structures are
    answered by an exact structure. *)
Theorem C64_heuristic_exact_iff_one_pure_child :
  forall (n : nat) (M : matrix) (orc : nat -> nat),
  0 < n -> undirected n M ->
  ((exists C, ends_with (fun fuel => find_heuristic_1pc fuel orc M) (Ok C) /\
              rows_are_cliques n M C)
   <-> exists l B, one_pure_child l n B /\ dependence_graph l n B M).
Proof. exact heuristic_exact_iff. Qed.
Print Assumptions C64_heuristic_exact_iff_one_pure_child.

(** C07 *)
Theorem C07_heuristic_at_most_any_cover :
  forall (n : nat) (M : matrix) (orc : nat -> nat) (C C' : matrix),
  0 < n -> undirected n M ->
  ends_with (fun fuel => find_heuristic_1pc fuel orc M) (Ok C) ->
  rows_are_cliques n M C' -> covers_vertices n C' -> length C <= length C'.
Proof. exact heuristic_no_more_than_cover. Qed.
Print Assumptions C07_heuristic_at_most_any_cover.

(** Hypotheses met: two latents sharing a child, three measurements. *)
Definition B_ex : matrix := [[true; true; false]; [false; true; true]].
Definition M_ex : matrix := [[false; true; false]; [true; true; true]; [false; true; true]].
Example C03_instance : one_pure_child 2 3 B_ex /\ dependence_graph 2 3 B_ex M_ex /\
  find_heuristic_1pc 50 (fun _ => 0) M_ex = Some (Ok [[true; true; false]; [false; true; true]]).
Proof.
  split; [|split; [|vm_compute; reflexivity]].
  - split; [split; [reflexivity|cbn; intuition; subst; reflexivity]|split].
    + intros [|[|i]] Hi; [exists 0|exists 2|lia].
      * split; [lia|]. split; [reflexivity|]. intros [|[|i']]; [lia|reflexivity|lia].
      * split; [lia|]. split; [reflexivity|]. intros [|[|i']]; [reflexivity|lia|lia].
    + intros [|[|[|j]]] Hj; [exists 0|exists 0|exists 1|lia]; split; auto.
  - split; [split; [split; [reflexivity|cbn; intuition; subst; reflexivity]|]|].
    + intros [|[|[|[|i]]]] [|[|[|[|j]]]]; reflexivity.
    + intros [|[|[|i]]] [|[|[|j]]] Hi Hj Hne; try lia; cbn; split; intros H; try discriminate;
        try (exists 0; repeat split; auto; lia); try (exists 1; repeat split; auto; lia); auto;
        destruct H as ([|[|k]] & Hk & H1 & H2); cbn in H1, H2; try discriminate; lia.
Qed.

(** C07's hypotheses met on the same graph, with the competing cover [B_ex]. *)
Example C07_instance : undirected 3 M_ex /\ rows_are_cliques 3 M_ex B_ex /\ covers_vertices 3 B_ex.
Proof.
  split; [apply C03_instance|]. split.
  - intros row [<-|[<-|[]]]; (split;
      [intros [|[|[|v]]]; cbn; try lia; destruct v; discriminate
      |intros [|[|[|u]]] [|[|[|v]]]; cbn; intros Hu Hv Hne; try discriminate;
       try (destruct u; discriminate); try (destruct v; discriminate); try congruence;
       split; auto]).
  - intros [|[|[|v]]] Hv; try lia.
    + exists [true; true; false]; cbn; auto.
    + exists [true; true; false]; cbn; auto.
    + exists [false; true; true]; cbn; auto.
Qed.
