(** Property theorems about scripts/developing.py. *)
From Coq Require Import String Lra Permutation.
From Verif Require Import Base RSum Spec GaussModel GaussSpec DevModel DevSpec DevProofs GridModel GridSpec GridProofs.
Local Open Scope R_scope.
Local Open Scope string_scope.

(** C85, the search itself: given what each cell measures, the reported pair is
    the first one with the least distance, and the arrays hold every result. *)
Theorem C85_grid_loop_finds_first_minimum_partial :
  forall lams mus r,
  let g := grid_loop lams mus r in
  let inside ij := (fst ij < List.length lams)%nat /\ (snd ij < List.length mus)%nat in
  (exists failed, NoDup failed /\
     (forall ij, In ij failed <-> inside ij /\ exists x, r (fst ij) (snd ij) = Err x) /\
     gr_failures g = List.length failed) /\
  (forall ij, inside ij -> match r (fst ij) (snd ij) with
     | Ok (d, s) => gr_dist g (fst ij) (snd ij) = d /\ gr_sfd g (fst ij) (snd ij) = s
     | Err _ => gr_dist g (fst ij) (snd ij) = 0 /\ gr_sfd g (fst ij) (snd ij) = 0
     end) /\
  (((forall ij, inside ij -> exists x, r (fst ij) (snd ij) = Err x) /\ gr_best g = None /\ gr_min g = None) \/
   (exists ij d s, inside ij /\ r (fst ij) (snd ij) = Ok (d, s) /\
      gr_best g = Some (nth (fst ij) lams 0, nth (snd ij) mus 0) /\ gr_min g = Some d /\
      forall q d' s', inside q -> r (fst q) (snd q) = Ok (d', s') ->
        d <= d' /\ (earlier q ij -> d < d'))).
Proof. exact grid_loop_result. Qed.
Print Assumptions C85_grid_loop_finds_first_minimum_partial.

(** C85 is false of grid_search: whatever the data, the optimizer, the metrics
    and the grid, no pair is ever reported, every cell counts as a failure and
    the arrays stay zero -- a perfect-looking distance. *)
Theorem C85_grid_search_refuted :
  forall la e opc d metrics method lams mus,
  let g := grid_search la e opc d metrics method lams mus in
  gr_best g = None /\ gr_min g = None /\ gr_failures g = (List.length lams * List.length mus)%nat /\
  (forall i j, gr_dist g i j = 0 /\ gr_sfd g i j = 0).
Proof. exact grid_search_finds_nothing. Qed.
Print Assumptions C85_grid_search_refuted.

(** C86: the folds. *)
Theorem C86_folds_partition_the_data :
  forall n k perm, Permutation perm (seq 0 n) ->
  match kfold n k perm with
  | Err x => x = ValueError /\ ((k <= 1)%nat \/ (n < k)%nat)
  | Ok folds =>
      (2 <= k <= n)%nat /\ List.length folds = k /\
      (forall s, (s < n)%nat -> exists! i, (i < k)%nat /\ In s (snd (nth i folds ([], [])))) /\
      (forall i, (i < k)%nat -> let f := nth i folds ([], []) in
         NoDup (fst f) /\ NoDup (snd f) /\
         (forall s, In s (snd f) -> (s < n)%nat) /\
         (forall s, In s (fst f) <-> (s < n)%nat /\ ~ In s (snd f)) /\
         (n / k <= List.length (snd f) <= n / k + 1)%nat)
  end.
Proof. exact kfold_partitions. Qed.
Print Assumptions C86_folds_partition_the_data.

(** C87: what cross-validation reports per cell.  (With a held-out fold of one
    row numpy's covariance is nan; the theorem's covariance divides by zero
    there, so it is to be read for folds of at least two rows.) *)
Theorem C87_cross_validation_reports :
  forall la e opc d metrics method lams mus k perm table i j, method = "mle" \/ method = "lse" ->
  grid_search_kfold la e opc d metrics method lams mus k perm = Ok table ->
  (i < List.length lams)%nat -> (j < List.length mus)%nat ->
  exists folds outs a,
    kfold (n_obs d) k perm = Ok folds /\ List.length outs = k /\
    (forall f, (f < k)%nat -> exists train held_out,
       is_selection d (fst (nth f folds ([], []))) train /\ is_selection d (snd (nth f folds ([], []))) held_out /\
       fold_outcome la (e i j f) opc method train held_out (nth i lams 0) (nth j mus 0) (nth f outs (Err ValueError))) /\
    is_average (successes outs) a /\
    nth j (nth i table []) (Infinite, Infinite, Infinite) = (a, Nan, Nan).
Proof. exact kfold_reports. Qed.
Print Assumptions C87_cross_validation_reports.

(** Hypotheses met: a grid with a failing cell and a tie; five rows in two
    folds; a cross-validation that runs. *)
Example C85_instance :
  let r := fun i j : nat => match i, j with O, O => Err ValueError | O, _ => Ok (2, 7) | _, O => Ok (1, 8) | _, _ => Ok (1, 9) end in
  gr_best (grid_loop [10; 20] [30; 40] r) = Some (20, 30) /\ gr_min (grid_loop [10; 20] [30; 40] r) = Some 1 /\
  gr_failures (grid_loop [10; 20] [30; 40] r) = 1%nat.
Proof.
  intros r. unfold grid_loop, cells. cbn [List.length seq list_prod map app fold_left r fst snd nth grid_cell gr_min gr_best gr_failures gr_dist gr_sfd grid_init less].
  destruct (Rlt_dec 1 2); [|lra]. cbn [less]. destruct (Rlt_dec 1 1); [lra|]. auto.
Qed.
Example C86_instance :
  Permutation [3; 0; 4; 1; 2]%nat (seq 0 5) /\
  kfold 5 2 [3; 0; 4; 1; 2]%nat = Ok [([1; 2], [0; 3; 4]); ([0; 3; 4], [1; 2])]%nat.
Proof.
  split; [|reflexivity]. apply NoDup_Permutation.
  - repeat constructor; cbn; lia.
  - apply seq_NoDup.
  - intros x. cbn. lia.
Qed.
Example C87_instance : forall la metrics,
  let e := fun (_ _ _ : nat) => DEnv [1; 1] (fun _ _ => Ok [2; -2]) in
  let d := Data 4 1 (fun s _ => INR s) in
  exists table, grid_search_kfold la e true d metrics "lse" [1] [1] 2 [3; 0; 2; 1]%nat = Ok table.
Proof. intros. eexists. reflexivity. Qed.
