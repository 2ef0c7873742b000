(** Files written by several fits: C117, C118 and C119. *)
From Coq Require Import Ascii String.
From Verif Require Import Base NcfaModel NcfaSpec NcfaData FsModel FsSpec FsProofs.
Local Open Scope string_scope.

(** * C117: fits running at the same time do not disturb each other *)

(** If no other fit uses the directory of fit [i], then at every moment of every
    schedule, and wherever the others are killed, each file of fit [i] is what
    it would be if fit [i] had run alone and made as many steps. *)
Theorem C117_isolated_partial jobs s schedule i j : nth_error jobs i = Some j -> own_directory jobs i j ->
  forall f, writes_to (j_path j) f ->
  files (w_fs (run schedule (start jobs s))) f =
  files (w_fs (run (repeat 0 (steps_of i schedule)) (start [j] s))) f.
Proof. intros. eapply isolated; eauto. Qed.

(** Once it has made all its steps, its files hold its network, losses, errors
    and, after what the log held before, its lines. *)
Theorem C117_complete_partial jobs s schedule i j : nth_error jobs i = Some j -> own_directory jobs i j ->
  directories_exist s (j_path j) -> (List.length (fit_ops j) <= steps_of i schedule)%nat ->
  let t := w_fs (run schedule (start jobs s)) in
  saved_by j t /\
  bytes (files t (j_path j ++ "training.log")) = (bytes (files s (j_path j ++ "training.log")) ++ concat (j_lines j))%list.
Proof. intros. eapply complete; eauto. Qed.

(** No fit writes a file outside the four it owns. *)
Theorem C117_other_files jobs s schedule f :
  (forall j, In j jobs -> ~ writes_to (j_path j) f) ->
  files (w_fs (run schedule (start jobs s))) f = files s f.
Proof.
  intros N. induction schedule as [|k l IH] using rev_ind; [reflexivity|]. rewrite run_snoc, <- IH.
  assert (Inc := run_rest_incl l jobs s k). set (w := run l (start jobs s)) in *. unfold step.
  destruct (w_rest w k) as [|o rest]; [reflexivity|]. destruct (exec o (w_fs w)) as [s'|] eqn:E; [|reflexivity].
  cbn. apply (exec_other _ _ _ _ E). intros ->. destruct (Inc o (or_introl eq_refl)) as (j & Hj & Ho).
  apply fit_ops_target in Ho. apply (N j); auto. eapply nth_error_In; eauto.
Qed.

(** Two fits with the same path, such as the default one: whatever they write,
    there is a schedule in which both run to the end and leave the network of
    one with the losses and errors of the other. *)
Theorem C117_same_directory_mixed a b s : j_path a = j_path b -> directories_exist s (j_path a) ->
  exists schedule, (List.length (fit_ops a) <= steps_of 0 schedule)%nat /\ (List.length (fit_ops b) <= steps_of 1 schedule)%nat /\
    let t := w_fs (run schedule (start [a; b] s)) in
    files t (path_join (j_path a) "model_recon.pt") = Some (concat (j_model b)) /\
    files t (path_join (j_path a) "loss_recon.pkl") = Some (concat (j_loss a)) /\
    files t (path_join (j_path a) "error_recon.pkl") = Some (concat (j_error a)).
Proof. apply mixed. Qed.

(** The file system of a fresh project: the working directory and the default
    output directory. *)
Definition fresh : fs := FS (fun d => String.eqb d "" || String.eqb d "trained_ncfa/") (fun _ => None).
Definition fit_a := Job "trained_ncfa/" [[65]] [[1; 1]] [[3]] [[5]].
Definition fit_b := Job "trained_ncfa/" [[66]] [[2]] [[4]] [[6]].

(** So the property fails for two fits with the default path. *)
Theorem C117_same_directory_refuted :
  ~ forall jobs s schedule i j, nth_error jobs i = Some j -> directories_exist s (j_path j) ->
    (forall k j', nth_error jobs k = Some j' -> (List.length (fit_ops j') <= steps_of k schedule)%nat) ->
    exists k j', nth_error jobs k = Some j' /\ saved_by j' (w_fs (run schedule (start jobs s))).
Proof.
  intros H. destruct (C117_same_directory_mixed fit_a fit_b fresh eq_refl (conj eq_refl eq_refl)) as (sc & La & Lb & M & L & _).
  destruct (H [fit_a; fit_b] fresh sc 0 fit_a eq_refl (conj eq_refl eq_refl)) as (k & j' & Hj & S1 & S2 & _).
  { intros [|[|k]] j' Hj; cbn in Hj; try (injection Hj as <-; assumption). destruct k; discriminate. }
  destruct k as [|[|k]]; cbn in Hj; [injection Hj as <-|injection Hj as <-|destruct k; discriminate].
  - cbn [j_path fit_a] in M, S1. rewrite M in S1. discriminate.
  - cbn [j_path fit_a fit_b] in L, S2. rewrite L in S2. discriminate.
Qed.

(** Worse, a file may hold the bytes of neither: the network file starts with
    one fit's bytes and ends with the other's. *)
Theorem C117_torn_network :
  let schedule := [0; 0; 1; 1; 0; 1; 0; 0; 0; 0; 1; 1; 1; 1] in
  let t := w_fs (run schedule (start [fit_a; fit_b] fresh)) in
  steps_of 0 schedule = List.length (fit_ops fit_a) /\ steps_of 1 schedule = List.length (fit_ops fit_b) /\
  files t "trained_ncfa/model_recon.pt" = Some [2; 1] /\
  concat (j_model fit_a) = [1; 1] /\ concat (j_model fit_b) = [2].
Proof. vm_compute. repeat split. Qed.

(** A second fit that is killed right after opening the network file leaves zero
    bytes at the start of the network of the first, which runs to its end. *)
Theorem C117_killed_second_fit :
  let a := Job "trained_ncfa/" [[65]] [[1]; [7]] [[3]] [[5]] in
  let schedule := [0; 0; 0; 1; 1; 0; 0; 0; 0; 0] in
  let t := w_fs (run schedule (start [a; fit_b] fresh)) in
  steps_of 0 schedule = List.length (fit_ops a) /\ files t "trained_ncfa/model_recon.pt" = Some [0; 7].
Proof. vm_compute. split; reflexivity. Qed.

(** * C118: the training log is complete and in order *)

(** Any number of fits, in the same or in different directories, in any
    schedule and killed anywhere: every log file is what it was before,
    followed by whole lines; the lines of fit [i] are, in order and without
    loss, the first ones it logged, as many as it made steps. *)
Theorem C118_log_is_an_interleaving jobs s schedule path :
  let f := path ++ "training.log" in dirs s (dir_of f) = true ->
  exists entries : list (nat * list nat),
    bytes (files (w_fs (run schedule (start jobs s))) f) = (bytes (files s f) ++ concat (map snd entries))%list /\
    forall i, map snd (filter (fun e => (fst e =? i)%nat) entries) = own_lines jobs f i (steps_of i schedule).
Proof. intros f H. destruct (log_inv jobs s schedule path) as [L _]; [rewrite dirname_eq; exact H|]. exact L. Qed.

(** Nothing that is in a log is ever removed. *)
Theorem C118_append_only jobs s schedule more path :
  let f := path ++ "training.log" in
  exists new, bytes (files (w_fs (run (schedule ++ more)%list (start jobs s))) f) =
    (bytes (files (w_fs (run schedule (start jobs s))) f) ++ new)%list.
Proof.
  intros f. rewrite run_app. assert (Inc : forall l k o, In o (w_rest (run l (run schedule (start jobs s))) k) -> exists j, nth_error jobs k = Some j /\ In o (fit_ops j)).
  { intros l k o H. rewrite <- run_app in H. eapply run_rest_incl; eauto. }
  set (w0 := run schedule (start jobs s)) in *. induction more as [|k l IH] using rev_ind; [exists []; cbn; rewrite app_nil_r; reflexivity|].
  rewrite run_snoc. destruct IH as (new & IH). specialize (Inc l k). set (w := run l w0) in *. unfold step.
  destruct (w_rest w k) as [|o rest]; [eauto|]. destruct (exec o (w_fs w)) as [s'|] eqn:E; [|eauto]. cbn [w_fs].
  destruct (string_dec f (target o)) as [Et|Nt].
  2:{ rewrite (exec_other _ _ _ _ E Nt). eauto. }
  destruct (Inc o (or_introl eq_refl)) as (j & Hj & Ho). unfold fit_ops in Ho. fold (saves j) in Ho. rewrite in_app_iff in Ho.
  destruct Ho as [Ho|Ho].
  - apply in_map_iff in Ho. destruct Ho as (x & <- & _). cbn [target] in Et. cbn [exec] in E. rewrite <- Et in E.
    destruct (dirs (w_fs w) (dirname f)); [|discriminate]. injection E as <-. cbn [files set_file]. rewrite String.eqb_refl. cbn [bytes].
    rewrite IH. exists (new ++ x)%list. rewrite app_assoc. reflexivity.
  - apply saves_target in Ho. rewrite <- Et in Ho. exfalso. apply (log_not_saved path (j_path j)). exact Ho.
Qed.

(** * C119: the output directory *)

(** The constructor with [path] (naming the directory [q]) succeeds exactly if
    the directory is there, or nothing has that name and its parent is there.
    It never touches a file and adds at most that directory. *)
Theorem C119_constructor path q s : as_directory path = q ++ "/" ->
  let s' := fst (construct path s) in let r := snd (construct path s) in
  (r = Done <-> dirs s (q ++ "/") = true \/ (files s q = None /\ dirs s (dir_of q) = true)) /\
  (r = Done -> dirs s' (q ++ "/") = true) /\
  (forall f, files s' f = files s f) /\
  (forall d, dirs s d = true -> dirs s' d = true) /\
  (forall d, dirs s' d = true -> dirs s d = true \/ (d = q ++ "/" /\ r = Done)).
Proof.
  intros Hq. cbv zeta. unfold construct. rewrite slashed_eq, Hq, (strip_of _ _ Hq), dirname_eq.
  destruct (dirs s (q ++ "/")) eqn:D.
  - cbn. repeat split; auto.
  - destruct (files s q) eqn:F.
    + cbn. repeat split; auto; try discriminate. intros [A|[A _]]; discriminate.
    + destruct (dirs s (dir_of q)) eqn:P; cbn.
      * repeat split; auto; try (intros _; rewrite String.eqb_refl; reflexivity).
        -- intros d H. rewrite H. apply orb_true_r.
        -- intros d H. destruct (String.eqb_spec d (q ++ "/")) as [E|E]; auto.
      * repeat split; auto; try discriminate. intros [A|[_ A]]; discriminate.
Qed.

(** With the empty path it does nothing. *)
Theorem C119_empty_path s : dirs s "" = true -> construct "" s = (s, Done).
Proof. intros H. unfold construct. cbn. rewrite H. reflexivity. Qed.

(** Constructing again, by the same or another process, succeeds and changes
    nothing. *)
Theorem C119_again path s : snd (construct path s) = Done ->
  construct path (fst (construct path s)) = (fst (construct path s), Done).
Proof.
  unfold construct at 1 3 4. destruct (dirs s (slashed path)) eqn:D.
  - intros _. cbn. unfold construct. rewrite D. reflexivity.
  - destruct (files s (strip_slash path)) eqn:F; [discriminate|].
    destruct (dirs s (dirname (strip_slash path))) eqn:P; [|discriminate]. intros _. cbn. unfold construct. cbn.
    rewrite String.eqb_refl. reflexivity.
Qed.

(** After a successful construction every file of a fit can be created. *)
Theorem C119_then_fit path s : well_formed s -> snd (construct path s) = Done ->
  directories_exist (fst (construct path s)) path.
Proof.
  intros [W0 W] R. destruct (string_dec path "") as [->|N].
  - rewrite C119_empty_path by auto. split; exact W0.
  - destruct (directory_named path N) as (q & Hq). destruct (C119_constructor path q s Hq) as (R1 & R2 & _ & Hk & _).
    unfold directories_exist. rewrite Hq. split; [auto|].
    destruct (ends_with_slash path) eqn:E.
    + replace (dir_of (path ++ "training.log")) with (q ++ "/"); [auto|]. rewrite <- Hq. symmetry.
      apply log_in_directory. auto.
    + assert (Pq : path = q).
      { unfold as_directory in Hq. rewrite (proj2 (String.eqb_neq path "") N), E in Hq. apply append_inj_r in Hq. auto. }
      subst q. assert (X : dir_of (path ++ "training.log") = dir_of path) by (apply dir_of_app; reflexivity).
      rewrite X. apply Hk. apply R1 in R. destruct R as [R|[_ R]]; auto.
Qed.

(** But it does not create missing parents. *)
Theorem C119_creates_directory_refuted :
  ~ forall path s, well_formed s -> (forall f, files s f = None) -> snd (construct path s) = Done.
Proof.
  intros H. assert (W : well_formed fresh).
  { split; [reflexivity|]. intros q Hq. unfold fresh in Hq. cbn in Hq. apply orb_true_iff in Hq. destruct Hq as [Hq|Hq]; apply String.eqb_eq in Hq.
    - destruct q; discriminate.
    - change "trained_ncfa/" with ("trained_ncfa" ++ "/") in Hq. apply append_inj_r in Hq. subst. reflexivity. }
  specialize (H "results/run1/" fresh W (fun _ => eq_refl)). vm_compute in H. discriminate.
Qed.

(** * Non-vacuity *)
Definition fit_c := Job "other/" [[67]; [68]] [[7]] [[8]] [[9]].
Definition two_dirs : fs := FS (fun d => String.eqb d "" || String.eqb d "trained_ncfa/" || String.eqb d "other/") (fun _ => None).
Example isolated_case : own_directory [fit_a; fit_c] 1 fit_c /\ directories_exist two_dirs (j_path fit_c).
Proof.
  split; [|split; reflexivity]. intros [|[|k]] j' Hk Hj; cbn in Hj; [injection Hj as <-; discriminate|lia|destruct k; discriminate].
Qed.
(** Fit 0 is killed while it writes its network; fit 1 completes. *)
Example isolated_run :
  let t := w_fs (run [0; 1; 0; 1; 1; 1; 1; 1; 1; 1] (start [fit_a; fit_c] two_dirs)) in
  map (files t) ["trained_ncfa/training.log"; "trained_ncfa/model_recon.pt"; "other/training.log"; "other/model_recon.pt"; "other/error_recon.pkl"]
  = [Some [65]; Some []; Some [67; 68]; Some [7]; Some [9]].
Proof. vm_compute. reflexivity. Qed.
Example log_run :
  let t := w_fs (run [1; 0; 0; 1] (start [fit_a; Job "trained_ncfa/" [[66]; [67]] [] [] []] fresh)) in
  files t "trained_ncfa/training.log" = Some [66; 65; 67].
Proof. vm_compute. reflexivity. Qed.
Example construct_ok : snd (construct "results" fresh) = Done /\ dirs (fst (construct "results" fresh)) "results/" = true.
Proof. split; reflexivity. Qed.
Example construct_file : snd (construct "results/" (FS (dirs fresh) (fun f => if String.eqb f "results" then Some [] else None))) = FileExists.
Proof. reflexivity. Qed.

Print Assumptions C117_isolated_partial.
Print Assumptions C117_complete_partial.
Print Assumptions C117_other_files.
Print Assumptions C117_same_directory_mixed.
Print Assumptions C117_same_directory_refuted.
Print Assumptions C117_torn_network.
Print Assumptions C117_killed_second_fit.
Print Assumptions C118_log_is_an_interleaving.
Print Assumptions C118_append_only.
Print Assumptions C119_constructor.
Print Assumptions C119_empty_path.
Print Assumptions C119_again.
Print Assumptions C119_then_fit.
Print Assumptions C119_creates_directory_refuted.
