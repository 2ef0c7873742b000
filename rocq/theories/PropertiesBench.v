(** C127: the experiments in scripts/developing.py. *)
From Coq Require Import String Lia Lra.
From Verif Require Import Base RSum Spec GaussModel GaussSpec DevModel DevSpec DevProofs GridModel GridSpec GridProofs VisModel VisSpec BenchModel BenchSpec BenchProofs.
Local Open Scope R_scope.

(** However the run ends, no plot overwrites another one. *)
Theorem C127_no_plot_is_overwritten : forall la e opc k perm graphs,
  NoDup (files (fst (benchmark_graphs_deep_dive_kfold la e opc k perm graphs))).
Proof. intros. apply (loop_files la e opc k perm graphs 0). Qed.
Print Assumptions C127_no_plot_is_overwritten.

(** If data can be drawn for every graph and there are between 2 and n folds, the
    run finishes, and for every graph and both methods the first panel shows the
    average validation errors of C87: row i is labelled with the i-th lambda,
    column j with the j-th mu, and the cell is the average for exactly these. *)
Theorem C127_validation_panel_partial : forall la e opc k perm graphs,
  (forall g, In g graphs -> exists d metrics, g = Ok (d, metrics) /\ (2 <= k <= n_obs d)%nat) ->
  let '(tr, r) := benchmark_graphs_deep_dive_kfold la e opc k perm graphs in
  r = Ok tt /\
  forall idx d metrics method name, nth_error graphs idx = Some (Ok (d, metrics)) ->
    (method, name) = ("lse", "LSE")%string \/ (method, name) = ("mle", "MLE")%string ->
  exists fig first, In (Save (plot_file idx name) fig) tr /\ nth_error (f_panels fig) 0 = Some first /\
    List.length (p_table first) = List.length (p_y first) /\
    (forall row, In row (p_table first) -> List.length row = List.length (p_x first)) /\
    (forall i j, (i < List.length (p_y first))%nat -> (j < List.length (p_x first))%nat ->
      exists folds outs,
        kfold (n_obs d) k (perm (n_obs d)) = Ok folds /\ List.length outs = k /\
        (forall f, (f < k)%nat -> exists train held_out,
           is_selection d (fst (nth f folds ([], []))) train /\ is_selection d (snd (nth f folds ([], []))) held_out /\
           fold_outcome la (e idx method i j f) opc method train held_out
             (nth i (p_y first) 0) (nth j (p_x first) 0) (nth f outs (Err ValueError))) /\
        is_average (successes outs) (nth j (nth i (p_table first) []) Infinite)).
Proof.
  intros la e opc k perm graphs HG.
  destruct (loop_ok la e opc k perm graphs) with (idx := 0%nat) as (tr & E & H).
  { apply Forall_forall. intros g I. apply HG in I. exact I. }
  unfold benchmark_graphs_deep_dive_kfold. rewrite E. split; [reflexivity|].
  intros idx d metrics method name EN EM.
  destruct (H idx d metrics EN) as (tl & tm & fl & fm & Gl & Gm & _ & Il & Im & Tl & Tm & Xl & Xm & Yl & Ym). cbn in Gl, Gm, Il, Im.
  assert (GEN : forall method t f, method = "mle"%string \/ method = "lse"%string ->
    grid_search_kfold la (e idx method) opc d metrics method grid grid k (perm (n_obs d)) = Ok t ->
    map p_table (f_panels f) = [first3 t; second3 t; third3 t] -> map p_x (f_panels f) = [grid; grid; grid] ->
    map p_y (f_panels f) = [grid; []; []] ->
    exists first, nth_error (f_panels f) 0 = Some first /\
    List.length (p_table first) = List.length (p_y first) /\
    (forall row, In row (p_table first) -> List.length row = List.length (p_x first)) /\
    (forall i j, (i < List.length (p_y first))%nat -> (j < List.length (p_x first))%nat ->
      exists folds outs,
        kfold (n_obs d) k (perm (n_obs d)) = Ok folds /\ List.length outs = k /\
        (forall f, (f < k)%nat -> exists train held_out,
           is_selection d (fst (nth f folds ([], []))) train /\ is_selection d (snd (nth f folds ([], []))) held_out /\
           fold_outcome la (e idx method i j f) opc method train held_out
             (nth i (p_y first) 0) (nth j (p_x first) 0) (nth f outs (Err ValueError))) /\
        is_average (successes outs) (nth j (nth i (p_table first) []) Infinite))).
  { clear. intros method t f HM G T X Y. destruct (f_panels f) as [|p ps]; [discriminate|]. cbn in T, X, Y.
    injection T as T _. injection X as X _. injection Y as Y _. exists p. split; [reflexivity|]. rewrite T, X, Y.
    destruct (table_cells _ _ _ _ _ _ _ _ _ _ _ HM G) as (L1 & L2 & _).
    split; [unfold first3; rewrite map_length; exact L1|]. split.
    { intros row I. apply in_map_iff in I. destruct I as (r & <- & I). rewrite map_length. auto. }
    intros i j Hi Hj. destruct (kfold_reports _ _ _ _ _ _ _ _ _ _ _ i j HM G Hi Hj) as (folds & outs & a & K & L & F & A & EQ).
    exists folds, outs. split; [exact K|]. split; [exact L|]. split; [exact F|]. rewrite first3_entry, EQ. exact A. }
  destruct EM as [EM|EM]; injection EM as -> ->.
  - destruct (GEN "lse"%string tl fl (or_intror eq_refl) Gl Tl Xl Yl) as (first & HF). exists fl, first. tauto.
  - destruct (GEN "mle"%string tm fm (or_introl eq_refl) Gm Tm Xm Ym) as (first & HF). exists fm, first. tauto.
Qed.
Print Assumptions C127_validation_panel_partial.

(** The hyperparameters next to the cells: six values from 1e-6 to 10 with a
    constant ratio, for lambda and for mu. *)
Theorem C127_hyperparameters : forall la e opc k perm graphs idx name,
  (forall g, In g graphs -> exists d metrics, g = Ok (d, metrics) /\ (2 <= k <= n_obs d)%nat) ->
  (idx < List.length graphs)%nat -> name = "LSE"%string \/ name = "MLE"%string ->
  exists fig p ratio, In (Save (plot_file idx name) fig) (fst (benchmark_graphs_deep_dive_kfold la e opc k perm graphs)) /\
    nth_error (f_panels fig) 0 = Some p /\ List.length (f_panels fig) = 3%nat /\
    (forall q, In q (f_panels fig) -> p_x q = p_x p) /\ p_y p = p_x p /\
    List.length (p_x p) = 6%nat /\ nth 0 (p_x p) 0 = / 1000000 /\ nth 5 (p_x p) 0 = 10 /\
    (forall i, (i < 5)%nat -> nth (S i) (p_x p) 0 = nth i (p_x p) 0 * ratio).
Proof.
  intros la e opc k perm graphs idx name HG Hi EM.
  destruct (loop_ok la e opc k perm graphs) with (idx := 0%nat) as (tr & E & H).
  { apply Forall_forall. intros g I. apply HG in I. exact I. }
  unfold benchmark_graphs_deep_dive_kfold. rewrite E. cbn [fst].
  destruct (nth_error graphs idx) as [g|] eqn:EN; [|apply nth_error_None in EN; lia].
  destruct (HG g (nth_error_In _ _ EN)) as (d & metrics & -> & _).
  destruct (H idx d metrics EN) as (tl & tm & fl & fm & _ & _ & _ & Il & Im & _ & _ & Xl & Xm & Yl & Ym). cbn in Il, Im.
  assert (GEN : forall f, map p_x (f_panels f) = [grid; grid; grid] -> map p_y (f_panels f) = [grid; []; []] ->
    exists p ratio, nth_error (f_panels f) 0 = Some p /\ List.length (f_panels f) = 3%nat /\
    (forall q, In q (f_panels f) -> p_x q = p_x p) /\ p_y p = p_x p /\
    List.length (p_x p) = 6%nat /\ nth 0 (p_x p) 0 = / 1000000 /\ nth 5 (p_x p) 0 = 10 /\
    (forall i, (i < 5)%nat -> nth (S i) (p_x p) 0 = nth i (p_x p) 0 * ratio)).
  { clear. intros f X Y. destruct (f_panels f) as [|p0 [|p1 [|p2 [|p3 ps]]]]; try discriminate. cbn [map] in X, Y.
    injection X as X0 X1 X2. injection Y as Y0 Y1 Y2. exists p0, (Rpower 10 (7 / 5)). rewrite X0, Y0.
    split; [reflexivity|]. split; [reflexivity|]. split; [intros q [<-|[<-|[<-|[]]]]; auto|]. split; [reflexivity|]. exact grid_values. }
  destruct EM as [-> | ->].
  - destruct (GEN fl Xl Yl) as (p & r & HH). exists fl, p, r. auto.
  - destruct (GEN fm Xm Ym) as (p & r & HH). exists fm, p, r. auto.
Qed.
Print Assumptions C127_hyperparameters.

(** The panels titled l_2 and SFD never show anything: all their cells are nan,
    for every graph and both methods. *)
Theorem C127_distance_panels_refuted : forall la e opc k perm graphs,
  (forall g, In g graphs -> exists d metrics, g = Ok (d, metrics) /\ (2 <= k <= n_obs d)%nat) ->
  let tr := fst (benchmark_graphs_deep_dive_kfold la e opc k perm graphs) in
  forall idx name, (idx < List.length graphs)%nat -> name = "LSE"%string \/ name = "MLE"%string ->
  exists fig, In (Save (plot_file idx name) fig) tr /\
    forall q p row x, (q = 1 \/ q = 2)%nat -> nth_error (f_panels fig) q = Some p -> In row (p_table p) -> In x row -> x = Nan.
Proof.
  intros la e opc k perm graphs HG tr idx name Hi EM.
  destruct (loop_ok la e opc k perm graphs) with (idx := 0%nat) as (tr' & E & H).
  { apply Forall_forall. intros g I. apply HG in I. exact I. }
  assert (tr = tr') as -> by (unfold tr, benchmark_graphs_deep_dive_kfold; now rewrite E).
  destruct (nth_error graphs idx) as [g|] eqn:EN; [|apply nth_error_None in EN; lia].
  destruct (HG g (nth_error_In _ _ EN)) as (d & metrics & -> & _).
  destruct (H idx d metrics EN) as (tl & tm & fl & fm & Gl & Gm & _ & Il & Im & Tl & Tm & _). cbn in Gl, Gm, Il, Im.
  assert (GEN : forall method t f e', method = "mle"%string \/ method = "lse"%string ->
    grid_search_kfold la e' opc d metrics method grid grid k (perm (n_obs d)) = Ok t ->
    map p_table (f_panels f) = [first3 t; second3 t; third3 t] ->
    forall q p row x, (q = 1 \/ q = 2)%nat -> nth_error (f_panels f) q = Some p -> In row (p_table p) -> In x row -> x = Nan).
  { clear. intros method t f e' HM G T q p row x Hq Hp. destruct (table_cells _ _ _ _ _ _ _ _ _ _ _ HM G) as (_ & _ & N).
    apply (nan_tables t N). destruct (f_panels f) as [|p0 [|p1 [|p2 ps]]]; try discriminate. cbn in T. injection T as _ T1 T2 _.
    destruct Hq as [-> | ->]; cbn in Hp; injection Hp as <-; auto. }
  destruct EM as [-> | ->].
  - exists fl. split; [exact Il|]. exact (GEN "lse"%string tl fl _ (or_intror eq_refl) Gl Tl).
  - exists fm. split; [exact Im|]. exact (GEN "mle"%string tm fm _ (or_introl eq_refl) Gm Tm).
Qed.
Print Assumptions C127_distance_panels_refuted.

(** The numbers in the messages are not those in the file names: "Plotting
    heatmaps for Graph N" is printed for the last of N graphs, and no file has
    that number; file number 0 exists and is announced nowhere. *)
Theorem C127_numbering_refuted : forall la e opc k perm graphs, graphs <> [] ->
  (forall g, In g graphs -> exists d metrics, g = Ok (d, metrics) /\ (2 <= k <= n_obs d)%nat) ->
  let tr := fst (benchmark_graphs_deep_dive_kfold la e opc k perm graphs) in
  In (Say_plotting (List.length graphs)) tr /\ (forall name, ~ In (plot_file (List.length graphs) name) (files tr)) /\
  In (plot_file 0 "LSE") (files tr) /\ In (plot_file 0 "MLE") (files tr).
Proof.
  intros la e opc k perm graphs NE HG tr.
  destruct (loop_ok la e opc k perm graphs) with (idx := 0%nat) as (tr' & E & H).
  { apply Forall_forall. intros g I. apply HG in I. exact I. }
  assert (ET : tr = tr') by (unfold tr, benchmark_graphs_deep_dive_kfold; now rewrite E).
  assert (Q : forall i, (i < List.length graphs)%nat -> exists d metrics, nth_error graphs i = Some (Ok (d, metrics))).
  { intros i Hi. destruct (nth_error graphs i) as [g|] eqn:EN; [|apply nth_error_None in EN; lia].
    destruct (HG g (nth_error_In _ _ EN)) as (d & metrics & -> & _). eauto. }
  assert (P : (0 < List.length graphs)%nat) by (destruct graphs; [congruence|cbn; lia]).
  assert (S0 : forall f fig, In (Save f fig) tr -> In f (files tr)).
  { intros f fig I. unfold files. apply in_flat_map. exists (Save f fig). split; [exact I|]. now left. }
  split; [|split].
  - assert (P1 : (List.length graphs - 1 < List.length graphs)%nat) by lia.
    destruct (Q _ P1) as (d & metrics & EN).
    destruct (H _ d metrics EN) as (? & ? & ? & ? & _ & _ & I & _). rewrite ET.
    replace (0 + (List.length graphs - 1) + 1)%nat with (List.length graphs) in I by lia. exact I.
  - intros name I. destruct (loop_files la e opc k perm graphs 0) as [_ F]. fold (benchmark_graphs_deep_dive_kfold la e opc k perm graphs) in F.
    apply F in I. destruct I as (i & Hi & [EQ|EQ]); apply plot_file_inj in EQ; destruct EQ as [EQ _]; unfold problem in *; lia.
  - destruct (Q 0%nat P) as (d & metrics & EN). destruct (H _ d metrics EN) as (? & ? & fl & fm & _ & _ & _ & Il & Im & _).
    rewrite <- ET in Il, Im. split; eapply S0; eassumption.
Qed.
Print Assumptions C127_numbering_refuted.

(** All messages and file names of a run, in order. *)
Theorem C127_headlines : forall la e opc k perm graphs,
  (forall g, In g graphs -> exists d metrics, g = Ok (d, metrics) /\ (2 <= k <= n_obs d)%nat) ->
  map headline_of (fst (benchmark_graphs_deep_dive_kfold la e opc k perm graphs)) =
  flat_map (fun i => [Testing (i + 1); Plotting (i + 1); File (plot_file i "LSE"); File (plot_file i "MLE")]) (seq 0 (List.length graphs)).
Proof. intros la e opc k perm graphs HG. apply loop_headlines. apply Forall_forall. intros g I. apply HG in I. exact I. Qed.
Print Assumptions C127_headlines.

(** benchmark_graphs_deep_dive ends with an exception on its first graph,
    whatever the data, the generators and the optimiser do: it reports no
    distance of an estimate, and the best hyperparameters it reports are None
    with least distance inf. *)
Theorem C127_deep_dive_refuted : forall la e last opc graphs, graphs <> [] ->
  exists tr x, benchmark_graphs_deep_dive la e last opc graphs = (Say_testing 1 :: tr, Err x) /\
  (forall h, In h tr -> about_estimates h = false /\ (forall k, h <> Say_testing k)) /\
  (forall m lam mu q, In (Say_best m lam mu q) tr -> lam = None /\ mu = None /\ q = None).
Proof.
  intros la e last opc graphs NE. destruct graphs as [|[s|x] rest]; [congruence| |].
  - destruct (one_study_fails la (e 0%nat) (last 0%nat) opc 1 s) as (tr & x & E & A & B & _).
    exists tr, x. split; [unfold benchmark_graphs_deep_dive; cbn [dive_loop Nat.add]; now rewrite E|]. split.
    + intros h I. split; [auto|]. intros k ->.
      revert I. clear - E. intro I. unfold one_study in E. repeat match type of E with
        | context [match ?t with _ => _ end] => destruct t; try discriminate end;
        injection E as <- _; cbn in I; repeat destruct I as [I|I]; try discriminate; try tauto.
    + intros m lam mu q I. eapply B; [exact I|reflexivity].
  - exists [], x. split; [reflexivity|]. cbn. tauto.
Qed.
Print Assumptions C127_deep_dive_refuted.

(** With an optimiser that does not swallow the exceptions of its objective, and
    data and GaussianMCM that work, it is a TypeError, after the report about
    GaussianMCM. *)
Theorem C127_deep_dive_exception : forall la e last opc s rest W q,
  s_gaussian s = Ok W -> s_distance s W = Ok q ->
  (forall f x, (forall v, f v = Err TypeError) -> minimize (last 0%nat "lse"%string) f x = Err TypeError) ->
  benchmark_graphs_deep_dive la e last opc (Ok s :: rest) =
    ([Say_testing 1; Say_gaussian 1 q; Say_weights W; Say_best "lse" None None None; Say_best "mle" None None None], Err TypeError).
Proof.
  intros la e last opc s rest W q EW EQ HM.
  destruct (one_study_fails la (e 0%nat) (last 0%nat) opc 1 s) as (tr & x & E & _ & _ & C).
  destruct (C q W EW EQ HM) as [-> ->]. unfold benchmark_graphs_deep_dive. cbn [dive_loop Nat.add]. rewrite E. reflexivity.
Qed.
Print Assumptions C127_deep_dive_exception.

(** With no graphs it does nothing and returns. *)
Theorem C127_no_graphs : forall la e last opc k perm e',
  benchmark_graphs_deep_dive la e last opc [] = ([], Ok tt) /\
  benchmark_graphs_deep_dive_kfold la e' opc k perm [] = ([], Ok tt).
Proof. intros. split; reflexivity. Qed.
Print Assumptions C127_no_graphs.

(** What refitting with hyperparameters None would come to: the least squares
    objective is never evaluated without a TypeError, and the likelihood only
    where the precision matrix of the covariance implied by the weights and the
    error variances has no positive determinant; where numpy cannot invert that
    covariance, its exception comes first. *)
Definition trying (x : list R) : denv := DEnv x (fun f x => match f x with Err y => Err y | Ok _ => Ok x end).
Theorem C127_fit_without_hyperparameters : forall la x d m lam mu,
  lam = None \/ mu = None ->
  let p := n_feat d in let l := if one_pure_child m then p else (p ^ 2 / 4)%nat in
  snd (fit_maybe la (trying x) d "lse" lam mu m) = Err TypeError /\
  snd (fit_maybe la (trying x) d "mle" lam mu m) =
    match inv la (implied_matrix p (weights_of l p x) (variances_of l p x)) with
    | Err y => Err y
    | Ok K => if Rle_dec (fst (slogdet la K)) 0 then Ok tt else Err TypeError
    end.
Proof.
  intros la x d m lam mu H p l. unfold fit_maybe.
  assert (E : forall method, snd (match minimize (trying x) (loss_without_number la method (num_latent m (n_feat d)) (n_feat d)) (start (trying x)) with
      | Err y => (m, Err y)
      | Ok x => (Dev (one_pure_child m) (setattr "W_hat" (AMat (reshape (num_latent m (n_feat d)) (n_feat d) x)) (d_attrs m)), Ok tt)
      end) = match loss_without_number la method l p x with Err y => Err y | Ok _ => Ok tt end).
  { intro method. cbn [trying minimize start]. change (num_latent m (n_feat d)) with l. fold p.
    destruct (loss_without_number la method l p x); reflexivity. }
  assert (F : forall method, snd (match lam, mu with
      | Some lam, Some mu => dev_fit la (trying x) d method lam mu m
      | _, _ => match minimize (trying x) (loss_without_number la method (num_latent m (n_feat d)) (n_feat d)) (start (trying x)) with
      | Err y => (m, Err y)
      | Ok x => (Dev (one_pure_child m) (setattr "W_hat" (AMat (reshape (num_latent m (n_feat d)) (n_feat d) x)) (d_attrs m)), Ok tt)
      end end) = match loss_without_number la method l p x with Err y => Err y | Ok _ => Ok tt end).
  { intro method. rewrite <- E. destruct lam, mu; try reflexivity. destruct H; discriminate. }
  rewrite !F. split; [reflexivity|]. unfold loss_without_number. cbn [String.eqb Ascii.eqb Bool.eqb].
  rewrite implied_matrix_eq.
  change (reshape l p (firstn (l * p) x)) with (weights_of l p x). unfold variances_of.
  destruct (inv la _) as [K|y]; [|reflexivity]. destruct (Rle_dec _ _); reflexivity.
Qed.
Print Assumptions C127_fit_without_hyperparameters.

(** The hypotheses are met: two folds of two rows; an optimiser that evaluates its objective at the start. *)
Example C127_hypotheses_met :
  (exists g : problem, exists d metrics, g = Ok (d, metrics) /\ (2 <= 2 <= n_obs d)%nat) /\
  (let e := DEnv [] (fun f x => match f x with Err y => Err y | Ok _ => Ok x end) in
   forall f x, (forall v, f v = Err TypeError) -> minimize e f x = Err TypeError).
Proof.
  split.
  - exists (Ok (Data 2 1 (fun _ _ => 0), fun _ => Ok (0, 0))). eexists _, _. split; [reflexivity|]. cbn. lia.
  - intros e f x H. cbn. now rewrite H.
Qed.
