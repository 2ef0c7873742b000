From Coq Require Import String Ascii Lia Lra.
From Verif Require Import Base RSum Spec GaussModel DevModel DevSpec DevProofs GridModel GridSpec GridProofs VisModel VisSpec VisProofs BenchModel BenchSpec.
Local Open Scope R_scope.

Lemma string_app_assoc a b c : ((a ++ b) ++ c = a ++ (b ++ c))%string.
Proof. induction a as [|x a IH]; simpl; [reflexivity|now rewrite IH]. Qed.
Lemma app_inj_l a : forall b c, (a ++ b = a ++ c)%string -> b = c.
Proof. induction a as [|x a IH]; simpl; intros b c H; [exact H|]. injection H as H. auto. Qed.
(** Decimal notation contains no blank. *)
Fixpoint no_blank (s : string) : bool :=
  match s with EmptyString => true | String c s => negb (Ascii.eqb c " "%char) && no_blank s end.
Lemma uint_no_blank d : no_blank (DecimalString.NilEmpty.string_of_uint d) = true.
Proof. induction d; simpl; auto. Qed.
Lemma decimal_no_blank k : no_blank (decimal k) = true.
Proof. unfold decimal, DecimalString.NilZero.string_of_uint. destruct (Nat.to_uint k) eqn:E; [reflexivity|rewrite <- E; apply uint_no_blank..]. Qed.
Lemma split_blank : forall a b x y, no_blank a = true -> no_blank b = true ->
  (a ++ String " " x = b ++ String " " y)%string -> a = b /\ x = y.
Proof.
  induction a as [|c a IH]; intros [|c' b] x y Ha Hb E; simpl in *.
  - injection E as ->. auto.
  - injection E as <- E. discriminate Hb.
  - injection E as -> E. discriminate Ha.
  - injection E as -> E. apply andb_prop in Ha. apply andb_prop in Hb. destruct (IH b x y) as [-> ->]; tauto.
Qed.
Lemma plot_file_inj k k' m m' : plot_file k m = plot_file k' m' -> k = k' /\ m = m'.
Proof.
  unfold plot_file. intro H. apply app_inj_l in H. simpl in H. apply split_blank in H; try apply decimal_no_blank.
  destruct H as [H1 H2]. split; [now apply decimal_inj|]. now apply append_inj_r in H2.
Qed.

Section Kfold.
Variables (la : linalg) (e : nat -> string -> nat -> nat -> nat -> denv) (opc : bool) (k : nat) (perm : nat -> list nat).

Lemma heat_file lams mus a b c m idx :
  exists f, plot_heatmaps lams mus a b c m ("Graph " ++ show idx ++ " ")%string = Save (plot_file idx m) f /\
    f = Figure ("Graph " ++ show idx ++ " " ++ m)%string
      [Panel (m ++ " validation")%string mus lams a; Panel (m ++ " $l_2$")%string mus [] b; Panel (m ++ " SFD")%string mus [] c].
Proof. eexists. unfold plot_heatmaps, plot_file. split; [|reflexivity]. f_equal; [|f_equal]; now rewrite ?string_app_assoc. Qed.

Lemma loop_files graphs : forall idx, let tr := fst (kfold_loop la e opc k perm idx graphs) in
  NoDup (files tr) /\
  (forall f, In f (files tr) -> exists i, (idx <= i < idx + List.length graphs)%nat /\ (f = plot_file i "LSE" \/ f = plot_file i "MLE")).
Proof.
  induction graphs as [|g graphs IH]; intro idx; cbn [kfold_loop].
  - cbn. split; [constructor|tauto].
  - destruct g as [[d metrics]|x]; [|cbn; split; [constructor|tauto]].
    destruct (grid_search_kfold la (e idx "mle"%string) _ _ _ _ _ _ _ _); [|cbn; split; [constructor|tauto]].
    destruct (grid_search_kfold la (e idx "lse"%string) _ _ _ _ _ _ _ _); [|cbn; split; [constructor|tauto]].
    specialize (IH (S idx)). cbn zeta in IH |- *. destruct (kfold_loop la e opc k perm (S idx) graphs) as [tr r]. cbn [fst] in IH |- *.
    destruct IH as [ND IN].
    destruct (heat_file grid grid (first3 a0) (second3 a0) (third3 a0) "LSE" idx) as (f1 & -> & _).
    destruct (heat_file grid grid (first3 a) (second3 a) (third3 a) "MLE" idx) as (f2 & -> & _).
    cbn [files flat_map app]. fold (files tr).
    assert (NI : forall m, ~ In (plot_file idx m) (files tr)).
    { intros m I. apply IN in I. destruct I as (i & Hi & [E|E]); apply plot_file_inj in E; lia. }
    split.
    + constructor; [|constructor; [apply NI|exact ND]]. intros [E|I]; [|now apply NI in I].
      apply plot_file_inj in E. destruct E as [_ E]. discriminate E.
    + intros f [<-|[<-|I]]; [exists idx; split; [cbn; lia|auto]..|].
      apply IN in I. destruct I as (i & Hi & E). exists i. cbn. split; [lia|exact E].
Qed.

Definition runs_well (g : problem) : Prop := exists d metrics, g = Ok (d, metrics) /\ (2 <= k <= n_obs d)%nat.
Lemma kfold_ok n p : (2 <= k <= n)%nat -> exists s, kfold n k p = Ok s.
Proof.
  intro H. unfold kfold. destruct (Nat.leb_spec k 1); [lia|]. destruct (Nat.ltb_spec n k); [lia|]. cbn. eauto.
Qed.
Lemma search_ok n e' d metrics method : n = n_obs d -> (2 <= k <= n)%nat -> exists t,
  grid_search_kfold la e' opc d metrics method grid grid k (perm n) = Ok t.
Proof. intros -> H. unfold grid_search_kfold. destruct (kfold_ok (n_obs d) (perm (n_obs d)) H) as [s ->]. eauto. Qed.

Lemma loop_ok graphs : Forall runs_well graphs -> forall idx, exists tr,
  kfold_loop la e opc k perm idx graphs = (tr, Ok tt) /\
  (forall i d metrics, nth_error graphs i = Some (Ok (d, metrics)) -> exists tl tm fl fm,
     grid_search_kfold la (e (idx + i)%nat "lse"%string) opc d metrics "lse" grid grid k (perm (n_obs d)) = Ok tl /\
     grid_search_kfold la (e (idx + i)%nat "mle"%string) opc d metrics "mle" grid grid k (perm (n_obs d)) = Ok tm /\
     In (Say_plotting (idx + i + 1)) tr /\
     In (Save (plot_file (idx + i) "LSE") fl) tr /\ In (Save (plot_file (idx + i) "MLE") fm) tr /\
     map p_table (f_panels fl) = [first3 tl; second3 tl; third3 tl] /\ map p_table (f_panels fm) = [first3 tm; second3 tm; third3 tm] /\
     map p_x (f_panels fl) = [grid; grid; grid] /\ map p_x (f_panels fm) = [grid; grid; grid] /\
     map p_y (f_panels fl) = [grid; []; []] /\ map p_y (f_panels fm) = [grid; []; []]).
Proof.
  induction 1 as [|g graphs (d & metrics & -> & H) HF IH]; intro idx; cbn [kfold_loop].
  - exists []. split; [reflexivity|]. intros [|i]; discriminate.
  - destruct (search_ok (n_obs d) (e idx "mle"%string) d metrics "mle" eq_refl H) as [tm Em].
    destruct (search_ok (n_obs d) (e idx "lse"%string) d metrics "lse" eq_refl H) as [tl El].
    rewrite Em, El. destruct (IH (S idx)) as (tr & -> & IH').
    eexists. split; [reflexivity|].
    destruct (heat_file grid grid (first3 tl) (second3 tl) (third3 tl) "LSE" idx) as (f1 & -> & E1).
    destruct (heat_file grid grid (first3 tm) (second3 tm) (third3 tm) "MLE" idx) as (f2 & -> & E2).
    intros [|i] d' metrics' EN.
    + cbn in EN. injection EN as <- <-. rewrite !Nat.add_0_r. exists tl, tm, f1, f2. subst f1 f2. cbn [f_panels map p_table p_x p_y].
      repeat split; auto; cbn; auto 10.
    + cbn in EN. destruct (IH' i d' metrics' EN) as (tl' & tm' & fl & fm & ? & ? & ? & ? & ? & ?).
      replace (idx + S i)%nat with (S idx + i)%nat by lia.
      exists tl', tm', fl, fm. repeat split; auto; try tauto; cbn; auto 10.
Qed.

Lemma loop_headlines graphs : Forall runs_well graphs -> forall idx,
  map headline_of (fst (kfold_loop la e opc k perm idx graphs)) =
  flat_map (fun i => [Testing (i + 1); Plotting (i + 1); File (plot_file i "LSE"); File (plot_file i "MLE")]) (seq idx (List.length graphs)).
Proof.
  induction 1 as [|g graphs (d & metrics & -> & H) HF IH]; intro idx; cbn [kfold_loop]; [reflexivity|].
  destruct (search_ok (n_obs d) (e idx "mle"%string) d metrics "mle" eq_refl H) as [tm ->].
  destruct (search_ok (n_obs d) (e idx "lse"%string) d metrics "lse" eq_refl H) as [tl ->].
  specialize (IH (S idx)). destruct (kfold_loop la e opc k perm (S idx) graphs) as [tr r]. cbn [fst] in IH |- *.
  destruct (heat_file grid grid (first3 tl) (second3 tl) (third3 tl) "LSE" idx) as (f1 & -> & E1).
  destruct (heat_file grid grid (first3 tm) (second3 tm) (third3 tm) "MLE" idx) as (f2 & -> & E2).
  cbn [map headline_of List.length seq flat_map app]. now rewrite IH.
Qed.
End Kfold.

(** The tables of distances and sfd contain nothing but nan. *)
Lemma table_cells la e opc d metrics method lams mus k perm table : method = "mle"%string \/ method = "lse"%string ->
  grid_search_kfold la e opc d metrics method lams mus k perm = Ok table ->
  List.length table = List.length lams /\
  (forall row, In row table -> List.length row = List.length mus) /\
  (forall row c, In row table -> In c row -> snd (fst c) = Nan /\ snd c = Nan).
Proof.
  intros Hm E. pose proof E as E0. unfold grid_search_kfold in E0. destruct (kfold (n_obs d) k perm) as [s|x]; [|discriminate].
  injection E0 as E0.
  assert (L : List.length table = List.length lams) by (rewrite <- E0; unfold mk; now rewrite map_length, seq_length).
  assert (LR : forall row, In row table -> List.length row = List.length mus).
  { intros row I. rewrite <- E0 in I. unfold mk in I. apply in_map_iff in I. destruct I as (i & <- & _). now rewrite map_length, seq_length. }
  split; [exact L|]. split; [exact LR|].
  intros row c Ir Ic. pose proof (LR row Ir) as Lr.
  destruct (In_nth _ _ [] Ir) as (i & Hi & Ei). destruct (In_nth _ _ (Infinite, Infinite, Infinite) Ic) as (j & Hj & Ej).
  destruct (kfold_reports la e opc d metrics method lams mus k perm table i j Hm E) as (folds & outs & a & _ & _ & _ & _ & EQ); [lia..|].
  rewrite Ei, Ej in EQ. rewrite EQ. auto.
Qed.
Lemma nan_tables t : (forall row c, In row t -> In c row -> snd (fst c) = Nan /\ snd c = Nan) ->
  forall tab row x, tab = second3 t \/ tab = third3 t -> In row tab -> In x row -> x = Nan.
Proof.
  intros H tab row x [->| ->] Ir Ix; apply in_map_iff in Ir; destruct Ir as (r0 & <- & Ir); apply in_map_iff in Ix;
    destruct Ix as (c & <- & Ic); now destruct (H _ _ Ir Ic).
Qed.
Lemma first3_entry t i j : nth j (nth i (first3 t) []) Infinite = fst (fst (nth j (nth i t []) (Infinite, Infinite, Infinite))).
Proof.
  unfold first3. change (@nil average) with (map (fun c : average * average * average => fst (fst c)) []). rewrite map_nth.
  change Infinite with ((fun c : average * average * average => fst (fst c)) (Infinite, Infinite, Infinite)). now rewrite map_nth.
Qed.

Lemma one_study_fails la e last opc n s : exists tr x, one_study la e last opc n s = (tr, Err x) /\
  (forall h, In h tr -> about_estimates h = false) /\
  (forall h, In h tr -> forall m lam mu q, h = Say_best m lam mu q -> lam = None /\ mu = None /\ q = None) /\
  (forall q W, s_gaussian s = Ok W -> s_distance s W = Ok q ->
     (forall f x, (forall v, f v = Err TypeError) -> minimize (last "lse"%string) f x = Err TypeError) ->
     tr = [Say_gaussian n q; Say_weights W; Say_best "lse" None None None; Say_best "mle" None None None] /\ x = TypeError).
Proof.
  unfold one_study.
  destruct (grid_search_finds_nothing la (e "lse"%string) opc (s_data s) (s_metrics s) "lse" grid grid) as (Bl & Ml & _).
  destruct (grid_search_finds_nothing la (e "mle"%string) opc (s_data s) (s_metrics s) "mle" grid grid) as (Bm & Mm & _).
  destruct (s_gaussian s) as [W|x].
  2:{ exists [], x. split; [reflexivity|]. split; [cbn; tauto|]. split; [cbn; tauto|]. discriminate. }
  destruct (s_distance s W) as [q|x] eqn:EQ.
  2:{ exists [], x. split; [reflexivity|]. split; [cbn; tauto|]. split; [cbn; tauto|]. intros q W' E. injection E as <-. rewrite EQ. discriminate. }
  cbn zeta. rewrite Bl, Ml, Bm, Mm. cbn [option_map].
  set (tr := [Say_gaussian n q; Say_weights W; Say_best "lse" None None None; Say_best "mle" None None None]).
  assert (T : (forall h, In h tr -> about_estimates h = false) /\
     (forall h, In h tr -> forall m lam mu q, h = Say_best m lam mu q -> lam = None /\ mu = None /\ q = None)).
  { split; intros h I; cbn in I; destruct I as [<-|[<-|[<-|[<-|[]]]]]; try reflexivity; intros m lam mu q' E;
      try discriminate; injection E as <- <- <- <-; auto. }
  destruct (fit_maybe la (last "lse"%string) (s_data s) "lse" None None (new_dev opc)) as [m [u|x]] eqn:F.
  - assert (G : getattr (d_attrs m) "W_hat_lse" = None).
    { unfold fit_maybe in F. destruct (minimize _ _ _); [|discriminate]. injection F as <- _. reflexivity. }
    rewrite G. exists tr, AttributeError. split; [reflexivity|]. split; [apply T|]. split; [apply T|].
    intros q' W' E E' HM. exfalso. unfold fit_maybe in F.
    rewrite (HM (loss_without_number la "lse" (num_latent (new_dev opc) (n_feat (s_data s))) (n_feat (s_data s)))) in F; [discriminate|reflexivity].
  - exists tr, x. split; [reflexivity|]. split; [apply T|]. split; [apply T|].
    intros q' W' E E' HM. injection E as <-. rewrite EQ in E'. injection E' as <-. split; [reflexivity|]. unfold fit_maybe in F.
    rewrite (HM (loss_without_number la "lse" (num_latent (new_dev opc) (n_feat (s_data s))) (n_feat (s_data s)))) in F; [|reflexivity].
    now injection F.
Qed.

(** The hyperparameters. *)
Lemma Rpower_10_INR n : Rpower 10 (INR n) = 10 ^ n.
Proof. apply Rpower_pow. lra. Qed.
Lemma grid_nth q : (q < 6)%nat -> nth q grid 0 = Rpower 10 (-6 + INR q * (7 / 5)).
Proof.
  intro H. unfold grid. rewrite (nth_indep _ 0 (Rpower 10 (-6 + INR 0 * (7 / 5)))) by (rewrite map_length, seq_length; exact H).
  rewrite (map_nth (fun i => Rpower 10 (-6 + INR i * (7 / 5)))), seq_nth by assumption. reflexivity.
Qed.
Lemma grid_values : List.length grid = 6%nat /\ nth 0 grid 0 = / 1000000 /\ nth 5 grid 0 = 10 /\
  (forall i, (i < 5)%nat -> nth (S i) grid 0 = nth i grid 0 * Rpower 10 (7 / 5)).
Proof.
  split; [reflexivity|]. split; [|split].
  - rewrite grid_nth by lia. replace (-6 + INR 0 * (7 / 5)) with (- INR 6) by (simpl; lra). rewrite Rpower_Ropp, Rpower_10_INR. f_equal. lra.
  - rewrite grid_nth by lia. replace (-6 + INR 5 * (7 / 5)) with (INR 1) by (simpl; lra). rewrite Rpower_10_INR. lra.
  - intros i Hi. rewrite !grid_nth by lia. rewrite <- Rpower_plus. f_equal. rewrite S_INR. lra.
Qed.
