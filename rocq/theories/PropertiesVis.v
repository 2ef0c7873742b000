(** C126: the plots of medil/visualize.py. *)
From Coq Require Import String Lra Lia.
From Flocq Require Import Core.
From Verif Require Import Base Spec RSum GaussModel GaussSpec DagModel DagProofs VisModel VisSpec VisProofs.
Local Open Scope R_scope.

(** The drawing of show_dag shows the structure: every latent and every
    measurement is written at exactly one place, no two at the same place,
    nothing else is written; between the places of L_i and M_j there is an arrow
    exactly if the structure says so, drawn once, and there are no other arrows;
    the nodes are where the names are, in two colours, inside the window. *)
Theorem C126_show_dag : forall m n B, has_shape m n B -> (1 <= m)%nat ->
  exists d, show_dag B = Some d /\
  (forall i, (i < m)%nat -> exists! p, written d p (latent_text i)) /\
  (forall j, (j < n)%nat -> exists! p, written d p (meas_text j)) /\
  (forall p s, written d p s -> (exists i, (i < m)%nat /\ s = latent_text i) \/ (exists j, (j < n)%nat /\ s = meas_text j)) /\
  (forall p s s', written d p s -> written d p s' -> s = s') /\
  (forall i j p q, written d p (latent_text i) -> written d q (meas_text j) -> (In (p, q) (arrows d) <-> entry B i j = true)) /\
  (forall p q, In (p, q) (arrows d) -> exists i j, written d p (latent_text i) /\ written d q (meas_text j)) /\
  NoDup (arrows d) /\
  (forall p, painted d p 0 <-> exists i, written d p (latent_text i)) /\
  (forall p, painted d p 1 <-> exists j, written d p (meas_text j)) /\
  (forall p c, In (p, c) (marks d) -> (exists s, written d p s) /\ visible d p).
Proof.
  intros m n B SH M1. exists (the_drawing m n B). split; [now apply show_dag_run|].
  repeat match goal with |- _ /\ _ => split end.
  - intros i Hi. exists (lpos m i). split; [now apply written_latent|]. intros p H. apply written_latent in H. now destruct H.
  - intros j Hj. exists (opos n j). split; [now apply written_meas|]. intros p H. apply written_meas in H. now destruct H.
  - intros p s H. apply written_iff in H. destruct H as [(i & H & _ & ->)|(j & H & _ & ->)]; [left|right]; eauto.
  - intros p s s' H H'. apply written_iff in H. apply written_iff in H'.
    destruct H as [(i & H & -> & ->)|(i & H & -> & ->)], H' as [(i' & H' & E & ->)|(i' & H' & E & ->)];
      pose proof (f_equal fst E) as E1; pose proof (f_equal snd E) as E2; cbn [fst snd lpos opos] in E1, E2; try lra;
      f_equal; now apply lin_inj in E1.
  - intros i j p q Hp Hq. apply written_latent in Hp. apply written_meas in Hq. destruct Hp as [Hi ->], Hq as [Hj ->].
    rewrite (arrow_iff m n B SH M1). split.
    + intros (i' & j' & E & Ei & Ej). destruct (entry_in_range _ _ _ _ _ SH E) as [Hi' Hj'].
      apply (f_equal fst) in Ei. apply (f_equal fst) in Ej. cbn [fst lpos opos] in Ei, Ej. 
      apply lin_inj in Ei; auto. apply lin_inj in Ej; auto. now subst.
    + intro E. exists i, j. auto.
  - intros p q H. apply (arrow_iff m n B SH M1) in H. destruct H as (i & j & E & -> & ->).
    destruct (entry_in_range _ _ _ _ _ SH E) as [Hi Hj]. exists i, j. split; [now apply written_latent|now apply written_meas].
  - now apply arrows_NoDup.
  - intro p. rewrite painted_iff. split.
    + intros [(i & H & -> & _)|(j & _ & _ & E)]; [|discriminate]. exists i. now apply written_latent.
    + intros (i & H). apply written_latent in H. left. exists i. tauto.
  - intro p. rewrite painted_iff. split.
    + intros [(i & _ & _ & E)|(j & H & -> & _)]; [discriminate|]. exists j. now apply written_meas.
    + intros (j & H). apply written_meas in H. right. exists j. tauto.
  - intros p c H. apply mark_place in H. destruct H as (u & H & ->). split; [|now apply npos_visible].
    destruct (Nat.lt_ge_cases u m).
    + exists (latent_text u). apply written_latent. split; [assumption|now apply npos_l].
    + exists (meas_text (u - m)). apply written_meas. split; [lia|]. replace u with (m + (u - m))%nat at 1 by lia. apply npos_o.
Qed.
Print Assumptions C126_show_dag.

(** Two drawings with the same texts and arrows are drawings of the same structure. *)
Theorem C126_drawing_determines_structure : forall m n B d m' n' B' d',
  has_shape m n B -> (1 <= m)%nat -> has_shape m' n' B' -> (1 <= m')%nat ->
  show_dag B = Some d -> show_dag B' = Some d' ->
  (forall p s, written d p s <-> written d' p s) ->
  (forall p q, In (p, q) (arrows d) <-> In (p, q) (arrows d')) ->
  B = B'.
Proof.
  intros m n B d m' n' B' d' SH M1 SH' M1' E E' HW HA.
  rewrite (show_dag_run m n B SH M1) in E. rewrite (show_dag_run m' n' B' SH' M1') in E'. injection E as <-. injection E' as <-.
  assert (L : forall i, (i < m)%nat <-> (i < m')%nat).
  { intro i. split; intro H.
    - assert (W : written (the_drawing m n B) (lpos m i) (latent_text i)) by now apply written_latent.
      apply HW in W. apply written_latent in W. tauto.
    - assert (W : written (the_drawing m' n' B') (lpos m' i) (latent_text i)) by now apply written_latent.
      apply HW in W. apply written_latent in W. tauto. }
  assert (M : forall i, (i < n)%nat <-> (i < n')%nat).
  { intro i. split; intro H.
    - assert (W : written (the_drawing m n B) (opos n i) (meas_text i)) by now apply written_meas.
      apply HW in W. apply written_meas in W. tauto.
    - assert (W : written (the_drawing m' n' B') (opos n' i) (meas_text i)) by now apply written_meas.
      apply HW in W. apply written_meas in W. tauto. }
  assert (m = m') as <-.
  { destruct (Nat.lt_trichotomy m m') as [H|[H|H]]; [|exact H|]; apply L in H; lia. }
  assert (n = n') as <-.
  { destruct (Nat.lt_trichotomy n n') as [H|[H|H]]; [|exact H|]; apply M in H; lia. }
  assert (X : forall i j, entry B i j = true <-> entry B' i j = true).
  { assert (Y : forall B1 B2, has_shape m n B1 -> has_shape m n B2 ->
      (forall p q, In (p, q) (arrows (the_drawing m n B1)) -> In (p, q) (arrows (the_drawing m n B2))) ->
      forall i j, entry B1 i j = true -> entry B2 i j = true).
    { intros B1 B2 S1 S2 HI i j H. destruct (entry_in_range _ _ _ _ _ S1 H) as [Hi Hj].
      assert (I : In (lpos m i, opos n j) (arrows (the_drawing m n B1))) by (apply arrow_iff; auto; exists i, j; auto).
      apply HI, (arrow_iff m n B2 S2 M1) in I. destruct I as (i' & j' & H' & Ei & Ej).
      destruct (entry_in_range _ _ _ _ _ S2 H') as [Hi' Hj'].
      apply (f_equal fst) in Ei. apply (f_equal fst) in Ej. cbn [fst lpos opos] in Ei, Ej.
      apply lin_inj in Ei; auto. apply lin_inj in Ej; auto. now subst. }
    intros i j. split; apply Y; auto; intros p q; apply HA. }
  destruct SH as [L1 R1], SH' as [L2 R2].
  apply (nth_ext _ _ [] []); [congruence|]. intros i Hi.
  apply (nth_ext _ _ false false).
  - rewrite (R1 (nth i B [])), (R2 (nth i B' [])); [reflexivity|apply nth_In; lia..].
  - intros j Hj. specialize (X i j). unfold entry in X. destruct (nth j (nth i B []) false), (nth j (nth i B' []) false); intuition congruence.
Qed.
Print Assumptions C126_drawing_determines_structure.

Example C126_show_dag_example :
  has_shape 2 3 [[true; true; false]; [false; true; true]] /\
  exists d, show_dag [[true; true; false]; [false; true; true]] = Some d /\
    List.length (arrows d) = 4%nat /\ In ((0, 1, "$L_{0}$"%string, White)) (texts d) /\
    In ((0, 1), (0, 0)) (arrows d).
Proof.
  assert (SH : has_shape 2 3 [[true; true; false]; [false; true; true]]).
  { split; [reflexivity|]. cbn. intros r [<-|[<-|[]]]; reflexivity. }
  split; [exact SH|]. exists (the_drawing 2 3 [[true; true; false]; [false; true; true]]).
  split; [apply show_dag_run; auto|]. split; [reflexivity|]. split.
  - cbn [texts the_drawing]. left. unfold lpos, lin. simpl. f_equal. f_equal. f_equal. lra.
  - apply arrow_iff; [exact SH|auto|]. exists 0%nat, 0%nat. split; [reflexivity|]. unfold lpos, opos, lin. simpl. split; f_equal; lra.
Qed.

(** show_obs_dcor_mat of a square matrix: the pixel in the row named X_{a+1} and
    the column named X_{b+1} exists, is unique, and has the shade of entry (a, b)
    - with a threshold it is bright exactly if the entry exceeds the threshold -;
    the number printed there is the entry rounded to two digits; there are no
    other pixels and numbers, and all have row and column names. *)
Theorem C126_heatmap : forall d M thresh print_val, real_shape d d M ->
  let h := show_obs_dcor_mat M thresh print_val in
  (forall a, (a < d)%nat -> exists! x, column_named h (variable_text (S a)) x) /\
  (forall a, (a < d)%nat -> exists! y, row_named h (variable_text (S a)) y) /\
  (forall a b x y, row_named h (variable_text (S a)) y -> column_named h (variable_text (S b)) x ->
     (forall c, In (x, y, c) (pixels h) <->
        match thresh with Some t => c = (if Rlt_dec t (rentry M a b) then 1 else 0) | None => clipped (rentry M a b) c end) /\
     (print_val = true -> exists v, In (x, y, v) (values h) /\ (forall v', In (x, y, v') (values h) -> v' = v) /\
        match thresh with
        | Some t => v = if Rlt_dec t (rentry M a b) then 1 else 0
        | None => (exists z, v = IZR z / 100) /\ Rabs (v - rentry M a b) <= 1 / 200
        end)) /\
  (forall x y c, In (x, y, c) (pixels h) \/ In (x, y, c) (values h) ->
     exists a b, (a < d)%nat /\ (b < d)%nat /\ row_named h (variable_text (S a)) y /\ column_named h (variable_text (S b)) x) /\
  (print_val = false -> values h = []).
Proof.
  intros d M thresh pv SH h.
  set (M' := match thresh with Some t => above t M | None => M end).
  assert (SH' : real_shape d d M') by (destruct thresh; [now apply above_shape|exact SH]).
  assert (EL : List.length M' = d) by apply SH'.
  assert (TX : xticks h = ticks d) by (unfold h, show_obs_dcor_mat; fold M'; cbn [xticks]; now rewrite EL).
  assert (TY : yticks h = ticks d) by (unfold h, show_obs_dcor_mat; fold M'; cbn [yticks]; now rewrite EL).
  assert (NX : forall a x, column_named h (variable_text (S a)) x <-> (a < d)%nat /\ x = a).
  { intros a x. unfold column_named. rewrite TX, in_ticks. split.
    - intros [H E]. apply variable_text_inj in E. injection E as <-. auto.
    - intros [H ->]. auto. }
  assert (NY : forall a x, row_named h (variable_text (S a)) x <-> (a < d)%nat /\ x = a).
  { intros a x. unfold row_named. rewrite TY, in_ticks. split.
    - intros [H E]. apply variable_text_inj in E. injection E as <-. auto.
    - intros [H ->]. auto. }
  assert (PX : forall x y c, In (x, y, c) (pixels h) <-> (y < d)%nat /\ (x < d)%nat /\ c = shade (rentry M' y x)).
  { intros x y c. unfold h, show_obs_dcor_mat. fold M'. cbn [pixels]. rewrite in_map_iff. split.
    - intros ([[j i] v] & E & I). cbn in E. injection E as <- <- <-. apply (in_ndenumerate_shape d d M' SH') in I.
      destruct I as (? & ? & ->). auto.
    - intros (Hy & Hx & ->). exists (y, x, rentry M' y x). split; [reflexivity|]. now apply (in_ndenumerate_shape d d M' SH'). }
  assert (VX : forall x y c, In (x, y, c) (values h) <-> pv = true /\ (y < d)%nat /\ (x < d)%nat /\ c = round2 (rentry M' y x)).
  { intros x y c. unfold h, show_obs_dcor_mat. fold M'. cbn [values]. destruct pv; [|cbn; split; [tauto|intros [? _]; discriminate]].
    rewrite in_map_iff. split.
    - intros ([[j i] v] & E & I). cbn in E. injection E as <- <- <-. apply (in_ndenumerate_shape d d M' SH') in I.
      destruct I as (? & ? & ->). auto.
    - intros (_ & Hy & Hx & ->). exists (y, x, rentry M' y x). split; [reflexivity|]. now apply (in_ndenumerate_shape d d M' SH'). }
  split; [|split; [|split; [|split]]].
  - intros a Ha. exists a. split; [now apply NX|]. intros x Hx. apply NX in Hx. symmetry. tauto.
  - intros a Ha. exists a. split; [now apply NY|]. intros x Hx. apply NY in Hx. symmetry. tauto.
  - intros a b x y Hy Hx. apply NY in Hy. apply NX in Hx. destruct Hy as [Ha ->], Hx as [Hb ->]. split.
    + intro c. rewrite PX. unfold M'. destruct thresh as [t|].
      * rewrite (above_entry d d) by assumption. rewrite shade_ind. unfold ind. tauto.
      * rewrite <- shade_clipped. tauto.
    + intros ->. exists (round2 (rentry M' a b)). split; [apply VX; auto|]. split; [intros v' Hv; apply VX in Hv; tauto|].
      unfold M'. destruct thresh as [t|].
      * rewrite (above_entry d d) by assumption. apply round2_ind.
      * split; [eexists; reflexivity|apply round2_near].
  - intros x y c [H|H]; [apply PX in H|apply VX in H]; exists y, x; (split; [tauto|]); (split; [tauto|]);
      (split; [apply NY|apply NX]); tauto.
  - intros ->. reflexivity.
Qed.
Print Assumptions C126_heatmap.

Example C126_heatmap_example :
  real_shape 2 2 [[1; 3 / 10]; [3 / 10; 1]] /\
  In (1%nat, 0%nat, 0) (pixels (show_obs_dcor_mat [[1; 3 / 10]; [3 / 10; 1]] (Some (3 / 10)) false)) /\
  In (1%nat, 0%nat, 1) (pixels (show_obs_dcor_mat [[1; 3 / 10]; [3 / 10; 1]] (Some (2 / 10)) false)).
Proof.
  split; [split; [reflexivity|]; cbn; intros r [<-|[<-|[]]]; reflexivity|].
  cbn. split; right; left; destruct Rlt_dec; try lra; f_equal; unfold shade, Rmin, Rmax; repeat destruct Rle_dec; lra.
Qed.

(** For a matrix that is not square the names of the columns come from the number
    of rows: every pixel has a name for its row and its column exactly if there
    are not more columns than rows, and every named column exists exactly if
    there are not more rows than columns. *)
Theorem C126_heatmap_names : forall r c M thresh print_val, real_shape r c M -> (1 <= r)%nat -> (1 <= c)%nat ->
  let h := show_obs_dcor_mat M thresh print_val in
  ((forall x y v, In (x, y, v) (pixels h) -> exists s s', column_named h s x /\ row_named h s' y) <-> (c <= r)%nat) /\
  ((forall s x, column_named h s x -> exists y v, In (x, y, v) (pixels h)) <-> (r <= c)%nat).
Proof.
  intros r c M thresh pv SH R1 C1 h.
  set (M' := match thresh with Some t => above t M | None => M end).
  assert (SH' : real_shape r c M') by (destruct thresh; [now apply above_shape|exact SH]).
  assert (EL : List.length M' = r) by apply SH'.
  assert (PX : forall x y v, In (x, y, v) (pixels h) <-> (y < r)%nat /\ (x < c)%nat /\ v = shade (rentry M' y x)).
  { intros x y v. unfold h, show_obs_dcor_mat. fold M'. cbn [pixels]. rewrite in_map_iff. split.
    - intros ([[j i] w] & E & I). cbn in E. injection E as <- <- <-. apply (in_ndenumerate_shape r c M' SH') in I.
      destruct I as (? & ? & ->). auto.
    - intros (Hy & Hx & ->). exists (y, x, rentry M' y x). split; [reflexivity|]. now apply (in_ndenumerate_shape r c M' SH'). }
  assert (TX : xticks h = ticks r) by (unfold h, show_obs_dcor_mat; fold M'; cbn [xticks]; now rewrite EL).
  assert (TY : yticks h = ticks r) by (unfold h, show_obs_dcor_mat; fold M'; cbn [yticks]; now rewrite EL).
  unfold column_named, row_named. rewrite TX, TY. split; split.
  - intro H. assert (C2 : (c - 1 < c)%nat) by lia.
    destruct (H (c - 1)%nat 0%nat _ (proj2 (PX _ _ _) (conj R1 (conj C2 eq_refl)))) as (s & s' & I & _).
    apply in_ticks in I. lia.
  - intros L x y v I. apply PX in I. exists (variable_text (S x)), (variable_text (S y)). split; apply in_ticks; split; auto; lia.
  - intro H. destruct (H (variable_text (S (r - 1))) (r - 1)%nat) as (y & v & I); [apply in_ticks; split; [lia|reflexivity]|].
    apply PX in I. lia.
  - intros L s x I. apply in_ticks in I. exists 0%nat. eexists. apply PX. split; [exact R1|]. split; [lia|reflexivity].
Qed.
Print Assumptions C126_heatmap_names.

(** The other two plots: nothing is ever shown.  show_obs_adj_mat opens a figure
    and fails on a name its module does not have; show_pairwise_plot fails before
    it opens one, having printed the message about the size if there are more
    than 1000 rows.  The plots above find all their names and are shown last. *)
Theorem C126_missing_names_refuted :
  run visualize_globals show_obs_adj_mat_body = ([OpenFigure], NameError "get_adj_from_incidence") /\
  (forall rows, run visualize_globals (show_pairwise_plot_body rows)
     = (if (rows <=? 1000)%nat then [] else [Print rows], NameError "pd")).
Proof.
  split; [vm_compute; reflexivity|]. intro rows. unfold show_pairwise_plot_body.
  destruct (Nat.leb_spec rows 1000), (Nat.ltb_spec 1000 rows); try lia; reflexivity.
Qed.
Print Assumptions C126_missing_names_refuted.

Theorem C126_plots_are_shown : forall body,
  body = show_dag_body \/ (exists t v, body = show_obs_dcor_mat_body t v) ->
  exists before, run visualize_globals body = ((before ++ [ShowFigure])%list, Returns) /\
    In OpenFigure before /\ In Draw before /\ ~ In ShowFigure before.
Proof.
  intros body [->|(t & v & ->)].
  - eexists. split; [instantiate (1 := [OpenFigure; Draw; Draw; Draw; Draw; Draw; Draw]); reflexivity|].
    cbn. intuition discriminate.
  - destruct t, v; (eexists; split;
      [ match goal with |- ?L = _ => let r := eval vm_compute in L in change L with r end;
        match goal with |- (?l, _) = _ => let r := eval vm_compute in (removelast l) in instantiate (1 := r); reflexivity end
      | cbn; intuition discriminate]).
Qed.
Print Assumptions C126_plots_are_shown.

Definition event_eq_dec : forall a b : event, {a = b} + {a <> b}.
Proof. decide equality. apply Nat.eq_dec. Defined.
(** The values are drawn if and only if they are asked for: one more drawing. *)
Theorem C126_values_are_drawn : forall t,
  let drawings v := count_occ event_eq_dec (fst (run visualize_globals (show_obs_dcor_mat_body t v))) Draw in
  drawings true = S (drawings false).
Proof. intro t. destruct t; vm_compute; reflexivity. Qed.
Print Assumptions C126_values_are_drawn.
