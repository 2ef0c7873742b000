(** C159: missing and infinite values in the data of NeuroCausalFactorAnalysis. *)
From Coq Require Import List Reals Lia Lra Permutation.
From Verif Require Import Base RSum NcfaModel NcfaSpec NcfaProofs NcfaData LossModel ReconModel VaeModel NeuralModel NanFitModel PropertiesNanFit NcfaNanModel PropertiesNcfa PropertiesNeural.
Import ListNotations.
Local Open Scope R_scope.

(** ** Vocabulary *)
(** Row [i] of the data has no value for measurement [j]. *)
Definition missing (data : list (list cell)) (i j : nat) : Prop :=
  (i < List.length data)%nat /\ (j < List.length (nth i data []))%nat /\ nth j (nth i data []) Missing = Missing.
Definition no_infinite (data : list (list cell)) : Prop := forall r c, In r data -> In c r -> c <> Infinite.
(** torch.linalg.norm does not report a number for a matrix with nan: it raises
    LinAlgError (LAPACK refuses) or returns nan. *)
Definition norm_of_nan (la : xlinalg) : Prop :=
  forall b p M i j v, (i < b)%nat -> (j < p)%nat -> xget M i j = None -> xspectral la b p M = Ok v -> v = None.
Definition all_nan (l : list (option R)) : Prop := Forall (fun v => v = None) l.

(** ** Loss *)
Lemma xget_mk n m f i j : (i < n)%nat -> (j < m)%nat -> xget (mk n m f) i j = f i j.
Proof. intros. unfold xget. now rewrite getd_mk. Qed.
Lemma xelbo_nan la ll lm b p q x r lc mu lv W beta s j v : (s < b)%nat -> (j < p)%nat -> xget x s j = None ->
  xelbo la ll lm b p q x r lc mu lv W beta = Ok v -> v = None.
Proof.
  intros Hs Hj HN. unfold xelbo, xrecon_loss. destruct (xinverse la p _) as [inv|e]; [|discriminate].
  assert (Q : osum (seq 0 b) (fun s => lift Rplus (xdet p (xget (xmean_cov b p lc)))
            (xget (xmm b p b (xmm b p p (xdiff b p x r) inv) (xtranspose b p (xdiff b p x r))) s s)) = None).
  { apply osum_none with s; [apply in_seq; lia|]. unfold xmm at 1. rewrite xget_mk by lia.
    rewrite (osum_none (seq 0 p) _ j); [destruct (xdet p _); reflexivity|apply in_seq; lia|].
    unfold xmm. rewrite xget_mk by lia. rewrite (osum_none (seq 0 p) _ j); [reflexivity|apply in_seq; lia|].
    unfold xdiff. rewrite xget_mk by lia. now rewrite HN. }
  rewrite Q. cbn [omap]. replace (lift Rplus _ None) with (@None R) by (destruct (omap _ _); reflexivity).
  destruct W as [W|]; [destruct (xnuclear la W) as [n|e]; [|discriminate]|]; cbn; intros E; now inversion E.
Qed.
Lemma xmeasure_nan {N} (L : xlearner N) b o W r j l e : norm_of_nan (x_linalg L) -> In r b -> nth j r (Some 0) = None -> (j < x_meas L)%nat ->
  xmeasure L b o W = Ok (l, e) -> l = None /\ e = None.
Proof.
  intros HS I HN Hj. apply (In_nth _ _ []) in I as (s & Hs & Er).
  assert (G : xget b s j = None) by (unfold xget, getd; rewrite Er; exact HN).
  unfold xmeasure. destruct (xelbo _ _ _ _ _ _ _ _ _ _ _ _ _) as [v|x] eqn:E1; [|discriminate].
  apply (xelbo_nan _ _ _ _ _ _ _ _ _ _ _ _ _ s j) in E1; auto. subst v.
  destruct (xspectral _ _ _ _) as [v|x] eqn:E2; [|discriminate].
  apply (HS _ _ _ s j) in E2; auto; [|unfold xdiff; rewrite xget_mk by auto; now rewrite G]. subst v. intros E; inversion E; auto.
Qed.

(** ** Loops *)
Definition spoilt (p : nat) (bs : list (list xrow)) : Prop := exists b r j, In b bs /\ In r b /\ nth j r (Some 0) = None /\ (j < p)%nat.
Lemma lift_none_r f a : lift f a None = None. Proof. destruct a; reflexivity. Qed.
Lemma xtrain_none {N} (L : xlearner N) fl bs : forall w nb w' l e n, xtrain_batches L fl bs w None None nb = Ok (w', (l, e, n)) -> l = None /\ e = None.
Proof.
  induction bs as [|b bs IH]; cbn [xtrain_batches]; intros w nb w' l e n; [intros E; inversion E; auto|].
  destruct (x_train L fl w b) as [o w1]. destruct (xmeasure _ _ _ _) as [[l1 e1]|x]; [|discriminate]. cbn [lift]. apply IH.
Qed.
Lemma xtrain_nan {N} (L : xlearner N) fl bs : norm_of_nan (x_linalg L) -> spoilt (x_meas L) bs ->
  forall w lb er nb w' l e n, xtrain_batches L fl bs w lb er nb = Ok (w', (l, e, n)) -> l = None /\ e = None.
Proof.
  intros HS. induction bs as [|b bs IH]; intros (b0 & r & j & I & Ir & HN & Hj) w lb er nb w' l e n; [destruct I|]. cbn [xtrain_batches].
  destruct (x_train L fl w b) as [o w1]. destruct (xmeasure _ _ _ _) as [[l1 e1]|x] eqn:E1; [|discriminate]. destruct I as [->|I].
  - apply (xmeasure_nan L b0 o _ r j) in E1 as [-> ->]; auto. rewrite !lift_none_r. apply xtrain_none.
  - apply IH. exists b0, r, j. auto.
Qed.
Lemma xvalid_none {N} (L : xlearner N) bs : forall w nb l e n, xvalid_batches L bs w None None nb = Ok (l, e, n) -> l = None /\ e = None.
Proof.
  induction bs as [|b bs IH]; cbn [xvalid_batches]; intros w nb l e n; [intros E; inversion E; auto|].
  destruct (xmeasure _ _ _ _) as [[l1 e1]|x]; [|discriminate]. cbn [lift]. apply IH.
Qed.
Lemma xvalid_nan {N} (L : xlearner N) bs : norm_of_nan (x_linalg L) -> spoilt (x_meas L) bs ->
  forall w lb er nb l e n, xvalid_batches L bs w lb er nb = Ok (l, e, n) -> l = None /\ e = None.
Proof.
  intros HS. induction bs as [|b bs IH]; intros (b0 & r & j & I & Ir & HN & Hj) w lb er nb l e n; [destruct I|]. cbn [xvalid_batches].
  destruct (xmeasure _ _ _ _) as [[l1 e1]|x] eqn:E1; [|discriminate]. destruct I as [->|I].
  - apply (xmeasure_nan L b0 _ _ r j) in E1 as [-> ->]; auto. rewrite !lift_none_r. apply xvalid_none.
  - apply IH. exists b0, r, j. auto.
Qed.
Lemma xpydiv_none n v : xpydiv None n = Ok v -> v = None.
Proof. destruct n; cbn; intros E; now inversion E. Qed.
Definition quad_nan (p : nat) (tr va : list (list xrow)) (v : option R * option R * (option R * option R)) : Prop :=
  (spoilt p tr -> fst (fst v) = None /\ snd (fst v) = None) /\ (spoilt p va -> fst (snd v) = None /\ snd (snd v) = None).
Lemma xepoch_nan {N} (L : xlearner N) fl tr va w w' v : norm_of_nan (x_linalg L) ->
  xepoch L fl tr va w = Ok (w', v) -> quad_nan (x_meas L) tr va v.
Proof.
  intros HS. unfold xepoch. destruct (xtrain_batches _ _ _ _ _ _ _) as [[w1 [[lb er] nb]]|x] eqn:E1; [|discriminate].
  destruct (xpydiv lb nb) as [l|x] eqn:D1; [|discriminate]. destruct (xpydiv er nb) as [e|x] eqn:D2; [|discriminate].
  destruct (xvalid_batches _ _ _ _ _ _) as [[[vlb ver] vnb]|x] eqn:E2; [|discriminate].
  destruct (xpydiv vlb vnb) as [vl|x] eqn:D3; [|discriminate]. destruct (xpydiv ver vnb) as [ve|x] eqn:D4; [|discriminate].
  intros E; inversion E; subst. split; cbn [fst snd]; intros SP.
  - apply xtrain_nan in E1 as [-> ->]; auto. split; eapply xpydiv_none; eassumption.
  - apply xvalid_nan in E2 as [-> ->]; auto. split; eapply xpydiv_none; eassumption.
Qed.
Lemma xepochs_nan {N} (L : xlearner N) tr va : norm_of_nan (x_linalg L) -> forall k fl w h w' h', Forall (quad_nan (x_meas L) tr va) h ->
  xepochs L k fl tr va w h = Ok (w', h') -> Forall (quad_nan (x_meas L) tr va) h' /\ List.length h' = (List.length h + k)%nat.
Proof.
  intros HS. induction k as [|k IH]; cbn [xepochs]; intros fl w h w' h' F.
  - intros E; inversion E; subst. split; [exact F|lia].
  - destruct (xepoch _ _ _ _ _) as [[w1 v]|x] eqn:E1; [|discriminate]. apply xepoch_nan in E1; auto. intros E. apply IH in E as [E2 E3].
    + split; [exact E2|]. rewrite E3, app_length. cbn. lia.
    + apply Forall_app. split; [exact F|]. constructor; auto.
Qed.

(** ** What a fit reports *)
Definition bad_row (p : nat) (rows : list xrow) : Prop := exists r j, In r rows /\ nth j r (Some 0) = None /\ (j < p)%nat.
Lemma bad_row_spoilt p rows bs : (1 <= bs)%nat -> bad_row p rows -> spoilt p (batches bs rows).
Proof.
  intros Hb (r & j & I & HN & Hj). destruct (batches_spec bs rows Hb) as (C & _). rewrite <- C in I. apply in_concat in I as (b & Ib & Ir). exists b, r, j. auto.
Qed.
Lemma fit_nan {N} (L : xlearner N) k bs w perm data idcs tr va w' h : norm_of_nan (x_linalg L) -> xsplit data perm idcs = Ok (tr, va) ->
  xncfa_fit L k bs w perm data idcs = Ok (w', h) ->
  (bad_row (x_meas L) tr -> all_nan (xelbo_train h) /\ all_nan (xrecon_train h)) /\
  (bad_row (x_meas L) va -> all_nan (xelbo_valid h) /\ all_nan (xrecon_valid h)) /\
  List.length (xelbo_train h) = k /\ List.length (xelbo_valid h) = k.
Proof.
  intros HS ES. unfold xncfa_fit. rewrite ES. destruct (bs =? 0)%nat eqn:B; [discriminate|]. apply Nat.eqb_neq in B.
  destruct (xepochs _ _ _ _ _ _ _) as [[w1 h1]|x] eqn:E; [|discriminate]. apply xepochs_nan in E as [F LE]; auto. intros E1; inversion E1; subst. unfold all_nan. cbn [xhistory_of xelbo_train xelbo_valid xrecon_train xrecon_valid]. rewrite !map_length.
  split; [|split; [|cbn in LE; auto]]; intros BR; apply (bad_row_spoilt _ _ bs) in BR; try lia; split; apply Forall_map; (eapply Forall_impl; [|exact F]); intros v [Q1 Q2]; first [exact (proj1 (Q1 BR))|exact (proj2 (Q1 BR))|exact (proj1 (Q2 BR))|exact (proj2 (Q2 BR))].
Qed.

Lemma xstandardize_length data : List.length (xstandardize data) = List.length data.
Proof. unfold xstandardize. apply map_length. Qed.
Lemma xstandardize_missing data i j : missing data i j -> nth j (nth i (xstandardize data) []) (Some 0) = None.
Proof.
  intros (Hi & Hj & M). unfold xstandardize.
  rewrite (nth_indep _ [] (map (fun j => match value (nth j [] Missing) with Some x => Some ((x - col_mean (present data j) 0) / col_scale (present data j) 0) | None => None end) (seq 0 (@List.length cell [])))) by (rewrite map_length; exact Hi).
  rewrite (map_nth (fun r : list cell => map (fun j => match value (nth j r Missing) with Some x => Some ((x - col_mean (present data j) 0) / col_scale (present data j) 0) | None => None end) (seq 0 (List.length r)))).
  rewrite (nth_indep _ (Some 0) ((fun j => match value (nth j (nth i data []) Missing) with Some x => Some ((x - col_mean (present data j) 0) / col_scale (present data j) 0) | None => None end) 0%nat)) by (rewrite map_length, seq_length; exact Hj).
  rewrite (map_nth (fun j => match value (nth j (nth i data []) Missing) with Some x => Some ((x - col_mean (present data j) 0) / col_scale (present data j) 0) | None => None end)).
  rewrite seq_nth by exact Hj. cbn [plus]. now rewrite M.
Qed.
Lemma value_missing data i j : missing data i j -> nth j (nth i (map (map value) data) []) (Some 0) = None.
Proof.
  intros (Hi & Hj & M). change (@nil (option R)) with (map value []). rewrite map_nth. rewrite (nth_indep _ (Some 0) (value Missing)) by (rewrite map_length; exact Hj). rewrite map_nth. now rewrite M.
Qed.
Lemma existsb_infinite data : no_infinite data -> existsb (existsb is_infinite) data = false.
Proof.
  intros H. apply Bool.not_true_is_false. intros E. apply existsb_exists in E as (r & Ir & E). apply existsb_exists in E as (c & Ic & E). specialize (H r c Ir Ic). destruct c; try discriminate. now apply H.
Qed.
Lemma split_parts n perm : Permutation perm (seq 0 n) -> (num_train n <= n)%nat -> forall i, (i < n)%nat ->
  In i (firstn (num_train n) (skipn (n - num_train n) perm)) \/ In i (firstn (n - num_train n) perm).
Proof.
  intros HP HL i Hi. assert (I : In i perm) by (apply (Permutation_in _ (Permutation_sym HP)), in_seq; lia).
  rewrite <- (firstn_skipn (n - num_train n) perm) in I. apply in_app_or in I as [I|I]; [auto|]. left. rewrite firstn_all2; [exact I|]. rewrite skipn_length, (Permutation_length HP), seq_length. lia.
Qed.

(** ** Properties *)
(** An infinite value is refused before anything else happens. *)
Theorem C159_infinite_refused :
  forall N (L : xlearner N) num_epochs batch_size w perm data idcs r,
  In r data -> In Infinite r -> xncfa_fit L num_epochs batch_size w perm data idcs = Err ValueError.
Proof.
  intros N L k bs w perm data idcs r I1 I2. unfold xncfa_fit, xsplit. destruct (List.length data =? 0)%nat; [reflexivity|].
  assert (E : existsb (existsb is_infinite) data = true) by (apply existsb_exists; exists r; split; [exact I1|]; apply existsb_exists; exists Infinite; auto). now rewrite E.
Qed.
Print Assumptions C159_infinite_refused.

(** A missing value is not: with the random split, whatever the permutation, the network,
    its optimizer and the hyperparameters, one missing value anywhere makes all training
    losses and errors or all validation losses and errors nan, if fit returns at all. *)
Theorem C159_random_split_refuted :
  forall N (L : xlearner N) num_epochs batch_size w perm data i j w' h,
  norm_of_nan (x_linalg L) -> Permutation perm (seq 0 (List.length data)) -> missing data i j -> (j < x_meas L)%nat ->
  xncfa_fit L num_epochs batch_size w perm data None = Ok (w', h) ->
  List.length (xelbo_train h) = num_epochs /\ List.length (xelbo_valid h) = num_epochs /\
  (all_nan (xelbo_train h) /\ all_nan (xrecon_train h) \/ all_nan (xelbo_valid h) /\ all_nan (xrecon_valid h)).
Proof.
  intros N L k bs w perm data i j w' h HS HP HM Hj E.
  destruct (xsplit data perm None) as [[tr va]|x] eqn:ES; [|unfold xncfa_fit in E; rewrite ES in E; discriminate].
  destruct (fit_nan L k bs w perm data None tr va w' h HS ES E) as (T & V & L1 & L2). split; [exact L1|]. split; [exact L2|].
  unfold xsplit in ES. destruct (List.length data =? 0)%nat eqn:N0; [discriminate|]. destruct (existsb _ data); [discriminate|].
  destruct (num_train (List.length data) =? 0)%nat eqn:NT; [discriminate|].
  assert (NL : (num_train (List.length data) <= List.length data)%nat).
  { apply Nat.eqb_neq in N0, NT. destruct (Nat.eq_dec (List.length data) 1) as [E1|]; [rewrite E1 in NT; exfalso; apply NT; reflexivity|]. pose proof (num_train_bounds (List.length data)). lia. }
  unfold xtake in ES. destruct (forallb _ (firstn (num_train _) _)); [|discriminate]. destruct (forallb _ (firstn (_ - _) _)); [|discriminate]. inversion ES; subst tr va.
  pose proof (xstandardize_missing data i j HM) as XM.
  destruct (split_parts _ perm HP NL i (proj1 HM)) as [I|I]; [left; apply T|right; apply V]; exists (nth i (xstandardize data) []), j; (split; [apply in_map_iff; exists i; auto|auto]).
Qed.
Print Assumptions C159_random_split_refuted.

(** With explicit indices the same holds for the part that contains the row. *)
Theorem C159_explicit_split :
  forall N (L : xlearner N) num_epochs batch_size w perm data idcs0 idcs1 i j w' h,
  norm_of_nan (x_linalg L) -> missing data i j -> (j < x_meas L)%nat ->
  xncfa_fit L num_epochs batch_size w perm data (Some (idcs0, idcs1)) = Ok (w', h) ->
  (In i idcs0 -> all_nan (xelbo_train h) /\ all_nan (xrecon_train h)) /\
  (In i idcs1 -> all_nan (xelbo_valid h) /\ all_nan (xrecon_valid h)).
Proof.
  intros N L k bs w perm data i0 i1 i j w' h HS HM Hj E.
  destruct (xsplit data perm (Some (i0, i1))) as [[tr va]|x] eqn:ES; [|unfold xncfa_fit in E; rewrite ES in E; discriminate].
  destruct (fit_nan L k bs w perm data _ tr va w' h HS ES E) as (T & V & _).
  unfold xsplit in ES. destruct (List.length data =? 0)%nat eqn:N0; [discriminate|]. destruct (existsb _ data); [discriminate|].
  unfold xtake in ES. destruct (forallb _ i0); [|discriminate]. destruct (forallb _ i1); [|discriminate]. inversion ES; subst tr va.
  pose proof (value_missing data i j HM) as XM.
  split; intros I; [apply T|apply V]; exists (nth i (map (map value) data) []), j; (split; [apply in_map_iff; exists i; auto|auto]).
Qed.
Print Assumptions C159_explicit_split.

(** Explicit indices that avoid the incomplete rows avoid the problem: what the other rows
    contain then does not matter. *)
Theorem C159_unused_rows_partial :
  forall N (L : xlearner N) num_epochs batch_size w perm data data' idcs0 idcs1,
  no_infinite data -> no_infinite data' -> List.length data = List.length data' ->
  (forall i, In i idcs0 \/ In i idcs1 -> nth i data [] = nth i data' []) ->
  xncfa_fit L num_epochs batch_size w perm data (Some (idcs0, idcs1)) =
  xncfa_fit L num_epochs batch_size w perm data' (Some (idcs0, idcs1)).
Proof.
  intros N L k bs w perm data data' i0 i1 H H' LE HE.
  assert (ES : xsplit data perm (Some (i0, i1)) = xsplit data' perm (Some (i0, i1))); [|unfold xncfa_fit; now rewrite ES].
  unfold xsplit. rewrite (existsb_infinite data H), (existsb_infinite data' H'), LE. destruct (List.length data' =? 0)%nat; [reflexivity|].
  assert (TK : forall l, (forall i, In i l -> nth i data [] = nth i data' []) -> xtake (map (map value) data) l = xtake (map (map value) data') l).
  { intros l Hl. unfold xtake. rewrite !map_length, LE. destruct (forallb _ l); [|reflexivity]. f_equal. apply map_ext_in. intros i Hi. change (@nil (option R)) with (map value []). rewrite !map_nth. now rewrite Hl. }
  rewrite (TK i0), (TK i1) by (intros; apply HE; auto). reflexivity.
Qed.
Print Assumptions C159_unused_rows_partial.

(** The scaler disregards missing values: with the random split the recorded values of a
    measurement are standardised as if they were all there is. *)
Definition recorded (rows : list xrow) (j : nat) : list row :=
  flat_map (fun r => match nth j r None with Some x => [[x]] | None => [] end) rows.
Theorem C159_standardised :
  forall data j, (forall r, In r data -> (j < List.length r)%nat) -> recorded (xstandardize data) j = standardize (present data j).
Proof.
  intros data j H. unfold xstandardize, recorded. pose (P := present data j). change (standardize (present data j)) with (standardize P). unfold standardize at 1. change (map (fun r => map (fun j0 => (nth j0 r 0 - col_mean P j0) / col_scale P j0) (seq 0 (List.length r))) P) with (map (fun r => map (fun j0 => (nth j0 r 0 - col_mean P j0) / col_scale P j0) (seq 0 (List.length r))) (present data j)).
  assert (G : forall d, (forall r, In r d -> (j < List.length r)%nat) ->
    flat_map (fun r => match nth j r None with Some x => [[x]] | None => [] end) (map (fun r => map (fun j0 => match value (nth j0 r Missing) with
      | Some x => Some ((x - col_mean (present data j0) 0) / col_scale (present data j0) 0) | None => None end) (seq 0 (List.length r))) d)
    = map (fun r => map (fun j0 => (nth j0 r 0 - col_mean P j0) / col_scale P j0) (seq 0 (List.length r))) (present d j)).
  { induction d as [|r d IH]; intros Hd; [reflexivity|]. unfold present in *. cbn [map flat_map]. rewrite map_app, IH by (intros; apply Hd; now right). f_equal.
    pose proof (Hd r (or_introl eq_refl)) as Hj.
    set (g := fun j0 => match value (nth j0 r Missing) with Some x => Some ((x - col_mean (flat_map (fun r0 => match nth j0 r0 Missing with Num x0 => [[x0]] | _ => [] end) data) 0) / col_scale (flat_map (fun r0 => match nth j0 r0 Missing with Num x0 => [[x0]] | _ => [] end) data) 0) | None => None end).
    rewrite (nth_indep _ None (g 0%nat)) by (rewrite map_length, seq_length; exact Hj). rewrite (map_nth g), seq_nth by exact Hj. cbn [plus]. unfold g.
    destruct (nth j r Missing); cbn [value]; reflexivity. }
  apply G. exact H.
Qed.
Print Assumptions C159_standardised.

(** ** Complete data *)
Definition somes (A : mat R) : mat (option R) := map (map Some) A.
(** [X] does on complete batches what [L] does. *)
Definition extends (L : learner) (X : xlearner (net L)) (p : nat) : Prop :=
  forall flag w b, (forall r, In r b -> List.length r = p) ->
  (exists o, x_train X flag w (somes b) = (o, fst (l_train L flag w b)) /\
     xmeasure X (somes b) o (Some (x_weights X w)) = Ok (Some (fst (snd (l_train L flag w b))), Some (snd (snd (l_train L flag w b))))) /\
  xmeasure X (somes b) (x_eval X flag w (somes b)) None = Ok (Some (fst (l_eval L flag w b)), Some (snd (l_eval L flag w b))).
Definition xhist (h : history) : xhistory :=
  XHistory (map Some (elbo_train h)) (map Some (elbo_valid h)) (map Some (recon_train h)) (map Some (recon_valid h)).

Lemma xtrain_complete L X p fl : extends L X p -> forall bs st lb er nb, t_flag st = fl -> (forall b r, In b bs -> In r b -> List.length r = p) ->
  let '(st', (l, e, n)) := train_batches L bs st lb er nb in
  xtrain_batches X fl (map somes bs) (t_net st) (Some lb) (Some er) nb = Ok (t_net st', (Some l, Some e, n)) /\ t_flag st' = fl.
Proof.
  intros HX. induction bs as [|b bs IH]; intros st lb er nb FL HB; [cbn; auto|]. cbn [train_batches map xtrain_batches].
  destruct (HX (t_flag st) (t_net st) b (fun r I => HB b r (or_introl eq_refl) I)) as [(o & E1 & E2) _]. rewrite FL in *.
  destruct (l_train L fl (t_net st) b) as [w1 [l1 e1]] eqn:EL. cbn [fst snd] in *. rewrite E1, E2. cbn [lift].
  apply (IH (TState w1 fl _) (lb + l1) (er + e1) (S nb) eq_refl). intros; eapply HB; eauto. now right.
Qed.
Lemma xvalid_complete L X p : extends L X p -> forall bs st lb er nb, t_flag st = false -> (forall b r, In b bs -> In r b -> List.length r = p) ->
  let '(st', (l, e, n)) := valid_batches L bs st lb er nb in
  xvalid_batches X (map somes bs) (t_net st) (Some lb) (Some er) nb = Ok (Some l, Some e, n) /\ t_flag st' = false /\ t_net st' = t_net st.
Proof.
  intros HX. induction bs as [|b bs IH]; intros st lb er nb FL HB; [cbn; auto|]. cbn [valid_batches map xvalid_batches].
  destruct (HX false (t_net st) b (fun r I => HB b r (or_introl eq_refl) I)) as [_ E2]. rewrite FL in *.
  destruct (l_eval L false (t_net st) b) as [l1 e1] eqn:EL. cbn [fst snd] in *. rewrite E2. cbn [lift].
  apply (IH (TState (t_net st) false _) (lb + l1) (er + e1) (S nb) eq_refl). intros; eapply HB; eauto. now right.
Qed.
Definition xv (v : R * R * (R * R)) : option R * option R * (option R * option R) :=
  (Some (fst (fst v)), Some (snd (fst v)), (Some (fst (snd v)), Some (snd (snd v)))).
Lemma xpydiv_some v n : xpydiv (Some v) n = match pydiv v n with Ok q => Ok (Some q) | Err e => Err e end.
Proof. destruct n; reflexivity. Qed.
Lemma xepoch_complete L X p : extends L X p -> forall tr va st, (forall b r, In b tr -> In r b -> List.length r = p) -> (forall b r, In b va -> In r b -> List.length r = p) ->
  xepoch X (t_flag st) (map somes tr) (map somes va) (t_net st) =
  match epoch L tr va st with (st', Ok v) => Ok (t_net st', xv v) | (_, Err e) => Err e end /\
  match epoch L tr va st with (st', Ok v) => t_flag st' = false | _ => True end.
Proof.
  intros HX tr va st HT HV. unfold xepoch, epoch, valid_vae.
  pose proof (xtrain_complete L X p (t_flag st) HX tr st 0 0 0%nat eq_refl HT) as T. destruct (train_batches L tr st 0 0 0) as [st1 [[lb er] nb]]. destruct T as [-> F1].
  rewrite !xpydiv_some. destruct (pydiv lb nb) as [l|x]; [|auto]. destruct (pydiv er nb) as [e|x]; [|auto].
  pose proof (xvalid_complete L X p HX va (TState (t_net st1) false (t_trace st1)) 0 0 0%nat eq_refl HV) as V. cbn [t_net] in V.
  destruct (valid_batches L va _ 0 0 0) as [st2 [[vlb ver] vnb]]. destruct V as (-> & F2 & W2). rewrite !xpydiv_some.
  destruct (pydiv vlb vnb) as [vl|x]; [|auto]. destruct (pydiv ver vnb) as [ve|x]; [|auto]. rewrite W2. auto.
Qed.
Lemma xepochs_complete L X p tr va : extends L X p -> (forall b r, In b tr -> In r b -> List.length r = p) -> (forall b r, In b va -> In r b -> List.length r = p) ->
  forall k st h, xepochs X k (t_flag st) (map somes tr) (map somes va) (t_net st) (map xv h) =
  match epochs L k tr va st h with (st', Ok h') => Ok (t_net st', map xv h') | (_, Err e) => Err e end.
Proof.
  intros HX HT HV. induction k as [|k IH]; intros st h; cbn [xepochs epochs]; [reflexivity|].
  destruct (xepoch_complete L X p HX tr va st HT HV) as [E F]. rewrite E. destruct (epoch L tr va st) as [st1 [v|x]]; [|reflexivity].
  specialize (IH st1 (h ++ [v])). rewrite F, map_app in IH. exact IH.
Qed.
Lemma batches_map {A B} (f : A -> B) bs (l : list A) : batches bs (map f l) = map (map f) (batches bs l).
Proof.
  unfold batches. rewrite map_length. generalize (List.length l) as n. intros n; revert l. induction n as [|n IH]; intros l; [reflexivity|]. cbn [batches_aux]. destruct l as [|a l]; [reflexivity|].
  cbn [map]. change (f a :: map f l) with (map f (a :: l)). now rewrite firstn_map, skipn_map, IH.
Qed.
Lemma present_complete (data : list row) j : (forall r, In r data -> (j < List.length r)%nat) ->
  present (map (map Num) data) j = map (fun r => [nth j r 0]) data.
Proof.
  intros H. unfold present. induction data as [|r d IH]; [reflexivity|]. cbn [map flat_map]. rewrite IH by (intros; apply H; now right).
  rewrite (nth_indep _ Missing (Num 0)) by (rewrite map_length; apply H; now left). now rewrite map_nth.
Qed.
Lemma xstandardize_complete p (data : list row) : (forall r, In r data -> List.length r = p) -> xstandardize (map (map Num) data) = somes (standardize data).
Proof.
  intros H. unfold xstandardize, standardize, somes. rewrite !map_map. apply map_ext_in. intros r Ir. rewrite map_map, map_length. apply map_ext_in. intros j Ij. apply in_seq in Ij. rewrite (H r Ir) in Ij.
  rewrite (nth_indep _ Missing (Num 0)) by (rewrite map_length, (H r Ir); lia). rewrite map_nth. cbn [value].
  rewrite present_complete by (intros r' I'; rewrite (H r' I'); lia).
  assert (EM : col_mean (map (fun r => [nth j r 0]) data) 0 = col_mean data j) by (unfold col_mean; now rewrite rs_map, map_length).
  assert (ED : col_sd (map (fun r => [nth j r 0]) data) 0 = col_sd data j) by (unfold col_sd; now rewrite EM, rs_map, map_length).
  unfold col_scale, constant_bound. now rewrite ED, EM, map_length.
Qed.

(** On complete data fit is the one of NcfaModel.v. *)
Theorem C159_complete_data :
  forall L (X : xlearner (net L)) p num_epochs batch_size w perm (data : list row) idcs, extends L X p ->
  (forall r, In r data -> List.length r = p) ->
  xncfa_fit X num_epochs batch_size w perm (map (map Num) data) idcs =
  match snd (ncfa_fit L num_epochs batch_size w perm data idcs) with Ok (w', h) => Ok (w', xhist h) | Err e => Err e end.
Proof.
  intros L X p k bs w perm data idcs HX HR.
  assert (TK : forall (d : list row) l, xtake (somes d) l = match take d l with Some r => Some (somes r) | None => None end).
  { intros d l. unfold xtake, take, somes. rewrite map_length. destruct (forallb _ l); [|reflexivity]. apply f_equal. unfold row in *. rewrite map_map. apply map_ext. intros i. change (@nil (option R)) with (map (@Some R) []). apply (map_nth (map (@Some R))). }
  assert (VN : map (map value) (map (map Num) data) = somes data).
  { unfold somes. rewrite map_map. apply map_ext. intros r. rewrite map_map. reflexivity. }
  assert (NI : existsb (existsb is_infinite) (map (map Num) data) = false).
  { apply existsb_infinite. intros r c Ir Ic. apply in_map_iff in Ir as (r0 & <- & _). apply in_map_iff in Ic as (x & <- & _). discriminate. }
  assert (ES : xsplit (map (map Num) data) perm idcs = match split data perm idcs with Ok (tr, va) => Ok (somes tr, somes va) | Err e => Err e end).
  { unfold xsplit, split. rewrite NI, !map_length. unfold row in *. destruct (List.length data =? 0)%nat; [reflexivity|]. rewrite (xstandardize_complete p) by exact HR. rewrite VN. destruct idcs as [[i0 i1]|].
    - unfold row, mat in *. rewrite !TK. destruct (take data i0) as [a|]; [|reflexivity]. destruct (take data i1); reflexivity.
    - destruct (num_train (List.length data) =? 0)%nat; [reflexivity|]. rewrite !TK. destruct (take _ _); [|reflexivity]. destruct (take _ _); reflexivity. }
  assert (SR : forall tr va, split data perm idcs = Ok (tr, va) -> forall r, In r tr \/ In r va -> List.length r = p).
  { intros tr va E. assert (SL : forall r, In r (standardize data) -> List.length r = p) by (intros r I; unfold standardize in I; apply in_map_iff in I as (r0 & <- & I0); rewrite map_length, seq_length; auto).
    assert (TL : forall d l t, (forall r, In r d -> List.length r = p) -> take d l = Some t -> forall r, In r t -> List.length r = p).
    { intros d l t Hd. unfold take. destruct (forallb _ l) eqn:FB; [|discriminate]. intros Et r I; inversion Et; subst. apply in_map_iff in I as (i & <- & Ii). rewrite forallb_forall in FB. specialize (FB i Ii). apply Nat.ltb_lt in FB. apply Hd, nth_In, FB. }
    unfold split in E. destruct (List.length data =? 0)%nat; [discriminate|]. destruct idcs as [[i0 i1]|]; [|destruct (num_train _ =? 0)%nat; [discriminate|]].
    - destruct (take data i0) as [a|] eqn:Ea; [|discriminate]. destruct (take data i1) as [b|] eqn:Eb; [|discriminate]. inversion E; subst. intros r [I|I]; eauto.
    - destruct (take _ (firstn (num_train _) _)) as [a|] eqn:Ea; [|discriminate]. destruct (take _ (firstn (_ - _) _)) as [b|] eqn:Eb; [|discriminate]. inversion E; subst. intros r [I|I]; eauto. }
  unfold xncfa_fit, ncfa_fit. rewrite ES. destruct (split data perm idcs) as [[tr va]|x]; [|reflexivity]. specialize (SR tr va eq_refl).
  destruct (bs =? 0)%nat eqn:B; [reflexivity|]. apply Nat.eqb_neq in B. unfold train_vae. change (somes tr) with (map (map (@Some R)) tr). change (somes va) with (map (map (@Some R)) va). rewrite !batches_map.
  assert (BR : forall (rows : list row) b r, In b (batches bs rows) -> In r b -> In r rows).
  { intros rows b r Ib Ir. destruct (batches_spec bs rows ltac:(lia)) as (C & _). rewrite <- C. apply in_concat. eauto. }
  pose proof (xepochs_complete L X p (batches bs tr) (batches bs va) HX (fun b r Ib Ir => SR r (or_introl (BR _ _ _ Ib Ir))) (fun b r Ib Ir => SR r (or_intror (BR _ _ _ Ib Ir))) k (TState w true []) []) as E.
  cbn [t_flag t_net map] in E. change (map (map (map (@Some R))) (batches bs tr)) with (map somes (batches bs tr)). change (map (map (map (@Some R))) (batches bs va)) with (map somes (batches bs va)). rewrite E. destruct (epochs L k _ _ _ _) as [st [h|x]]; [|reflexivity]. cbn [snd]. f_equal. f_equal.
  unfold xhistory_of, xhist, history_of. cbn [elbo_train elbo_valid recon_train recon_valid]. now rewrite !map_map.
Qed.
Print Assumptions C159_complete_data.

(** ** The network *)
Lemma xget_somes A i j : xget (somes A) i j = Some (tget A i j).
Proof. unfold xget, tget, getd, somes. change (@nil (option R)) with (map (@Some R) []). rewrite map_nth. now rewrite (map_nth (@Some R)). Qed.
Lemma mk_somes n m (f : nat -> nat -> option R) g : (forall i j, (i < n)%nat -> (j < m)%nat -> f i j = Some (g i j)) -> mk n m f = somes (mk n m g).
Proof.
  intros H. unfold somes, mk. rewrite map_map. apply map_ext_in. intros i Hi. rewrite map_map. apply map_ext_in. intros j Hj. apply in_seq in Hi, Hj. apply H; lia.
Qed.
Lemma xmm_somes n k m A B : xmm n k m (somes A) (somes B) = somes (mm n k m A B).
Proof. apply mk_somes. intros. apply osum_some. intros t _. now rewrite !xget_somes. Qed.
Lemma xtranspose_somes n m A : xtranspose n m (somes A) = somes (transpose n m A).
Proof. apply mk_somes. intros. apply xget_somes. Qed.
Lemma xdiff_somes b p x r : xdiff b p (somes x) (somes r) = somes (mk b p (fun s j => tget x s j - tget r s j)).
Proof. apply mk_somes. intros. now rewrite !xget_somes. Qed.
Lemma xdet_some n : forall A B, (forall i j, A i j = Some (B i j)) -> xdet n A = Some (tdet n B).
Proof.
  induction n as [|n IH]; intros A B H; [reflexivity|]. cbn [xdet tdet]. apply osum_some. intros j _. rewrite H. cbn [omap]. rewrite (IH _ (fun i k => B (S i) (if (k <? j)%nat then k else S k))) by (intros; apply H). reflexivity.
Qed.
Lemma xmean_cov_somes b p lc : xmean_cov b p (somes lc) = somes (mean_cov b p lc).
Proof.
  apply mk_somes. intros i j _ _. rewrite (osum_some _ _ (fun s => if (i =? j)%nat then exp (tget lc s i) else 0)); [reflexivity|]. intros s _. rewrite xget_somes. destruct (i =? j)%nat; reflexivity.
Qed.
(** torch's linear algebra on matrices of numbers; [spectral] is torch.linalg.norm. *)
Definition la_extends (la : torch_linalg) (spectral : nat -> nat -> mat R -> R) (xla : xlinalg) : Prop :=
  (forall p A, xinverse xla p (somes A) = Ok (somes (inverse la p A))) /\
  (forall W, xnuclear xla (somes W) = Ok (Some (nuclear la W))) /\
  (forall b p M, xspectral xla b p (somes M) = Ok (Some (spectral b p M))).
Lemma xelbo_complete la sp xla ll lm b p q x r lc mu lv W beta : la_extends la sp xla ->
  xelbo xla ll lm b p q (somes x) (somes r) (somes lc) (somes mu) (somes lv) (match W with Some W => Some (somes W) | None => None end) beta =
  Ok (Some (elbo_gaussian la ll lm b p q x r lc mu lv W beta)).
Proof.
  intros (HI & HN & _). unfold xelbo, elbo_gaussian.
  assert (K : xkl_div b q (somes mu) (somes lv) = Some (kl_div b q mu lv)).
  { unfold xkl_div, kl_div. rewrite (osum_some _ _ (fun s => rs (seq 0 q) (fun k => 1 + tget lv s k - tget mu s k ^ 2 - exp (tget lv s k)))); [reflexivity|]. intros s _. apply osum_some. intros k _. now rewrite !xget_somes. }
  assert (RC : xrecon_loss xla b p (somes x) (somes r) (somes lc) = Ok (Some (recon_loss la b p x r lc))).
  { unfold xrecon_loss, recon_loss. rewrite xmean_cov_somes, HI, xdiff_somes, xtranspose_somes, !xmm_somes.
    rewrite (osum_some _ _ (fun s => tdet p (tget (mean_cov b p lc)) + tget (mm b p b (mm b p p (mk b p (fun s j => tget x s j - tget r s j)) (inverse la p (mean_cov b p lc))) (transpose b p (mk b p (fun s j => tget x s j - tget r s j)))) s s)); [reflexivity|].
    intros s _. rewrite xget_somes, (xdet_some p _ (tget (mean_cov b p lc))) by apply xget_somes. reflexivity. }
  rewrite K, RC. destruct W as [W|]; [|reflexivity]. rewrite HN. cbn [omap lift].
  assert (N1 : xnorm1 (somes W) = Some (norm1 W)).
  { unfold xnorm1, norm1, somes. clear. induction W as [|row W IH]; [reflexivity|]. cbn [map osum fold_right]. unfold osum in IH at 1. rewrite IH. rewrite rs_cons.
    replace (osum (map Some row) (omap Rabs)) with (Some (rs row Rabs)); [reflexivity|]. clear. induction row as [|x row IH]; [reflexivity|]. cbn [map osum fold_right]. unfold osum in IH. rewrite <- IH. now rewrite rs_cons. }
  rewrite N1. reflexivity.
Qed.

Definition numbers (A : mat (option R)) : mat R := map (map (fun v => match v with Some x => x | None => 0 end)) A.
Lemma numbers_somes A : numbers (somes A) = A.
Proof. unfold numbers, somes. rewrite map_map. rewrite <- (map_id A) at 2. apply map_ext. intros r. rewrite map_map. apply map_id. Qed.
(** The network of vae.py on complete batches. *)
Definition neural_xlearner (T : torch) (xla : xlinalg) (h : hyper) (a : arch) : xlearner (net (neural_learner T h a)) :=
  let out s training eps b := XOut (somes (rows_out a s training eps b o_recon (meas a))) (somes (rows_out a s training eps b o_logcov (meas a)))
                                   (somes (rows_out a s training eps b o_mu (latent a))) (somes (rows_out a s training eps b o_logvar (latent a))) in
  XLearner (net (neural_learner T h a))
    (fun training w xb => (out (fst (fst w)) training (fst (noise T a training (numbers xb) (snd w))) (numbers xb), fst (l_train (neural_learner T h a) training w (numbers xb))))
    (fun training w xb => out (fst (fst w)) training (fst (noise T a training (numbers xb) (snd w))) (numbers xb))
    (fun w => somes (weight_matrix a (fst (fst w)))) (meas a) xla (h_lambda h) (h_mu h) (h_beta h).

(** So the theorem on complete data applies to NeuralModel.v. *)
Theorem C159_network :
  forall T xla h a, la_extends (linalg_of T) (spectral_norm T) xla -> latent a = meas a ->
  extends (neural_learner T h a) (neural_xlearner T xla h a) (meas a).
Proof.
  intros T xla h a HL LM flag [[s o] g] b _.
  assert (M : forall eps W, xmeasure (neural_xlearner T xla h a) (somes b) (XOut (somes (rows_out a s flag eps b o_recon (meas a))) (somes (rows_out a s flag eps b o_logcov (meas a)))
       (somes (rows_out a s flag eps b o_mu (latent a))) (somes (rows_out a s flag eps b o_logvar (latent a)))) (match W with Some W => Some (somes W) | None => None end) =
     Ok (Some (fst (measure T h a s flag eps b W)), Some (snd (measure T h a s flag eps b W)))).
  { intros eps W. unfold xmeasure. cbn [x_linalg x_lambda x_mureg x_meas x_beta neural_xlearner x_recon x_logcov x_mu x_logvar]. rewrite (xelbo_complete (linalg_of T) (spectral_norm T)) by exact HL.
    rewrite xdiff_somes. destruct HL as (_ & _ & HS). rewrite HS. cbn [omap]. unfold measure, recon_error. cbn [fst snd]. rewrite LM. unfold somes, xrow. rewrite !map_length. reflexivity. }
  split.
  - cbn [x_train neural_xlearner]. rewrite numbers_somes. cbn [fst snd]. eexists. split; [reflexivity|].
    specialize (M (fst (noise T a flag b g)) (Some (weight_matrix a s))). cbn [x_weights neural_xlearner fst]. rewrite M. cbn [l_train neural_learner].
    destruct (noise T a flag b g) as [eps g']. cbn [fst]. destruct (update T _ _ _ _ _) as [u o']. reflexivity.
  - cbn [x_eval neural_xlearner]. rewrite numbers_somes. cbn [fst snd]. specialize (M (fst (noise T a flag b g)) None). cbn [fst snd] in M. exact M.
Qed.
Print Assumptions C159_network.

(** Linear algebra that raises LinAlgError (a RuntimeError) on nan, as LAPACK does. *)
Definition strict_linalg (la : torch_linalg) (spectral : nat -> nat -> mat R -> R) : xlinalg :=
  let check {A} (M : mat (option R)) (v : A) : res A := if forallb (forallb (fun v => match v with Some _ => true | None => false end)) M then Ok v else Err RuntimeError in
  XLinalg (fun p A => check A (somes (inverse la p (numbers A)))) (fun W => check W (Some (nuclear la (numbers W)))) (fun b p M => check M (Some (spectral b p (numbers M)))).
Lemma check_somes (A : mat R) : forallb (forallb (fun v => match v with Some _ => true | None => false end)) (somes A) = true.
Proof. apply forallb_forall. intros r I. apply in_map_iff in I as (r0 & <- & _). apply forallb_forall. intros v I. apply in_map_iff in I as (x & <- & _). reflexivity. Qed.
Lemma strict_extends la sp : la_extends la sp (strict_linalg la sp).
Proof. repeat split; intros; cbn; now rewrite check_somes, numbers_somes. Qed.
Lemma strict_norm_of_nan la sp : norm_of_nan (strict_linalg la sp).
Proof.
  intros b p M i j v _ _ E. cbn. destruct (forallb _ M) eqn:F; [|discriminate]. exfalso. rewrite forallb_forall in F. unfold xget, getd in E.
  destruct (Nat.lt_ge_cases i (List.length M)) as [Hi|Hi]; [|rewrite nth_overflow with (l := M) in E by exact Hi; destruct j; discriminate].
  specialize (F _ (nth_In M [] Hi)). rewrite forallb_forall in F. destruct (Nat.lt_ge_cases j (List.length (nth i M []))) as [Hj|Hj]; [|rewrite nth_overflow in E by exact Hj; discriminate].
  specialize (F _ (nth_In _ (Some 0) Hj)). now rewrite E in F.
Qed.
(** Then fit raises it in the first epoch: *)
Theorem C159_raises_partial :
  forall N (L : xlearner N) num_epochs batch_size w perm data i j,
  (forall b p M i j, (i < b)%nat -> (j < p)%nat -> xget M i j = None -> exists e, xspectral (x_linalg L) b p M = Err e) ->
  (1 <= num_epochs)%nat -> Permutation perm (seq 0 (List.length data)) -> missing data i j -> (j < x_meas L)%nat ->
  exists e, xncfa_fit L num_epochs batch_size w perm data None = Err e.
Proof.
  intros N L k bs w perm data i j HS Hk HP HM Hj.
  destruct (xncfa_fit L k bs w perm data None) as [[w' h]|e] eqn:E; [exfalso|eauto].
  assert (ME : forall (b : list xrow) o W r j, In r b -> nth j r (Some 0) = None -> (j < x_meas L)%nat -> forall v, xmeasure L b o W <> Ok v).
  { intros b o W r j0 I HN Hj0 v. apply (In_nth _ _ []) in I as (s & Hs & Er). unfold xmeasure. destruct (xelbo _ _ _ _ _ _ _ _ _ _ _ _ _); [|discriminate].
    assert (G : exists e, xspectral (x_linalg L) (List.length b) (x_meas L) (xdiff (List.length b) (x_meas L) b (x_recon o)) = Err e).
    { apply (HS _ _ _ s j0); auto. unfold xdiff. rewrite xget_mk by auto. unfold xget, getd. rewrite Er. now rewrite HN. }
    destruct G as (e & G). rewrite G. discriminate. }
  assert (TB : forall fl b, spoilt (x_meas L) b -> forall w lb er nb v, xtrain_batches L fl b w lb er nb <> Ok v).
  { intros fl bl. induction bl as [|b bl IH]; intros (b0 & r & j0 & I & Ir & HN & Hj0) w0 lb er nb v; [destruct I|]. cbn [xtrain_batches]. destruct (x_train L fl w0 b) as [o w1]. destruct (xmeasure _ _ _ _) as [[l1 e1]|x] eqn:E1; [|discriminate].
    destruct I as [->|I]; [exfalso; exact (ME _ _ _ _ _ Ir HN Hj0 _ E1)|]. apply IH. exists b0, r, j0. auto. }
  assert (VB : forall b, spoilt (x_meas L) b -> forall w lb er nb v, xvalid_batches L b w lb er nb <> Ok v).
  { intros bl. induction bl as [|b bl IH]; intros (b0 & r & j0 & I & Ir & HN & Hj0) w0 lb er nb v; [destruct I|]. cbn [xvalid_batches]. destruct (xmeasure _ _ _ _) as [[l1 e1]|x] eqn:E1; [|discriminate].
    destruct I as [->|I]; [exfalso; exact (ME _ _ _ _ _ Ir HN Hj0 _ E1)|]. apply IH. exists b0, r, j0. auto. }
  unfold xncfa_fit in E. destruct (xsplit data perm None) as [[tr va]|x] eqn:ES; [|discriminate]. destruct (bs =? 0)%nat eqn:B; [discriminate|]. apply Nat.eqb_neq in B.
  assert (BR : bad_row (x_meas L) tr \/ bad_row (x_meas L) va).
  { unfold xsplit in ES. destruct (List.length data =? 0)%nat eqn:N0; [discriminate|]. destruct (existsb _ data); [discriminate|].
    destruct (num_train (List.length data) =? 0)%nat eqn:NT; [discriminate|].
    assert (NL : (num_train (List.length data) <= List.length data)%nat).
    { apply Nat.eqb_neq in N0, NT. destruct (Nat.eq_dec (List.length data) 1) as [E1|]; [rewrite E1 in NT; exfalso; apply NT; reflexivity|]. pose proof (num_train_bounds (List.length data)). lia. }
    unfold xtake in ES. destruct (forallb _ (firstn (num_train _) _)); [|discriminate]. destruct (forallb _ (firstn (_ - _) _)); [|discriminate]. inversion ES; subst tr va.
    pose proof (xstandardize_missing data i j HM) as XM.
    destruct (split_parts _ perm HP NL i (proj1 HM)) as [I|I]; [left|right]; exists (nth i (xstandardize data) []), j; (split; [apply in_map_iff; exists i; auto|auto]). }
  destruct k as [|k]; [lia|]. cbn [xepochs] in E. unfold xepoch in E.
  destruct (xtrain_batches _ _ _ _ _ _ _) as [[w1 [[lb er] nb]]|x] eqn:E1; [|discriminate].
  destruct BR as [BR|BR]; apply (bad_row_spoilt _ _ bs) in BR; try lia; [exact (TB _ _ BR _ _ _ _ _ E1)|].
  destruct (xpydiv lb nb); [|discriminate]. destruct (xpydiv er nb); [|discriminate]. destruct (xvalid_batches _ _ _ _ _ _) as [[[vlb ver] vnb]|x] eqn:E2; [|discriminate]. exact (VB _ BR _ _ _ _ _ E2).
Qed.
Print Assumptions C159_raises_partial.

(** ** Concrete cases *)
Definition two_rows : list (list cell) := [[Num 1; Missing]; [Num 2; Num 3]].
Example C159_missing : missing two_rows 0 1 /\ no_infinite two_rows.
Proof. repeat split; cbn; try lia. intros r c Ir Ic. cbn in *. intuition subst; cbn in *; intuition discriminate. Qed.
(** A network that returns zeros, with linear algebra that passes nan on: fit returns, and
    the second row alone can be used with explicit indices. *)
Definition lax_linalg : xlinalg :=
  XLinalg (fun _ A => Ok A) (fun _ => Ok (Some 0)) (fun b p M => Ok (osum M (fun r => osum r (omap Rabs)))).
Definition zero_learner : xlearner unit :=
  XLearner unit (fun _ w b => (XOut [] [] [] [], w)) (fun _ _ _ => XOut [] [] [] []) (fun _ => []) 2 lax_linalg 1 1 1.
Lemma lax_norm_of_nan : norm_of_nan lax_linalg.
Proof.
  intros b p M i j v _ _ E E2. cbn in E2. inversion E2; subst. unfold xget, getd in E.
  destruct (Nat.lt_ge_cases i (List.length M)) as [Hi|Hi]; [|rewrite nth_overflow with (l := M) in E by exact Hi; destruct j; discriminate].
  apply osum_none with (nth i M []); [now apply nth_In|]. destruct (Nat.lt_ge_cases j (List.length (nth i M []))) as [Hj|Hj]; [|rewrite nth_overflow in E by exact Hj; discriminate].
  apply osum_none with (nth j (nth i M []) (Some 0)); [now apply nth_In|]. now rewrite E.
Qed.
Example C159_instance :
  (exists h, xncfa_fit zero_learner 1 1 tt [0; 1]%nat two_rows None = Ok (tt, h)) /\
  (exists h, xncfa_fit zero_learner 1 1 tt [0; 1]%nat two_rows (Some ([0; 1]%nat, [1]%nat)) = Ok (tt, h)) /\
  (exists h v, xncfa_fit zero_learner 1 1 tt [0; 1]%nat two_rows (Some ([1]%nat, [1]%nat)) = Ok (tt, h) /\ xelbo_train h = [Some v]).
Proof. split; [|split]; [eexists; reflexivity|eexists; reflexivity|eexists; eexists; split; reflexivity]. Qed.
Example C159_standardised_instance : present two_rows 1 = [[3]] /\ recorded (xstandardize two_rows) 1 = [[0]].
Proof. split; [reflexivity|]. rewrite C159_standardised by (intros r [<-|[<-|[]]]; cbn; lia). unfold present, two_rows; cbn [flat_map nth app]. unfold standardize. cbn [map seq nth List.length]. unfold col_mean at 1, rs. cbn. f_equal. f_equal. unfold Rdiv. rewrite Rinv_1. ring. Qed.
Example C159_network_instance : latent (arch_of toy_hyper [[1; 2]]) = meas (arch_of toy_hyper [[1; 2]]).
Proof. reflexivity. Qed.
