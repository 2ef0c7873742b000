(** Lemmas about concurrent fits on one file system. *)
From Coq Require Import Ascii String.
From Verif Require Import Base NcfaModel NcfaSpec NcfaData FsModel FsSpec.
Local Open Scope string_scope.

Lemma dirname_eq s : dirname s = dir_of s.
Proof. induction s as [|c s IH]; [reflexivity|]. cbn. rewrite IH. reflexivity. Qed.
Lemma slashed_eq p : slashed p = as_directory p.
Proof. reflexivity. Qed.

(** ** Names *)
Fixpoint last_char (s : string) : option ascii :=
  match s with EmptyString => None | String c EmptyString => Some c | String _ t => last_char t end.
Lemma last_char_app a b : b <> "" -> last_char (a ++ b) = last_char b.
Proof.
  intros H. induction a as [|c a IH]; [reflexivity|]. cbn [append]. destruct (a ++ b) eqn:E.
  - destruct a; [cbn in E; congruence|discriminate].
  - rewrite <- IH. reflexivity.
Qed.
Lemma append_inj_l a b c : a ++ b = a ++ c -> b = c.
Proof. induction a; cbn; intros H; [auto|]. injection H; auto. Qed.
Lemma append_inj_r a : forall b c, b ++ a = c ++ a -> b = c.
Proof.
  induction b as [|x b IH]; intros [|y c] H; cbn in H; auto.
  - apply (f_equal String.length) in H. cbn in H. rewrite append_length in H. lia.
  - apply (f_equal String.length) in H. cbn in H. rewrite append_length in H. lia.
  - injection H as -> H. f_equal. auto.
Qed.
Lemma path_join_pre p : exists x, forall name, path_join p name = x ++ name.
Proof.
  unfold path_join. destruct (_ || _); [exists p; auto|]. exists (p ++ "/"). intros. rewrite append_assoc. reflexivity.
Qed.
Lemma saved_last p f : In f (saved_files p) -> last_char f = Some "t"%char \/ last_char f = Some "l"%char.
Proof.
  destruct (path_join_pre p) as (x & Hx). unfold saved_files. cbn [map In]. rewrite !Hx.
  intros [<-|[<-|[<-|[]]]]; rewrite last_char_app by discriminate; auto.
Qed.
Lemma log_last p : last_char (log_file p) = Some "g"%char.
Proof. unfold log_file. rewrite last_char_app by discriminate. reflexivity. Qed.
Lemma log_not_saved p q : In (log_file p) (saved_files q) -> False.
Proof. intros H. apply saved_last in H. rewrite log_last in H. destruct H; discriminate. Qed.

Lemma names_disjoint p q f : as_directory p <> as_directory q -> writes_to p f -> writes_to q f -> False.
Proof.
  intros N [->|Hp] [Hq|Hq].
  - apply append_inj_r in Hq. subst. auto.
  - apply (log_not_saved p q). auto.
  - subst. apply (log_not_saved q p). auto.
  - apply saved_in_directory in Hp, Hq. congruence.
Qed.

Lemma writes_target f : forall chunks off o, In o (writes f off chunks) -> target o = f.
Proof. induction chunks as [|c t IH]; intros off o H; [destruct H|]. destruct H as [<-|H]; [reflexivity|eauto]. Qed.
Lemma save_target f chunks o : In o (save f chunks) -> target o = f.
Proof. intros [<-|H]; [reflexivity|]. eapply writes_target; eauto. Qed.

Definition saves (j : job) : list op :=
  (save (path_join (j_path j) "model_recon.pt") (j_model j) ++ save (path_join (j_path j) "loss_recon.pkl") (j_loss j) ++
   save (path_join (j_path j) "error_recon.pkl") (j_error j))%list.
Lemma saves_target j o : In o (saves j) -> In (target o) (saved_files (j_path j)).
Proof.
  unfold saves. rewrite !in_app_iff. cbn. intros [H|[H|H]]; apply save_target in H; auto.
Qed.
Lemma fit_ops_target j o : In o (fit_ops j) -> writes_to (j_path j) (target o).
Proof.
  unfold fit_ops. fold (saves j). rewrite in_app_iff. intros [H|H].
  - apply in_map_iff in H. destruct H as (l & <- & _). left. reflexivity.
  - right. apply saves_target; auto.
Qed.

(** ** One step *)
Lemma exec_other o s s' f : exec o s = Some s' -> f <> target o -> files s' f = files s f.
Proof.
  intros E N. destruct o as [g l|g|g off c]; cbn in E, N.
  - destruct (dirs s (dirname g)); [|discriminate]. injection E as <-. cbn. rewrite (proj2 (String.eqb_neq f g) N). reflexivity.
  - destruct (dirs s (dirname g)); [|discriminate]. injection E as <-. cbn. rewrite (proj2 (String.eqb_neq f g) N). reflexivity.
  - injection E as <-. cbn. rewrite (proj2 (String.eqb_neq f g) N). reflexivity.
Qed.
Lemma exec_dirs o s s' : exec o s = Some s' -> forall d, dirs s' d = dirs s d.
Proof.
  intros E d. destruct o as [g l|g|g off c]; cbn in E.
  - destruct (dirs s (dirname g)); [|discriminate]. injection E as <-. reflexivity.
  - destruct (dirs s (dirname g)); [|discriminate]. injection E as <-. reflexivity.
  - injection E as <-. reflexivity.
Qed.
Lemma exec_same o s t : (forall d, dirs s d = dirs t d) -> files s (target o) = files t (target o) ->
  (exec o s = None /\ exec o t = None) \/
  exists s' t', exec o s = Some s' /\ exec o t = Some t' /\ files s' (target o) = files t' (target o).
Proof.
  intros D F. destruct o as [g l|g|g off c]; cbn in *.
  - rewrite <- D. destruct (dirs s (dirname g)); [right|left; auto]. eexists _, _. split; [reflexivity|]. split; [reflexivity|].
    cbn. rewrite String.eqb_refl, F. reflexivity.
  - rewrite <- D. destruct (dirs s (dirname g)); [right|left; auto]. eexists _, _. split; [reflexivity|]. split; [reflexivity|].
    cbn. rewrite String.eqb_refl. reflexivity.
  - right. eexists _, _. split; [reflexivity|]. split; [reflexivity|]. cbn. rewrite String.eqb_refl, F. reflexivity.
Qed.

Lemma run_snoc sched i w : run (sched ++ [i])%list w = step i (run sched w).
Proof. unfold run. rewrite fold_left_app. reflexivity. Qed.

Lemma step_rest i k w : k <> i -> w_rest (step i w) k = w_rest w k.
Proof.
  intros N. unfold step. destruct (w_rest w i) as [|o rest] eqn:E; [reflexivity|].
  destruct (exec o (w_fs w)); cbn; rewrite (proj2 (Nat.eqb_neq k i) N); reflexivity.
Qed.
Lemma step_own i w : w_rest (step i w) i = tl (w_rest w i) \/ w_rest (step i w) i = [].
Proof.
  unfold step. destruct (w_rest w i) as [|o rest] eqn:E; [left; rewrite E; reflexivity|].
  destruct (exec o (w_fs w)); cbn; rewrite Nat.eqb_refl; auto.
Qed.
Lemma step_dirs i w d : dirs (w_fs (step i w)) d = dirs (w_fs w) d.
Proof.
  unfold step. destruct (w_rest w i) as [|o rest]; [reflexivity|]. destruct (exec o (w_fs w)) eqn:E; [|reflexivity].
  cbn. eapply exec_dirs; eauto.
Qed.
Lemma run_dirs sched w d : dirs (w_fs (run sched w)) d = dirs (w_fs w) d.
Proof. induction sched as [|i l IH] using rev_ind; [reflexivity|]. rewrite run_snoc, step_dirs. auto. Qed.

Lemma run_rest_incl sched jobs s k o : In o (w_rest (run sched (start jobs s)) k) ->
  exists j, nth_error jobs k = Some j /\ In o (fit_ops j).
Proof.
  revert o. induction sched as [|i l IH] using rev_ind; intros o H.
  - cbn in H. destruct (nth_error jobs k) as [j|]; [eauto|destruct H].
  - rewrite run_snoc in H. destruct (Nat.eq_dec k i) as [->|N].
    + destruct (step_own i (run l (start jobs s))) as [E|E]; rewrite E in H; [|destruct H]. apply IH.
      destruct (w_rest (run l (start jobs s)) i); [destruct H|right; auto].
    + rewrite step_rest in H by auto. auto.
Qed.

(** ** Isolation *)
Lemma isolation jobs s sched i j : nth_error jobs i = Some j ->
  (forall k j', k <> i -> nth_error jobs k = Some j' -> as_directory (j_path j') <> as_directory (j_path j)) ->
  let w := run sched (start jobs s) in let a := run (filter (Nat.eqb i) sched) (start jobs s) in
  w_rest w i = w_rest a i /\ forall f, writes_to (j_path j) f -> files (w_fs w) f = files (w_fs a) f.
Proof.
  intros Hj Hd. cbv zeta. induction sched as [|k sched [IH1 IH2]] using rev_ind; [split; reflexivity|].
  rewrite filter_app. cbn [filter]. rewrite run_snoc. destruct (Nat.eqb_spec i k) as [<-|N].
  - rewrite run_snoc. set (w := run sched (start jobs s)) in *. set (a := run (filter (Nat.eqb i) sched) (start jobs s)) in *.
    unfold step. rewrite <- IH1. destruct (w_rest w i) as [|o rest] eqn:Eo; [rewrite <- IH1; auto|].
    assert (T : writes_to (j_path j) (target o)).
    { destruct (run_rest_incl sched jobs s i o) as (j' & Hj' & Ho); [fold w; rewrite Eo; left; auto|].
      rewrite Hj in Hj'. injection Hj' as <-. apply fit_ops_target; auto. }
    destruct (exec_same o (w_fs w) (w_fs a)) as [[E1 E2]|(s' & t' & E1 & E2 & E3)].
    { intros d. unfold w, a. rewrite !run_dirs. reflexivity. }
    { apply IH2; auto. }
    + rewrite E1, E2. cbn. rewrite Nat.eqb_refl. auto.
    + rewrite E1, E2. cbn. rewrite Nat.eqb_refl. split; [reflexivity|]. intros f Hf.
      destruct (string_dec f (target o)) as [->|Nf]; [auto|]. rewrite (exec_other _ _ _ _ E1 Nf), (exec_other _ _ _ _ E2 Nf). auto.
  - rewrite app_nil_r. split; [rewrite step_rest; auto|]. intros f Hf. rewrite <- IH2 by auto.
    set (w := run sched (start jobs s)) in *. unfold step. destruct (w_rest w k) as [|o rest] eqn:Eo; [reflexivity|].
    destruct (exec o (w_fs w)) as [s'|] eqn:E; [|reflexivity]. cbn. apply (exec_other _ _ _ _ E). intros ->.
    destruct (run_rest_incl sched jobs s k o) as (j' & Hj' & Ho); [fold w; rewrite Eo; left; auto|].
    apply fit_ops_target in Ho. apply (names_disjoint (j_path j') (j_path j) (target o)); auto. eapply Hd; eauto.
Qed.

(** ** A fit on its own *)
Definition effect (b : list nat) (o : op) : list nat :=
  match o with Append _ l => (b ++ l)%list | Truncate _ => [] | WriteAt _ off c => overlay b off c end.
Lemma exec_ok o s : dirs s (dirname (target o)) = true ->
  exec o s = Some (set_file (target o) (effect (bytes (files s (target o))) o) s).
Proof. intros H. destruct o; cbn in *; rewrite ?H; reflexivity. Qed.

Lemma filter_own i sched : filter (Nat.eqb i) sched = repeat i (steps_of i sched).
Proof.
  unfold steps_of. induction sched as [|k l IH]; [reflexivity|]. cbn [filter count_occ].
  destruct (Nat.eqb_spec i k) as [<-|N].
  - destruct (Nat.eq_dec i i); [|congruence]. cbn. rewrite IH. reflexivity.
  - destruct (Nat.eq_dec k i); [congruence|]. auto.
Qed.

Lemma run_own i n : forall w, (forall o, In o (w_rest w i) -> dirs (w_fs w) (dirname (target o)) = true) ->
  let ops := firstn n (w_rest w i) in
  w_rest (run (repeat i n) w) i = skipn n (w_rest w i) /\
  forall f, files (w_fs (run (repeat i n) w)) f =
    match filter (fun o => String.eqb (target o) f) ops with
    | [] => files (w_fs w) f
    | l => Some (fold_left effect l (bytes (files (w_fs w) f)))
    end.
Proof.
  induction n as [|n IH]; intros w H; cbv zeta; [split; reflexivity|].
  change (run (repeat i (S n)) w) with (run (repeat i n) (step i w)).
  destruct (w_rest w i) as [|o rest] eqn:E.
  - assert (S1 : step i w = w) by (unfold step; rewrite E; reflexivity). rewrite S1.
    destruct (IH w) as [I1 I2]; [rewrite E; intros o []|]. rewrite E in I1, I2. rewrite firstn_nil in I2. rewrite skipn_nil in I1.
    split; auto.
  - assert (Ex := exec_ok o (w_fs w) (H o (or_introl eq_refl))).
    set (s' := set_file (target o) (effect (bytes (files (w_fs w) (target o))) o) (w_fs w)) in *.
    assert (S1 : step i w = World s' (fun k => if (k =? i)%nat then rest else w_rest w k)) by (unfold step; rewrite E, Ex; reflexivity).
    rewrite S1. destruct (IH (World s' (fun k => if (k =? i)%nat then rest else w_rest w k))) as [I1 I2].
    { cbn. rewrite Nat.eqb_refl. intros o' Ho'. apply H. right; auto. }
    cbn [w_rest w_fs] in I1, I2. rewrite Nat.eqb_refl in I1, I2. split; [exact I1|]. intros f. rewrite I2.
    cbn [firstn filter]. unfold s'. cbn [files set_file]. destruct (String.eqb_spec (target o) f) as [<-|N].
    + rewrite String.eqb_refl. destruct (filter (fun o0 => String.eqb (target o0) (target o)) (firstn n rest)); reflexivity.
    + rewrite (proj2 (String.eqb_neq f (target o))) by auto. reflexivity.
Qed.

Lemma overlay_end b c : overlay b (List.length b) c = (b ++ c)%list.
Proof.
  unfold overlay. rewrite Nat.sub_diag. cbn [repeat]. rewrite app_nil_r, firstn_all, skipn_all2 by lia. rewrite app_nil_r. reflexivity.
Qed.
Lemma writes_effect f : forall chunks b, fold_left effect (writes f (List.length b) chunks) b = (b ++ concat chunks)%list.
Proof.
  induction chunks as [|c t IH]; intros b; cbn [writes fold_left concat]; [rewrite app_nil_r; reflexivity|].
  cbn [effect]. rewrite overlay_end. specialize (IH (b ++ c)%list). rewrite app_length in IH. rewrite IH, app_assoc. reflexivity.
Qed.
Lemma save_effect f chunks b : fold_left effect (save f chunks) b = concat chunks.
Proof. unfold save. cbn [fold_left effect]. exact (writes_effect f chunks []). Qed.

Lemma save_file f chunks d b :
  match save f chunks with [] => d | l => Some (fold_left effect l b) end = Some (concat chunks).
Proof. change (Some (fold_left effect (save f chunks) b) = Some (concat chunks)). rewrite save_effect. reflexivity. Qed.

Lemma filter_all {X} (f : X -> bool) l : (forall x, In x l -> f x = true) -> filter f l = l.
Proof. induction l as [|x l IH]; intros H; [reflexivity|]. cbn. rewrite H by (left; auto). f_equal. apply IH. intros; apply H; right; auto. Qed.
Lemma filter_none {X} (f : X -> bool) l : (forall x, In x l -> f x = false) -> filter f l = [].
Proof. induction l as [|x l IH]; intros H; [reflexivity|]. cbn. rewrite H by (left; auto). apply IH. intros; apply H; right; auto. Qed.

Lemma filter_save g f chunks : filter (fun o => String.eqb (target o) g) (save f chunks) = if String.eqb f g then save f chunks else [].
Proof.
  destruct (String.eqb_spec f g) as [<-|N].
  - apply filter_all. intros o Ho. apply String.eqb_eq. eapply save_target; eauto.
  - apply filter_none. intros o Ho. apply String.eqb_neq. rewrite (save_target _ _ _ Ho). auto.
Qed.
Lemma path_join_neq p a b : a <> b -> String.eqb (path_join p a) (path_join p b) = false.
Proof. intros N. apply String.eqb_neq. destruct (path_join_pre p) as (x & Hx). rewrite !Hx. intros E. apply N. eapply append_inj_l; eauto. Qed.

Lemma own_ops j s : directories_exist s (j_path j) -> forall o, In o (fit_ops j) -> dirs s (dirname (target o)) = true.
Proof.
  intros [D1 D2] o Ho. rewrite dirname_eq. apply fit_ops_target in Ho. destruct Ho as [->|Ho]; [auto|].
  rewrite (saved_in_directory _ _ Ho). auto.
Qed.

Lemma complete jobs s sched i j : nth_error jobs i = Some j ->
  (forall k j', k <> i -> nth_error jobs k = Some j' -> as_directory (j_path j') <> as_directory (j_path j)) ->
  directories_exist s (j_path j) -> (List.length (fit_ops j) <= steps_of i sched)%nat ->
  let w := run sched (start jobs s) in
  saved_by j (w_fs w) /\ bytes (files (w_fs w) (log_file (j_path j))) = (bytes (files s (log_file (j_path j))) ++ concat (j_lines j))%list.
Proof.
  intros Hj Hd D L w. destruct (isolation jobs s sched i j Hj Hd) as [_ I]. fold w in I.
  rewrite filter_own in I.
  destruct (run_own i (steps_of i sched) (start jobs s)) as [_ R].
  { cbn. rewrite Hj. apply own_ops; auto. }
  cbn [w_rest start w_fs] in R. rewrite Hj in R. rewrite firstn_all2 in R by auto.
  set (p := j_path j) in *.
  assert (Lg : forall name, In (path_join p name) (saved_files p) ->
     filter (fun o => String.eqb (target o) (path_join p name)) (map (Append (log_file p)) (j_lines j)) = []).
  { intros name Hn. apply filter_none. intros o Ho. apply in_map_iff in Ho. destruct Ho as (l & <- & _). cbn.
    apply String.eqb_neq. intros E. rewrite <- E in Hn. apply log_not_saved in Hn. auto. }
  assert (M : forall name, In name ["model_recon.pt"; "loss_recon.pkl"; "error_recon.pkl"] -> In (path_join p name) (saved_files p)).
  { intros name Hn. apply in_map. auto. }
  split; [split; [|split]|].
  - rewrite I by (right; apply M; cbn; auto). rewrite R. unfold fit_ops. fold p.
    rewrite !filter_app, Lg by (apply M; cbn; auto). rewrite !filter_save, String.eqb_refl, !path_join_neq by discriminate.
    rewrite !app_nil_r. cbn [app]. apply save_file.
  - rewrite I by (right; apply M; cbn; auto). rewrite R. unfold fit_ops. fold p.
    rewrite !filter_app, Lg by (apply M; cbn; auto). rewrite !filter_save, String.eqb_refl, !path_join_neq by discriminate.
    rewrite !app_nil_r. cbn [app]. apply save_file.
  - rewrite I by (right; apply M; cbn; auto). rewrite R. unfold fit_ops. fold p.
    rewrite !filter_app, Lg by (apply M; cbn; auto). rewrite !filter_save, String.eqb_refl, !path_join_neq by discriminate.
    cbn [app]. apply save_file.
  - rewrite I by (left; reflexivity). rewrite R. unfold fit_ops. fold p. rewrite filter_app.
    rewrite filter_all by (intros o Ho; apply in_map_iff in Ho; destruct Ho as (l & <- & _); apply String.eqb_refl).
    rewrite filter_none.
    2:{ intros o Ho. apply (saves_target j) in Ho. apply String.eqb_neq. intros E. fold p in Ho. rewrite E in Ho. apply log_not_saved in Ho. auto. }
    rewrite app_nil_r. destruct (j_lines j) as [|l t] eqn:El; [cbn; rewrite app_nil_r; reflexivity|].
    cbn [map]. change (Append (log_file p) l :: map (Append (log_file p)) t) with (map (Append (log_file p)) (l :: t)).
    cbn [bytes]. generalize (bytes (files s (log_file p))) as b. generalize (l :: t) as ls. clear.
    induction ls as [|l ls IH]; intros b; cbn [map fold_left concat effect]; [rewrite app_nil_r; reflexivity|]. rewrite IH, app_assoc. reflexivity.
Qed.

(** ** Running alone *)
Lemma run_alone i k n : forall w w', w_rest w i = w_rest w' k -> w_fs w = w_fs w' ->
  w_fs (run (repeat i n) w) = w_fs (run (repeat k n) w').
Proof.
  induction n as [|n IH]; intros w w' H1 H2; [exact H2|].
  change (w_fs (run (repeat i n) (step i w)) = w_fs (run (repeat k n) (step k w'))). apply IH.
  - unfold step. rewrite <- H1, <- H2. destruct (w_rest w i) as [|o rest] eqn:E; [congruence|].
    destruct (exec o (w_fs w)); cbn; rewrite !Nat.eqb_refl; reflexivity.
  - unfold step. rewrite <- H1, <- H2. destruct (w_rest w i) as [|o rest] eqn:E; [congruence|].
    destruct (exec o (w_fs w)); cbn; auto.
Qed.

Lemma isolated jobs s sched i j : nth_error jobs i = Some j ->
  (forall k j', k <> i -> nth_error jobs k = Some j' -> as_directory (j_path j') <> as_directory (j_path j)) ->
  forall f, writes_to (j_path j) f ->
  files (w_fs (run sched (start jobs s))) f = files (w_fs (run (repeat 0 (steps_of i sched)) (start [j] s))) f.
Proof.
  intros Hj Hd f Hf. destruct (isolation jobs s sched i j Hj Hd) as [_ I]. rewrite I by auto. rewrite filter_own.
  rewrite (run_alone i 0 (steps_of i sched) (start jobs s) (start [j] s)); [reflexivity| |reflexivity].
  cbn. rewrite Hj. reflexivity.
Qed.

Lemma run_app a b w : run (a ++ b)%list w = run b (run a w).
Proof. unfold run. apply fold_left_app. Qed.
Lemma run_repeat_rest i k n : k <> i -> forall w, w_rest (run (repeat i n) w) k = w_rest w k.
Proof.
  intros N. induction n as [|n IH]; intros w; [reflexivity|].
  change (w_rest (run (repeat i n) (step i w)) k = w_rest w k). rewrite IH. apply step_rest; auto.
Qed.
Lemma steps_repeat i k n : steps_of i (repeat k n) = if (i =? k)%nat then n else 0.
Proof.
  unfold steps_of. induction n as [|n IH]; [cbn; destruct (i =? k)%nat; reflexivity|]. cbn [repeat count_occ].
  destruct (Nat.eq_dec k i) as [->|N]; rewrite IH.
  - rewrite Nat.eqb_refl. reflexivity.
  - rewrite (proj2 (Nat.eqb_neq i k)) by auto. reflexivity.
Qed.
Lemma steps_app i a b : steps_of i (a ++ b)%list = (steps_of i a + steps_of i b)%nat.
Proof. apply count_occ_app. Qed.

(** ** Two fits into one directory *)
Lemma mixed a b s : j_path a = j_path b -> directories_exist s (j_path a) ->
  exists sched, (List.length (fit_ops a) <= steps_of 0 sched)%nat /\ (List.length (fit_ops b) <= steps_of 1 sched)%nat /\
    let t := w_fs (run sched (start [a; b] s)) in
    files t (path_join (j_path a) "model_recon.pt") = Some (concat (j_model b)) /\
    files t (path_join (j_path a) "loss_recon.pkl") = Some (concat (j_loss a)) /\
    files t (path_join (j_path a) "error_recon.pkl") = Some (concat (j_error a)).
Proof.
  intros P D. set (p := j_path a) in *.
  set (A1 := (map (Append (log_file p)) (j_lines a) ++ save (path_join p "model_recon.pt") (j_model a))%list).
  set (A2 := (save (path_join p "loss_recon.pkl") (j_loss a) ++ save (path_join p "error_recon.pkl") (j_error a))%list).
  assert (Ea : fit_ops a = (A1 ++ A2)%list). { unfold fit_ops, A1, A2. fold p. rewrite app_assoc. reflexivity. }
  exists (repeat 0 (List.length A1) ++ repeat 1 (List.length (fit_ops b)) ++ repeat 0 (List.length A2))%list.
  rewrite !steps_app, !steps_repeat. cbn [Nat.eqb]. split; [rewrite Ea, app_length; lia|]. split; [lia|]. cbv zeta.
  rewrite !run_app.
  assert (Da := own_ops a s D). assert (Db : forall o, In o (fit_ops b) -> dirs s (dirname (target o)) = true).
  { apply own_ops. rewrite <- P. exact D. }
  destruct (run_own 0 (List.length A1) (start [a; b] s)) as [R1 _]; [exact Da|].
  assert (R1b := run_repeat_rest 0 1 (List.length A1) ltac:(lia) (start [a; b] s)).
  cbn [start w_rest nth_error] in R1, R1b. rewrite Ea, skipn_app, Nat.sub_diag, skipn_all2 in R1 by lia. cbn [app skipn] in R1.
  assert (D1 := run_dirs (repeat 0 (List.length A1)) (start [a; b] s)).
  set (w1 := run (repeat 0 (List.length A1)) (start [a; b] s)) in *.
  destruct (run_own 1 (List.length (fit_ops b)) w1) as [_ F2].
  { rewrite R1b. intros o Ho. rewrite D1. apply Db; auto. }
  assert (R2a := run_repeat_rest 1 0 (List.length (fit_ops b)) ltac:(lia) w1). rewrite R1 in R2a.
  assert (D2 := run_dirs (repeat 1 (List.length (fit_ops b))) w1).
  rewrite R1b, firstn_all in F2.
  set (w2 := run (repeat 1 (List.length (fit_ops b))) w1) in *.
  destruct (run_own 0 (List.length A2) w2) as [_ F3].
  { rewrite R2a. intros o Ho. rewrite D2, D1. apply Da. rewrite Ea. apply in_or_app. auto. }
  rewrite R2a, firstn_all in F3.
  assert (Lg : forall name, In name ["model_recon.pt"; "loss_recon.pkl"; "error_recon.pkl"] ->
     filter (fun o => String.eqb (target o) (path_join p name)) (map (Append (log_file p)) (j_lines b)) = []).
  { intros name Hn. apply filter_none. intros o Ho. apply in_map_iff in Ho. destruct Ho as (l & <- & _). cbn.
    apply String.eqb_neq. intros E. apply (log_not_saved p p). rewrite E. apply in_map. auto. }
  split; [|split]; rewrite F3; unfold A2; rewrite filter_app, !filter_save, ?String.eqb_refl, !path_join_neq by discriminate; cbn [app].
  - rewrite F2. unfold fit_ops. rewrite <- P. fold p. rewrite !filter_app, Lg by (cbn; auto).
    rewrite !filter_save, String.eqb_refl, !path_join_neq by discriminate. rewrite !app_nil_r. cbn [app]. apply save_file.
  - rewrite app_nil_r. apply save_file.
  - apply save_file.
Qed.

(** ** The log *)
Lemma skipn_nth {X} (l : list X) : forall n x, nth_error l n = Some x -> skipn n l = x :: skipn (S n) l.
Proof. induction l as [|y l IH]; intros [|n] x H; cbn in H; try discriminate; [injection H as <-; reflexivity|]. exact (IH n x H). Qed.
Lemma firstn_nth {X} (l : list X) : forall n x, nth_error l n = Some x -> firstn (S n) l = (firstn n l ++ [x])%list.
Proof.
  induction l as [|y l IH]; intros [|n] x H; cbn in H; try discriminate; [injection H as <-; reflexivity|].
  cbn [app firstn]. f_equal. exact (IH n x H).
Qed.
Lemma log_inv jobs s sched p : let f := log_file p in dirs s (dirname f) = true ->
  (exists tagged : list (nat * list nat),
    bytes (files (w_fs (run sched (start jobs s))) f) = (bytes (files s f) ++ concat (map snd tagged))%list /\
    forall i, map snd (filter (fun x => (fst x =? i)%nat) tagged) = own_lines jobs f i (steps_of i sched)) /\
  forall i j, nth_error jobs i = Some j -> log_file (j_path j) = f ->
    let n := steps_of i sched in let rest := w_rest (run sched (start jobs s)) i in
    ((n < List.length (j_lines j))%nat /\ rest = (map (Append f) (skipn n (j_lines j)) ++ saves j)%list) \/
    ((List.length (j_lines j) <= n)%nat /\ forall o, In o rest -> In o (saves j)).
Proof.
  intros f Df. induction sched as [|k sched IH] using rev_ind.
  - split.
    + exists []. cbn. split; [rewrite app_nil_r; reflexivity|]. intros i. unfold own_lines. destruct (nth_error jobs i) as [j|]; [|reflexivity].
      destruct (String.eqb _ f); reflexivity.
    + intros i j Hj Hf. cbn. rewrite Hj. unfold fit_ops. rewrite Hf. fold (saves j).
      destruct (j_lines j) as [|l t]; [right; split; [cbn; lia|auto]|left; split; [cbn; lia|reflexivity]].
  - destruct IH as [(tagged & T1 & T2) IR]. rewrite run_snoc.
    assert (Inc := run_rest_incl sched jobs s k). assert (Dw := run_dirs sched (start jobs s)).
    set (w := run sched (start jobs s)) in *. cbn [start w_fs] in Dw.
    assert (St : forall i, steps_of i (sched ++ [k])%list = (steps_of i sched + if (i =? k)%nat then 1 else 0)%nat).
    { intros i. rewrite steps_app. f_equal. exact (steps_repeat i k 1). }
    (* is this step a log entry in f? *)
    assert (Cases :
      (exists j l, nth_error jobs k = Some j /\ log_file (j_path j) = f /\ (steps_of k sched < List.length (j_lines j))%nat /\
        nth_error (j_lines j) (steps_of k sched) = Some l /\
        w_rest w k = Append f l :: (map (Append f) (skipn (S (steps_of k sched)) (j_lines j)) ++ saves j)%list) \/
      ((forall o, In o (w_rest w k) -> target o <> f) /\
       forall j, nth_error jobs k = Some j -> log_file (j_path j) = f -> (List.length (j_lines j) <= steps_of k sched)%nat)).
    { destruct (nth_error jobs k) as [j|] eqn:Ej.
      - destruct (string_dec (log_file (j_path j)) f) as [Ef|Nf].
        + destruct (IR k j Ej Ef) as [[L R]|[L R]].
          * left. destruct (nth_error (j_lines j) (steps_of k sched)) as [l|] eqn:El.
            2:{ apply nth_error_None in El. lia. }
            exists j, l. repeat split; auto. rewrite R.
            rewrite (skipn_nth _ _ _ El). reflexivity.
          * right. split; [|intros j' Hj' _; injection Hj' as <-; auto]. intros o Ho Et. apply R in Ho. apply saves_target in Ho.
            rewrite Et in Ho. apply log_not_saved in Ho. auto.
        + right. split; [|intros j' Hj' Hf; injection Hj' as <-; congruence]. intros o Ho Et.
          destruct (Inc o Ho) as (j' & Hj' & Ho'). injection Hj' as <-. apply fit_ops_target in Ho'. rewrite Et in Ho'.
          destruct Ho' as [E|E]; [apply Nf; symmetry; exact E|]. apply log_not_saved in E. auto.
      - right. split; [|discriminate]. intros o Ho. destruct (Inc o Ho) as (j' & Hj' & _). discriminate. }
    split.
    + destruct Cases as [(j & l & Ej & Ef & L & El & R)|[N Ln]].
      * exists (tagged ++ [(k, l)])%list. unfold step. rewrite R. cbn [exec]. rewrite Dw, Df. cbn [w_fs set_file files].
        rewrite String.eqb_refl. cbn [bytes]. split.
        -- rewrite T1, map_app, concat_app. cbn. rewrite app_nil_r, app_assoc. reflexivity.
        -- intros i. rewrite filter_app, map_app, T2, St. cbn [filter fst]. destruct (Nat.eqb_spec k i) as [<-|Ni].
           ++ rewrite Nat.eqb_refl. unfold own_lines. rewrite Ej. change (j_path j ++ "training.log") with (log_file (j_path j)). rewrite (proj2 (String.eqb_eq _ _) Ef). cbn [map snd].
              rewrite Nat.add_1_r. symmetry. apply firstn_nth. auto.
           ++ rewrite (proj2 (Nat.eqb_neq i k)) by auto. cbn. rewrite app_nil_r, Nat.add_0_r. reflexivity.
      * exists tagged. split.
        -- rewrite <- T1. unfold step. destruct (w_rest w k) as [|o rest] eqn:Eo; [reflexivity|].
           destruct (exec o (w_fs w)) as [s'|] eqn:Ex; [|reflexivity]. cbn. f_equal. apply (exec_other _ _ _ _ Ex).
           intros E. apply (N o); [left; auto|auto].
        -- intros i. rewrite T2, St. destruct (Nat.eqb_spec i k) as [->|Ni]; [|rewrite Nat.add_0_r; reflexivity].
           unfold own_lines. destruct (nth_error jobs k) as [j|] eqn:Ej; [|reflexivity].
           change (j_path j ++ "training.log") with (log_file (j_path j)). destruct (String.eqb_spec (log_file (j_path j)) f) as [Ef|]; [|reflexivity].
           specialize (Ln j eq_refl Ef). rewrite !firstn_all2 by lia. reflexivity.
    + intros i j Hj Hf. cbv zeta. rewrite St. destruct (Nat.eqb_spec i k) as [->|Ni].
      2:{ rewrite step_rest by auto. rewrite Nat.add_0_r. apply IR; auto. }
      destruct Cases as [(j' & l & Ej & _ & L & El & R)|[N Ln]].
      * rewrite Hj in Ej. injection Ej as <-.
        assert (E : w_rest (step k w) k = (map (Append f) (skipn (S (steps_of k sched)) (j_lines j)) ++ saves j)%list).
        { unfold step. rewrite R. cbn [exec]. rewrite Dw, Df. cbn. rewrite Nat.eqb_refl. reflexivity. }
        rewrite E. rewrite Nat.add_1_r. destruct (le_lt_dec (List.length (j_lines j)) (S (steps_of k sched))) as [G|G].
        -- right. split; [auto|]. rewrite skipn_all2 by auto. auto.
        -- left. auto.
      * right. specialize (Ln j Hj Hf). split; [lia|]. intros o Ho.
        assert (Hin : In o (w_rest w k)).
        { destruct (step_own k w) as [E|E]; rewrite E in Ho; [|destruct Ho]. destruct (w_rest w k); [destruct Ho|right; auto]. }
        destruct (IR k j Hj Hf) as [[L _]|[_ R]]; [lia|auto].
Qed.

(** Without the directory nothing is logged. *)
Lemma log_absent jobs s sched f : dirs s (dirname f) = false -> (forall j, In j jobs -> ~ In f (saved_files (j_path j))) ->
  files (w_fs (run sched (start jobs s))) f = files s f.
Proof.
  intros Df N. induction sched as [|k sched IH] using rev_ind; [reflexivity|]. rewrite run_snoc, <- IH.
  assert (Inc := run_rest_incl sched jobs s k). assert (Dw := run_dirs sched (start jobs s)).
  set (w := run sched (start jobs s)) in *. unfold step. destruct (w_rest w k) as [|o rest] eqn:Eo; [reflexivity|].
  destruct (exec o (w_fs w)) as [s'|] eqn:Ex; [|reflexivity]. cbn. apply (exec_other _ _ _ _ Ex). intros E.
  destruct (Inc o (or_introl eq_refl)) as (j & Hj & Ho). unfold fit_ops in Ho. fold (saves j) in Ho. rewrite in_app_iff in Ho.
  destruct Ho as [Ho|Ho].
  - apply in_map_iff in Ho. destruct Ho as (l & <- & _). cbn in Ex, E. rewrite <- E, Dw in Ex. cbn in Ex. rewrite Df in Ex. discriminate.
  - apply saves_target in Ho. rewrite <- E in Ho. apply (N j); auto. eapply nth_error_In; eauto.
Qed.

(** ** The constructor *)
Lemma substring_prefix a b : String.substring 0 (String.length a) (a ++ b) = a.
Proof. induction a as [|c a IH]; [destruct b; reflexivity|]. cbn. rewrite IH. reflexivity. Qed.
Lemma strip_of path q : as_directory path = q ++ "/" -> strip_slash path = q.
Proof.
  unfold as_directory, strip_slash. destruct (String.eqb_spec path "") as [->|N].
  - intros H. destruct q; discriminate.
  - destruct (ends_with_slash path).
    + intros ->. rewrite append_length. cbn [String.length]. rewrite Nat.add_sub. apply substring_prefix.
    + intros H. apply append_inj_r in H. auto.
Qed.
Lemma directory_named path : path <> "" -> exists q, as_directory path = q ++ "/".
Proof.
  intros N. unfold as_directory. rewrite (proj2 (String.eqb_neq path "") N). destruct (ends_with_slash path) eqn:E; [|eauto].
  clear N. revert E. induction path as [|c p IH]; [discriminate|].
  intros E. destruct p as [|c' p'].
  - cbn in E. apply Ascii.eqb_eq in E. subst c. exists "". reflexivity.
  - destruct IH as (q & Hq); [rewrite ends_with_slash_cons in E by discriminate; exact E|].
    exists (String c q). cbn [append]. rewrite <- Hq. reflexivity.
Qed.
