(** C100: models do not influence each other through the random generator. *)
From Coq Require Import Lra.
From Verif Require Import Base RSum GaussModel RngModel RngSpec RngProofs.
Local Open Scope R_scope.

Definition fresh {G} (gens : nat -> gstate G) : world G := World gens (fun _ => None).

(** A model that was given a generator no other model has: whatever is done to
    other models in between, the calls on it return what they would return on
    their own. *)
Theorem C100_own_generator_partial :
  forall (G : generator) (gens : nat -> gstate G) o r h, (forall a, In a h -> respects o r a) ->
  outputs_of o h (fresh gens) = outputs (filter (about o) h) (fresh gens).
Proof.
  intros G gens o r h Hh. apply (own_generator o r); auto.
  assert (Ho : owns (fresh gens) o r) by (split; intros; discriminate).
  split; [reflexivity|]. split; [reflexivity|]. auto.
Qed.
Print Assumptions C100_own_generator_partial.

(** Models made without a generator, and all models made by sample.mcm, draw
    from one and the same generator: the second model's sample continues where
    the first one's stopped. *)
Theorem C100_default_is_shared :
  forall (G : generator) (gens : nat -> gstate G) ma mb n n',
  outputs [MakeMcm 0 ma; MakeMcm 1 mb; SampleOf 0 n'; SampleOf 1 n] (fresh gens) =
  [Done; Done; Sampled (snd (sample_from G (gens 0%nat) n' ma));
   Sampled (snd (sample_from G (fst (sample_from G (gens 0%nat) n' ma)) n mb))].
Proof.
  intros. cbn -[sample_from]. unfold default_rng. destruct (sample_from G (gens 0%nat) n' ma) as [s1 x1]. cbn -[sample_from].
  destruct (sample_from G s1 n mb) as [s2 x2]. reflexivity.
Qed.
Print Assumptions C100_default_is_shared.

(** So sampling one model changes the sample of another, and the same program
    text run twice gives two different samples. *)
Definition counter : generator := Generator nat (fun s n mean var => (fun _ _ => INR s, S s)).
Definition one_model : gauss := Gauss [[true]] [] None [0] [1] [[1]].
Theorem C100_shared_generator_refuted :
  exists (G : generator) (gens : nat -> gstate G) ma mb n,
  (exists D, outputs_of 1 [MakeMcm 0 ma; MakeMcm 1 mb; SampleOf 1 n] (fresh gens) = [Done; Sampled (Ok D)]) /\
  outputs_of 1 [MakeMcm 0 ma; MakeMcm 1 mb; SampleOf 0 n; SampleOf 1 n] (fresh gens) <>
  outputs_of 1 [MakeMcm 0 ma; MakeMcm 1 mb; SampleOf 1 n] (fresh gens).
Proof.
  exists counter, (fun _ => 0%nat), one_model, one_model, 1%nat. split; [eexists; reflexivity|].
  cbn. intros H. injection H as H. unfold rs in H. cbn in H. lra.
Qed.
Print Assumptions C100_shared_generator_refuted.

(** What one call of sample takes from the generator: the latents, standard
    normal, one per row of biadj, then the errors with the model's means and
    variances; the sample is latents times weights plus errors. *)
Theorem C100_two_draws_per_sample :
  forall (G : generator) (w : world G) o m r n, w_objs w o = Some (m, r) ->
  let k := length (g_biadj m) in let p := length (g_means m) in
  (0 < p)%nat -> length (g_weights m) = k -> (forall row, In row (g_weights m) -> length row = p) ->
  let draw1 := mvn G (w_gens w r) n (repeat 0 k) (repeat 1 k) in
  (length (g_variances m) = p ->
   let draw2 := mvn G (snd draw1) n (g_means m) (g_variances m) in
   exists D, snd (act (SampleOf o n) w) = Sampled (Ok D) /\
     w_gens (fst (act (SampleOf o n) w)) r = snd draw2 /\
     (forall r', r' <> r -> w_gens (fst (act (SampleOf o n) w)) r' = w_gens w r') /\
     length D = n /\ (forall row, In row D -> length row = p) /\
     forall s j, (s < n)%nat -> (j < p)%nat ->
       nth j (nth s D []) 0 = rs (seq 0 k) (fun i => fst draw1 s i * nth j (nth i (g_weights m) []) 0) + fst draw2 s j) /\
  (length (g_variances m) <> p ->
     snd (act (SampleOf o n) w) = Sampled (Err ValueError) /\ w_gens (fst (act (SampleOf o n) w)) r = snd draw1).
Proof.
  intros G w o m r n Ho k p Hp Lw Lr draw1. unfold act. rewrite Ho. unfold sample_from. fold k. fold draw1.
  destruct draw1 as [L s1] eqn:E1. cbn [fst snd]. fold p. split.
  - intros Lv. rewrite (proj2 (Nat.eqb_eq _ _) Lv). cbn [negb].
    destruct (mvn G s1 n (g_means m) (g_variances m)) as [E s2] eqn:E2. cbn zeta. cbn [fst snd].
    unfold sample. fold p k. rewrite (proj2 (Nat.eqb_eq _ _) Lv), (proj2 (Nat.eqb_eq _ _) Lw).
    destruct (Nat.eqb_spec p 0) as [|_]; [lia|].
    replace (forallb (fun row : list R => (length row =? p)%nat) (g_weights m)) with true.
    2:{ symmetry. apply forallb_forall. intros row Hr. apply Nat.eqb_eq. auto. }
    cbn [negb orb]. eexists. split; [reflexivity|]. split; [cbn; rewrite Nat.eqb_refl; auto|].
    split; [intros r' N; cbn; destruct (Nat.eqb_spec r' r); [congruence|auto]|].
    split; [apply length_mk|]. split.
    + intros row Hr. unfold mk in Hr. apply in_map_iff in Hr. destruct Hr as (i & <- & _). rewrite map_length, seq_length. auto.
    + intros s j Hs Hj. change (nth j (nth s ?D []) 0) with (getd 0 D s j). rewrite getd_mk by auto. reflexivity.
  - intros Lv. rewrite (proj2 (Nat.eqb_neq _ _) Lv). cbn. rewrite Nat.eqb_refl. auto.
Qed.
Print Assumptions C100_two_draws_per_sample.

(** Two models with generators of their own, interleaved. *)
Example C100_instance :
  let h := [Make 0 [[true]] [] (Some 1%nat); Make 1 [[true]] [] (Some 2%nat); SampleOf 1 3; SampleOf 0 2; SampleOf 1 1] in
  (forall a, In a h -> respects 0 1 a) /\ filter (about 0) h = [Make 0 [[true]] [] (Some 1%nat); SampleOf 0 2].
Proof. cbn. split; [intros a [<-|[<-|[<-|[<-|[<-|[]]]]]]; cbn; auto|reflexivity]. Qed.
Example C100_two_draws_instance :
  let w := set_obj (fresh (G := counter) (fun _ => 0%nat)) 0 (one_model, 0%nat) in
  w_objs w 0 = Some (one_model, 0%nat) /\ length (g_weights one_model) = length (g_biadj one_model) /\
  length (g_variances one_model) = length (g_means one_model).
Proof. cbn. auto. Qed.
