From Verif Require Import Base RSum GaussModel RngModel RngSpec.

Definition sim {G} (o r : nat) (w w' : world G) : Prop :=
  w_objs w o = w_objs w' o /\ w_gens w r = w_gens w' r /\ owns w o r /\ owns w' o r.

Lemma owns_act {G} (w : world G) o r a : owns w o r -> respects o r a -> owns (fst (act a w)) o r.
Proof.
  intros [H1 H2] Ha. destruct a as [o' B M rng|o' m|o' e d|o' n]; cbn [act fst respects] in *.
  - split; cbn [set_obj w_objs]; intros.
    + destruct (Nat.eqb_spec o o') as [->|Hne].
      * rewrite Nat.eqb_refl in Ha. inversion H; subst. auto.
      * eapply H1; eauto.
    + destruct (Nat.eqb_spec o'0 o') as [->|Hne].
      * inversion H0; subst. destruct (Nat.eqb_spec o' o); [congruence|auto].
      * eapply H2; eauto.
  - split; cbn [set_obj w_objs]; intros.
    + destruct (Nat.eqb_spec o o') as [->|Hne].
      * rewrite Nat.eqb_refl in Ha. inversion H; subst. auto.
      * eapply H1; eauto.
    + destruct (Nat.eqb_spec o'0 o') as [->|Hne].
      * inversion H0; subst. destruct (Nat.eqb_spec o' o); [congruence|auto].
      * eapply H2; eauto.
  - destruct (w_objs w o') as [[m q]|] eqn:Eo; [|split; auto].
    destruct (fit e d m) as [[m' x]|]; [|split; auto]. cbn [fst].
    split; cbn [set_obj w_objs]; intros.
    + destruct (Nat.eqb_spec o o') as [->|Hne]; [|eapply H1; eauto]. inversion H; subst. eapply H1; eauto.
    + destruct (Nat.eqb_spec o'0 o') as [->|Hne]; [|eapply H2; eauto]. inversion H0; subst. eapply H2; eauto.
  - destruct (w_objs w o') as [[m q]|] eqn:Eo; [|split; auto].
    destruct (sample_from G (w_gens w q) n m) as [s' x]. cbn [fst]. split; cbn [set_gen w_objs]; auto.
Qed.

Lemma sim_own {G} (w w' : world G) o r a : sim o r w w' -> respects o r a -> subject a = o ->
  sim o r (fst (act a w)) (fst (act a w')) /\ snd (act a w) = snd (act a w').
Proof.
  intros (E1 & E2 & O1 & O2) Ha Hs.
  assert (Q1 := owns_act w o r a O1 Ha). assert (Q2 := owns_act w' o r a O2 Ha).
  assert (K : w_objs (fst (act a w)) o = w_objs (fst (act a w')) o /\
              w_gens (fst (act a w)) r = w_gens (fst (act a w')) r /\ snd (act a w) = snd (act a w')).
  { destruct a as [o' B M rng|o' m|o' e d|o' n]; cbn [subject] in Hs; subst o'; cbn [act] in *.
    - cbn. rewrite Nat.eqb_refl. auto.
    - cbn. rewrite Nat.eqb_refl. auto.
    - rewrite <- E1. destruct (w_objs w o) as [[m q]|] eqn:Eo; cbn; [|rewrite Eo; auto].
      destruct (fit e d m) as [[m' x]|]; cbn; [rewrite Nat.eqb_refl; auto|rewrite Eo; auto].
    - rewrite <- E1. destruct (w_objs w o) as [[m q]|] eqn:Eo; cbn; [|rewrite Eo; auto].
      assert (q = r) as -> by (eapply O1; eauto). rewrite <- E2.
      destruct (sample_from G (w_gens w r) n m) as [s' x]. cbn. rewrite Nat.eqb_refl, <- E1. auto. }
  destruct K as (K1 & K2 & K3). split; [split; [auto|split; auto]|auto].
Qed.

Lemma sim_other {G} (w w' : world G) o r a : sim o r w w' -> respects o r a -> subject a <> o ->
  sim o r (fst (act a w)) w'.
Proof.
  intros (E1 & E2 & O1 & O2) Ha Hs.
  assert (Q1 := owns_act w o r a O1 Ha).
  assert (K : w_objs (fst (act a w)) o = w_objs w o /\ w_gens (fst (act a w)) r = w_gens w r).
  { destruct a as [o' B M rng|o' m|o' e d|o' n]; cbn [subject] in Hs; cbn [act] in *.
    - cbn. destruct (Nat.eqb_spec o o'); [congruence|auto].
    - cbn. destruct (Nat.eqb_spec o o'); [congruence|auto].
    - destruct (w_objs w o') as [[m q]|] eqn:Eo; cbn; [|auto].
      destruct (fit e d m) as [[m' x]|]; cbn; auto. destruct (Nat.eqb_spec o o'); [congruence|auto].
    - destruct (w_objs w o') as [[m q]|] eqn:Eo; cbn; [|auto].
      assert (Hq : q <> r) by (eapply (proj2 O1); eauto).
      destruct (sample_from G (w_gens w q) n m) as [s' x]. cbn.
      destruct (Nat.eqb_spec r q); [congruence|auto]. }
  destruct K as [K1 K2]. split; [congruence|]. split; [congruence|]. auto.
Qed.

Theorem own_generator {G} (o r : nat) h : forall w w' : world G, sim o r w w' ->
  (forall a, In a h -> respects o r a) ->
  outputs_of o h w = outputs (filter (about o) h) w'.
Proof.
  induction h as [|a h IH]; intros w w' Hsim Hh; [reflexivity|].
  assert (Ha : respects o r a) by (apply Hh; left; auto).
  assert (Hh' : forall b, In b h -> respects o r b) by (intros; apply Hh; right; auto).
  unfold outputs_of. cbn [outputs filter]. destruct (act a w) as [w1 x] eqn:Ew.
  cbn [combine filter fst]. destruct (about o a) eqn:Ea; unfold about in Ea;
    [apply Nat.eqb_eq in Ea|apply Nat.eqb_neq in Ea]; rename Ea into Es.
  - destruct (sim_own w w' o r a Hsim Ha Es) as [S1 S2]. rewrite Ew in S1, S2. cbn [fst snd] in S1, S2.
    cbn [map snd outputs]. destruct (act a w') as [w1' x'] eqn:Ew'. cbn [fst snd] in S1, S2. subst x'. f_equal.
    apply IH; auto.
  - pose proof (sim_other w w' o r a Hsim Ha Es) as S1. rewrite Ew in S1. apply IH; auto.
Qed.
