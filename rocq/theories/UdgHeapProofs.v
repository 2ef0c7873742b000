(** Lemmas about programs that use graph objects. *)
From Verif Require Import Base Spec GraphModel GraphProofs EccModel HeapModel UdgHeapModel UdgHeapSpec.

Lemma nth_error_upd_same {A} (l : list A) g x y : nth_error l g = Some y -> nth_error (upd l g x) g = Some x.
Proof. revert g. induction l as [|a l IH]; intros [|g] H; try discriminate; cbn in *; auto. Qed.
Lemma nth_error_upd_other {A} (l : list A) g g' x : g <> g' -> nth_error (upd l g x) g' = nth_error l g'.
Proof. revert g g'. induction l as [|a l IH]; intros [|g] [|g'] H; cbn; auto; try congruence. Qed.

Lemma make_auxG_fields orc h x : let x' := fst (make_auxG orc h x) in ug_arr x' = ug_arr x /\ ug_nv x' = ug_nv x /\ ug_max x' = ug_max x /\ ug_ne x' = ug_ne x.
Proof. unfold make_auxG. destruct (edge_indices _ _); destruct (ug_max x) eqn:E; cbn; rewrite ?E; auto. Qed.
Lemma copy_fields orc h x : let x' := fst (reducible_copyG orc h x) in ug_arr x' = ug_arr x /\ ug_nv x' = ug_nv x /\ ug_max x' = ug_max x /\ ug_ne x' = ug_ne x.
Proof.
  unfold reducible_copyG. pose proof (make_auxG_fields orc h x) as H. destruct (ug_aux x) as [u|] eqn:E.
  - rewrite E. destruct (ua_cnt u); cbn; auto.
  - destruct (make_auxG orc h x) as [x' [r|e]]; cbn [fst] in *; [|auto]. destruct (ug_aux x') as [u|]; [destruct (ua_cnt u)|]; auto.
Qed.

Lemma step_keeps s o g x : nth_error (snd s) g = Some x ->
  exists x', nth_error (snd (ustep s o)) g = Some x' /\ ug_arr x' = ug_arr x /\ ug_max x' = ug_max x /\ ug_nv x' = ug_nv x /\
    (~ touches s g o -> hb (fst (ustep s o)) (ug_arr x) = hb (fst s) (ug_arr x) /\ ug_ne x' = ug_ne x).
Proof.
  intros E. destruct s as [h gs]. cbn [snd fst] in *. unfold touches. cbn [snd fst]. rewrite E. destruct o as [arr|b g' es|g' orc|g' orc|arr M]; cbn [ustep].
  - exists x. cbn [snd fst]. rewrite nth_error_app1 by (apply nth_error_Some; congruence). auto 6.
  - destruct (nth_error gs g') as [y|] eqn:Ey; [|exists x; cbn; auto 6]. cbn [edit_edges snd fst]. destruct (Nat.eq_dec g' g) as [->|N].
    + rewrite E in Ey. injection Ey as <-. eexists. split; [eapply nth_error_upd_same; eauto|]. cbn [ug_arr ug_max ug_nv ug_ne]. repeat (split; [reflexivity|]). intros T. exfalso. apply T. reflexivity.
    + exists x. rewrite nth_error_upd_other by auto. repeat (split; auto). cbn. rewrite (proj2 (Nat.eqb_neq (ug_arr x) (ug_arr y))) by congruence. auto.
  - destruct (nth_error gs g') as [y|] eqn:Ey; [|exists x; cbn; auto 6]. cbn [snd fst]. destruct (Nat.eq_dec g' g) as [->|N].
    + rewrite E in Ey. injection Ey as <-. eexists. split; [eapply nth_error_upd_same; eauto|]. destruct (make_auxG_fields orc h x) as (H1 & H2 & H3 & H4). auto 6.
    + exists x. rewrite nth_error_upd_other by auto. auto 6.
  - destruct (nth_error gs g') as [y|] eqn:Ey; [|exists x; cbn; auto 6]. cbn [snd fst]. destruct (Nat.eq_dec g' g) as [->|N].
    + rewrite E in Ey. injection Ey as <-. eexists. split; [eapply nth_error_upd_same; eauto|]. destruct (copy_fields orc h x) as (H1 & H2 & H3 & H4). auto 6.
    + exists x. rewrite nth_error_upd_other by auto. auto 6.
  - exists x. cbn [snd fst]. repeat (split; auto). cbn. rewrite (proj2 (Nat.eqb_neq (ug_arr x) arr)) by auto. auto.
Qed.

Lemma run_untouched : forall os s g x, nth_error (snd s) g = Some x -> untouched s g os ->
  exists x', nth_error (snd (urun s os)) g = Some x' /\ ug_arr x' = ug_arr x /\ ug_max x' = ug_max x /\ ug_ne x' = ug_ne x /\
    hb (fst (urun s os)) (ug_arr x) = hb (fst s) (ug_arr x).
Proof.
  induction os as [|o os IH]; intros s g x E U; [exists x; cbn; auto|]. cbn [untouched] in U. destruct U as [U1 U2].
  destruct (step_keeps s o g x E) as (x1 & E1 & A1 & M1 & V1 & H1). destruct (H1 U1) as [B1 N1].
  destruct (IH (ustep s o) g x1 E1 U2) as (x' & E' & A' & M' & N' & B'). exists x'. unfold urun in *. cbn [fold_left].
  split; [exact E'|]. split; [congruence|]. split; [congruence|]. split; [congruence|]. rewrite <- A1, B', A1. exact B1.
Qed.

(** ** Auxiliary structure *)
Definition current (n : nat) (M : bmat) (u : uaux) : Prop :=
  ua_cn u = common_neighbors n M /\
  ua_cnt u = Some (map (fun i => nbrhood_count n M (get (common_neighbors n M) i)) (seq 0 (length (upper_pairs n)))) /\
  exists orc, ua_ext u = shuffle orc (edge_indices n M).

Lemma make_auxG_current orc h x : edge_indices (ug_max x) (hb h (ug_arr x)) <> [] ->
  exists u, ug_aux (fst (make_auxG orc h x)) = Some u /\ snd (make_auxG orc h x) = Ok tt /\ current (ug_max x) (hb h (ug_arr x)) u.
Proof.
  intros N. unfold make_auxG. destruct (edge_indices _ _) as [|i l] eqn:E; [contradiction|].
  eexists. split; [reflexivity|]. split; [reflexivity|]. split; [reflexivity|]. split; [reflexivity|]. exists orc. cbn. rewrite E. reflexivity.
Qed.

Lemma run_current : forall os s g x u, nth_error (snd s) g = Some x -> ug_aux x = Some u -> current (ug_max x) (hb (fst s) (ug_arr x)) u ->
  edge_indices (ug_max x) (hb (fst s) (ug_arr x)) <> [] -> untouched s g os ->
  exists x' u', nth_error (snd (urun s os)) g = Some x' /\ ug_aux x' = Some u' /\ ug_arr x' = ug_arr x /\ ug_max x' = ug_max x /\ ug_ne x' = ug_ne x /\ ug_nv x' = ug_nv x /\
    hb (fst (urun s os)) (ug_arr x) = hb (fst s) (ug_arr x) /\ current (ug_max x) (hb (fst s) (ug_arr x)) u'.
Proof.
  induction os as [|o os IH]; intros s g x u E Eu C N U; [exists x, u; cbn; auto 10|]. cbn [untouched] in U. destruct U as [U1 U2].
  destruct (step_keeps s o g x E) as (x1 & E1 & A1 & M1 & V1 & H1). destruct (H1 U1) as [B1 N1].
  assert (X : exists u1, ug_aux x1 = Some u1 /\ current (ug_max x) (hb (fst s) (ug_arr x)) u1).
  { destruct s as [h gs]. cbn [snd fst] in *. destruct o as [arr|b g' es|g' orc|g' orc|arr M]; cbn [ustep] in E1.
    - cbn [snd] in E1. rewrite nth_error_app1 in E1 by (apply nth_error_Some; congruence). rewrite E in E1. injection E1 as <-. eauto.
    - destruct (nth_error gs g') as [y|] eqn:Ey; [|cbn in E1; rewrite E in E1; injection E1 as <-; eauto]. cbn [edit_edges snd] in E1.
      destruct (Nat.eq_dec g' g) as [->|Ng]; [|rewrite nth_error_upd_other in E1 by auto; rewrite E in E1; injection E1 as <-; eauto].
      exfalso. apply U1. unfold touches. cbn [snd]. rewrite E. reflexivity.
    - destruct (nth_error gs g') as [y|] eqn:Ey; [|cbn in E1; rewrite E in E1; injection E1 as <-; eauto]. cbn [snd] in E1.
      destruct (Nat.eq_dec g' g) as [->|Ng]; [|rewrite nth_error_upd_other in E1 by auto; rewrite E in E1; injection E1 as <-; eauto].
      rewrite E in Ey. injection Ey as <-. rewrite (nth_error_upd_same _ _ _ _ E) in E1. injection E1 as <-.
      destruct (make_auxG_current orc h x N) as (u1 & H & _ & C1). eauto.
    - destruct (nth_error gs g') as [y|] eqn:Ey; [|cbn in E1; rewrite E in E1; injection E1 as <-; eauto]. cbn [snd] in E1.
      destruct (Nat.eq_dec g' g) as [->|Ng]; [|rewrite nth_error_upd_other in E1 by auto; rewrite E in E1; injection E1 as <-; eauto].
      rewrite E in Ey. injection Ey as <-. rewrite (nth_error_upd_same _ _ _ _ E) in E1. injection E1 as <-.
      unfold reducible_copyG. rewrite Eu. rewrite Eu. destruct (ua_cnt u); cbn; eauto.
    - cbn in E1. rewrite E in E1. injection E1 as <-. eauto. }
  destruct X as (u1 & Eu1 & C1).
  destruct (IH (ustep s o) g x1 u1 E1 Eu1) as (x' & u' & E' & Eu' & A' & M' & N' & V' & B' & C'); [rewrite M1, A1, B1; auto|rewrite M1, A1, B1; auto|auto|].
  rewrite M1, A1, B1 in *. exists x', u'. unfold urun in *. cbn [fold_left]. split; [exact E'|]. split; [exact Eu'|]. split; [congruence|]. split; [congruence|]. split; [congruence|]. split; [congruence|]. split; [exact B'|exact C'].
Qed.

Lemma copy_current orc h x u cnt : ug_aux x = Some u -> ua_cnt u = Some cnt ->
  snd (reducible_copyG orc h x) = Ok (GS (hb h (ug_arr x)) (ug_nv x) (ug_ne x) (ua_cn u) cnt (ua_ext u) None None 0%Z false []).
Proof. intros E1 E2. unfold reducible_copyG. rewrite E1, E1, E2. reflexivity. Qed.
