From Coq Require Import String List Arith Bool.
From Verif Require Import ScriptModel.
Import ListNotations.

Definition binds (s : statement) : list string :=
  match s with Import _ _ x => [x] | From _ _ xs => map snd xs | Def _ f _ => [f] | Exec _ _ b => b end.
Lemma step_binds w s ns ns' : step w s ns = inl ns' -> ns' = (binds s ++ ns)%list.
Proof.
  destruct s; cbn; repeat match goal with |- context [match ?t with _ => _ end] => destruct t end; intro E; try discriminate;
    now injection E as <-.
Qed.
(** If a statement fails in every namespace the statements before it can produce,
    nothing after it is reached. *)
Lemma run_blocked w s post : forall pre ns,
  (forall ns', incl ns' (ns ++ flat_map binds pre) -> exists x, step w s ns' = inr x) ->
  let '(done, final, e) := run_script w (pre ++ s :: post) ns in
  incl done (map line_of pre) /\ incl final (ns ++ flat_map binds pre) /\
  exists l x, e = Raised l x /\ In l (map line_of (pre ++ [s])).
Proof.
  induction pre as [|p pre IH]; intros ns H; cbn [run_script app].
  - destruct (H ns) as [x E]; [cbn; rewrite app_nil_r; apply incl_refl|]. rewrite E. split; [apply incl_nil_l|].
    split; [cbn; rewrite app_nil_r; apply incl_refl|]. exists (line_of s), x. cbn. auto.
  - destruct (step w p ns) as [ns'|x] eqn:E.
    + pose proof (step_binds _ _ _ _ E) as ->. specialize (IH (binds p ++ ns)%list).
      assert (I : forall x, In x ((binds p ++ ns) ++ flat_map binds pre) -> In x (ns ++ flat_map binds (p :: pre))).
      { intros x. cbn. rewrite !in_app_iff. tauto. }
      destruct (run_script w (pre ++ s :: post) (binds p ++ ns)) as [[done final] e]. destruct IH as (I1 & I2 & l & x & -> & I3).
      { intros ns' J. apply H. intros y Hy. apply I, J, Hy. }
      split; [intros y [<-|Hy]; [now left|right; auto]|]. split; [intros y Hy; apply I, I2, Hy|].
      exists l, x. split; [reflexivity|]. cbn. auto.
    + split; [apply incl_nil_l|]. split; [apply incl_appl, incl_refl|]. exists (line_of p), x. cbn. auto.
Qed.
Lemma member_In x l : member x l = true <-> In x l.
Proof.
  unfold member. rewrite existsb_exists. split.
  - intros (y & I & E). apply String.eqb_eq in E. now subst.
  - intro I. exists x. split; [exact I|apply String.eqb_refl].
Qed.
Lemma missing_In ns x names : In x names -> ~ In x ns -> exists y, missing ns names = Some y.
Proof.
  induction names as [|a t IH]; [intros []|]. intros I N. cbn. destruct (member a ns) eqn:E; [|eauto].
  destruct I as [->|I]; [apply member_In in E; contradiction|auto].
Qed.
Lemma missing_first ns x a b : (forall y, In y a -> In y ns) -> ~ In x ns -> missing ns (a ++ x :: b) = Some x.
Proof.
  induction a as [|y t IH]; intros H N; cbn.
  - destruct (member x ns) eqn:E; [apply member_In in E; contradiction|reflexivity].
  - replace (member y ns) with true by (symmetry; apply member_In, H; now left). apply IH; [intros; apply H; now right|exact N].
Qed.
Lemma missing_none ns names : (forall y, In y names -> In y ns) -> missing ns names = None.
Proof.
  induction names as [|a t IH]; intro H; cbn; [reflexivity|].
  replace (member a ns) with true by (symmetry; apply member_In, H; now left). apply IH. intros; apply H; now right.
Qed.
