(** C128: running the scripts. *)
From Coq Require Import String List Arith Bool Lia.
From Verif Require Import ScriptModel ScriptProofs.
Import ListNotations.
Local Open Scope string_scope.

(** scripts/developing.py never runs to its end, whatever is installed and
    whatever its experiments do: verify_independence_pattern_GP is never defined
    (its return annotation uses a name that is not imported), and nothing after
    its definition - the example usage - is ever executed. *)
Theorem C128_developing_refuted : forall w,
  let '(done, final, e) := run_script w developing builtins in
  (exists l x, e = Raised l x /\ l <= 756) /\ ~ In "verify_independence_pattern_GP" final /\ (forall l, In l done -> l < 756).
Proof.
  intro w.
  pose proof (run_blocked w (nth 30 developing (Exec 0 [] [])) (skipn 31 developing) (firstn 30 developing) builtins) as H.
  change (firstn 30 developing ++ nth 30 developing (Exec 0 [] []) :: skipn 31 developing)%list with developing in H.
  destruct (run_script w developing builtins) as [[done final] e]. destruct H as (H1 & H2 & l & x & -> & H3).
  { intros ns' I. change (nth 30 developing (Exec 0 [] [])) with (Def 756 "verify_independence_pattern_GP" ["np"; "int"; "str"; "Tuple"; "float"]).
    cbn [step]. destruct (missing_In ns' "Tuple" ["np"; "int"; "str"; "Tuple"; "float"]) as [y ->]; [cbn; auto| |eauto].
    intro J. apply I in J. apply member_In in J. revert J. vm_compute. discriminate. }
  split; [|split].
  - exists l, x. split; [reflexivity|]. revert H3. cbn. intro H3. repeat (destruct H3 as [<-|H3]; [lia|]). destruct H3.
  - intro J. apply H2, member_In in J. revert J. vm_compute. discriminate.
  - intros n J. apply H1 in J. revert J. cbn. intro J. repeat (destruct J as [<-|J]; [lia|]). destruct J.
Qed.
Print Assumptions C128_developing_refuted.

(** If everything can be imported and the experiments of lines 336 and 613 return,
    the run ends in line 756 with NameError: Tuple; all functions before it are defined. *)
Theorem C128_developing_ends : forall w,
  (forall m, loads w m = true) -> raises w 336 = false -> raises w 613 = false ->
  (forall m xs l, In (From l m xs) developing -> of_medil m = false -> exists ns, provides w m = Some ns /\ incl (map fst xs) ns) ->
  (forall m x l, In (Import l m x) developing -> exists ns, provides w m = Some ns) ->
  exists done final, run_script w developing builtins = (done, final, Raised 756 (NameErr "Tuple")) /\
  done = map line_of (firstn 30 developing) /\
  In "generate_dataset" final /\ In "verify_independence_pattern" final /\ In "benchmark_graphs_deep_dive_kfold" final.
Proof.
  intros w HL H1 H2 HF HI.
  assert (M : forall ns x, In x ns -> member x ns = true) by (intros; now apply member_In).
  (* run statement by statement *)
  unfold developing.
  repeat match goal with
  | |- context [run_script w (Import ?l ?m ?x :: ?t) ?ns] =>
      let E := fresh "E" in let ns0 := fresh "ns0" in
      destruct (HI m x l) as [ns0 E]; [cbn; tauto|];
      change (run_script w (Import l m x :: t) ns) with
        (match step w (Import l m x) ns with
         | inr y => ([], ns, Raised l y)
         | inl ns' => let '(done, final, e) := run_script w t ns' in (l :: done, final, e) end);
      replace (step w (Import l m x) ns) with (inl (x :: ns) : list string + failure)
        by (unfold step, exports; change (of_medil m) with false; cbn iota; now rewrite E); cbn iota
  | |- context [run_script w (From ?l ?m ?xs :: ?t) ?ns] =>
      change (run_script w (From l m xs :: t) ns) with
        (match step w (From l m xs) ns with
         | inr y => ([], ns, Raised l y)
         | inl ns' => let '(done, final, e) := run_script w t ns' in (l :: done, final, e) end);
      replace (step w (From l m xs) ns) with (inl (map snd xs ++ ns)%list : list string + failure)
        by (first
          [ unfold step, exports; change (of_medil m) with true; rewrite HL; reflexivity
          | let E := fresh "E" in let I := fresh "I" in let ns0 := fresh "ns0" in
            destruct (HF m xs l) as (ns0 & E & I); [cbn; tauto|reflexivity|];
            unfold step, exports; change (of_medil m) with false; cbn iota; rewrite E; rewrite missing_none by (exact I); reflexivity ]); cbn iota
  | |- context [run_script w (Exec ?l ?u ?b :: ?t) ?ns] =>
      change (run_script w (Exec l u b :: t) ns) with
        (match step w (Exec l u b) ns with
         | inr y => ([], ns, Raised l y)
         | inl ns' => let '(done, final, e) := run_script w t ns' in (l :: done, final, e) end);
      replace (step w (Exec l u b) ns) with (inl (b ++ ns)%list : list string + failure)
        by (unfold step; (replace (missing ns u) with (@None string) by reflexivity); rewrite ?H1, ?H2; reflexivity); cbn iota
  | |- context [run_script w (Def ?l ?f [] :: ?t) ?ns] =>
      change (run_script w (Def l f [] :: t) ns) with
        (let '(done, final, e) := run_script w t (f :: ns) in (l :: done, final, e))
  end.
  cbn [run_script step line_of]. 
  match goal with |- context [missing ?ns ?l] => replace (missing ns l) with (Some "Tuple") by reflexivity end.
  eexists _, _. split; [reflexivity|]. split; [reflexivity|]. cbn [map snd app In]. repeat split; tauto.
Qed.
Print Assumptions C128_developing_ends.
Example C128_hypotheses_met : exists w,
  (forall m, loads w m = true) /\ raises w 336 = false /\ raises w 613 = false /\
  (forall m xs l, In (From l m xs) developing -> of_medil m = false -> exists ns, provides w m = Some ns /\ incl (map fst xs) ns) /\
  (forall m x l, In (Import l m x) developing -> exists ns, provides w m = Some ns).
Proof.
  exists (World (fun _ => Some ["KFold"; "pdist"; "squareform"; "multivariate_normal"]) (fun _ => true) (fun _ => false)).
  repeat split; cbn [provides].
  - intros m xs l I O. eexists. split; [reflexivity|]. intros y Hy. cbn in I.
    repeat match type of I with _ \/ _ => destruct I as [I|I]; [try discriminate; injection I as <- <- <-; try discriminate O; cbn in Hy |- *; tauto|] end.
    destruct I.
  - intros. eauto.
Qed.

(** scripts/pgm_demo.py fails in line 2, 3 or 4: it imports a module the package
    does not have.  It writes no measurement_data.npy (line 29) and shows nothing. *)
Theorem C128_pgm_demo_refuted : forall w,
  let '(done, final, e) := run_script w pgm_demo builtins in
  (exists l m, e = Raised l (ImportErr m) /\ l <= 4) /\ (forall l, In l done -> l <= 3) /\
  (provides w "numpy" <> None -> loads w "medil.examples" = true -> e = Raised 4 (ImportErr "medil.functional_MCM")).
Proof.
  intro w. unfold pgm_demo. cbn [run_script step line_of].
  change (exports w "numpy") with (provides w "numpy"). destruct (provides w "numpy") as [ns|].
  2:{ split; [exists 2, "numpy"; auto|]. split; [intros l []|]. congruence. }
  unfold exports at 1. change (of_medil "medil.examples") with true. cbn iota.
  destruct (loads w "medil.examples").
  2:{ split; [exists 3, "medil.examples"; auto|]. split; [intros l [<-|[]]; lia|]. discriminate. }
  match goal with |- context [assoc medil_names "medil.examples"] => let r := eval vm_compute in (assoc medil_names "medil.examples") in
    replace (assoc medil_names "medil.examples") with r by reflexivity end.
  cbn iota. match goal with |- context [missing ?a ?b] => replace (missing a b) with (@None string) by reflexivity end. cbn iota.
  replace (exports w "medil.functional_MCM") with (@None (list string)).
  2:{ unfold exports. change (of_medil "medil.functional_MCM") with true. cbn iota. destruct (loads w _); reflexivity. }
  cbn iota. split; [exists 4, "medil.functional_MCM"; auto|]. split; [intros l [<-|[<-|[]]]; lia|reflexivity].
Qed.
Print Assumptions C128_pgm_demo_refuted.

(** What can be said for developing.py: all names it takes from medil exist, and
    every function it defines before line 756 can be defined in any state. *)
Theorem C128_imports_from_medil_partial : forall w l m xs, In (From l m xs) developing -> of_medil m = true ->
  loads w m = true -> exists ns, exports w m = Some ns /\ incl (map fst xs) ns.
Proof.
  intros w l m xs I O L. unfold exports. rewrite O, L. cbn in I.
  repeat match type of I with _ \/ _ => destruct I as [I|I];
    [try discriminate; injection I as <- <- <-; try discriminate O;
     (eexists; split; [vm_compute; reflexivity|]); intros y Hy; cbn in Hy |- *; tauto|] end.
  destruct I.
Qed.
Print Assumptions C128_imports_from_medil_partial.
