From Verif Require Import Base Spec SpecDec MaxCliquesModel MaxCliquesProofs GraphModel GraphProofs EccModel EccTests Explore.
Local Open Scope Z_scope.

Lemma bindl_in {A B} (f : A -> option (list B)) l L a : bindl f l = Some L -> In a l ->
  exists x, f a = Some x /\ incl x L.
Proof.
  revert L. induction l as [|b l IH]; intros L H I; [destruct I|]. cbn in H.
  destruct (f b) as [x|] eqn:E; [|discriminate]. destruct (bindl f l) as [y|]; [|discriminate]. injection H as <-.
  destruct I as [<-|I].
  - exists x. split; [exact E|]. intros z Hz. apply in_or_app. auto.
  - destruct (IH y eq_refl I) as (x' & E' & J). exists x'. split; [exact E'|]. intros z Hz. apply in_or_app. auto.
Qed.

(** States that differ in the order of extant_edges_idx only. *)
Definition set_ext (s : gstate) (l : list nat) : gstate :=
  GS (g_adj s) (g_nv s) (g_ne s) (g_cn s) (g_cnt s) l (g_cover s) (g_ra s) (g_k s) (g_red s) (g_del s).
Definition eqv (s t : gstate) : Prop := exists l, Permutation l (g_ext t) /\ s = set_ext t l.
Definition eqvr (a b : res gstate) : Prop :=
  match a, b with Ok s, Ok t => eqv s t | Err e, Err e' => e = e' | _, _ => False end.

Lemma perm_filter {A} (f : A -> bool) l l' : Permutation l l' -> Permutation (filter f l) (filter f l').
Proof.
  induction 1; cbn; auto.
  - destruct (f x); auto.
  - destruct (f x), (f y); auto. apply perm_swap.
  - eapply perm_trans; eauto.
Qed.
Lemma eqv_cover_these n s t es : eqv s t -> eqv (cover_these n s es) (cover_these n t es).
Proof.
  intros (l & P & ->). exists (filter (fun i => negb (mem i (map (get_idx n) es))) l). split.
  - cbn. now apply perm_filter.
  - reflexivity.
Qed.
Lemma eqv_cover_last n s t : eqv s t -> eqv (cover_last n s) (cover_last n t).
Proof.
  intros E. unfold cover_last. assert (C : g_cover s = g_cover t) by (destruct E as (l & _ & ->); reflexivity).
  rewrite C. destruct (g_cover t); [now apply eqv_cover_these|exact E].
Qed.
Lemma eqv_rule_1 n A s t : eqv s t -> eqv (rule_1 n A s) (rule_1 n A t).
Proof. intros (l & P & ->). exists l. split; [exact P|reflexivity]. Qed.
Lemma eqv_rule_3 n s t : eqv s t -> eqvr (rule_3 n s) (rule_3 n t).
Proof.
  intros E. pose proof E as (l & P & E'). unfold rule_3.
  replace (g_adj s) with (g_adj t) by (subst s; reflexivity). replace (g_ra s) with (g_ra t) by (subst s; reflexivity).
  destruct (find _ _) as [v|]; [|exact E]. destruct (map _ (flatnonzero n _)) as [|e es] eqn:Es; [reflexivity|].
  destruct (eqv_cover_these n s t (e :: es) E) as (l' & P' & ->). exists l'. split; [exact P'|reflexivity].
Qed.
Lemma eqv_push n s t row : eqv s t -> eqv (push n s row) (push n t row).
Proof.
  intros (l & P & ->). unfold push. cbv zeta.
  match goal with |- context [cover_last n (GS ?x1 ?x2 ?x3 ?x4 ?x5 (g_ext (set_ext t l)) ?x6 ?x7 ?x8 ?x9 ?x10)] =>
    set (a := GS x1 x2 x3 x4 x5 (g_ext (set_ext t l)) x6 x7 x8 x9 x10) end.
  match goal with |- context [cover_last n (GS ?x1 ?x2 ?x3 ?x4 ?x5 (g_ext t) ?x6 ?x7 ?x8 ?x9 ?x10)] =>
    set (b := GS x1 x2 x3 x4 x5 (g_ext t) x6 x7 x8 x9 x10) end.
  assert (E : eqv a b) by (exists l; split; [exact P|reflexivity]).
  apply (eqv_cover_last n) in E. destruct E as (l' & P' & ->). exists l'. split; [exact P'|reflexivity].
Qed.
Lemma last_In {A} (l : list A) x d : In (last (x :: l) d) (x :: l).
Proof. revert x. induction l as [|y l IH]; intros x; [left; reflexivity|]. right. exact (IH y). Qed.
Lemma rule_2_in n s t : eqv s t -> exists t', In t' (rule_2_all n t) /\ eqv (rule_2 n s) t'.
Proof.
  intros E. pose proof E as (l & P & E'). unfold rule_2, rule_2_all.
  replace (score n s) with (score n t) by (subst s; reflexivity).
  assert (PF : Permutation (filter (fun i => Z.eqb (score n t i) 0) (g_ext s)) (filter (fun i => Z.eqb (score n t i) 0) (g_ext t))).
  { apply perm_filter. subst s. exact P. }
  destruct (filter _ (g_ext s)) as [|i r] eqn:F1.
  - apply Permutation_nil in PF. rewrite PF. exists t. split; [left; reflexivity|exact E].
  - destruct (filter _ (g_ext t)) as [|i' r'] eqn:F2; [apply Permutation_sym, Permutation_nil in PF; discriminate|].
    set (j := last (i :: r) 0%nat). exists (push n t (row_of n (g_cn t) j)). split.
    + apply in_map. apply nodup_In. apply in_map. apply (Permutation_in _ PF). apply last_In.
    + assert (C : row_of n (g_cn s) j = row_of n (g_cn t) j) by (subst s; reflexivity). rewrite <- C.
      exact (eqv_push n s t (row_of n (g_cn s) j) E).
Qed.
Lemma reduz_step_in n A s t : eqv s t -> exists o, In o (reduz_step_all n A t) /\ eqvr (reduz_step n A s) o.
Proof.
  intros (l & P & ->). unfold reduz_step, reduz_step_all.
  match goal with |- context [rule_1 n A (GS ?a ?b ?c ?d ?e (g_ext (set_ext t l)) ?f ?g ?h ?i ?j)] =>
    set (s0 := GS a b c d e (g_ext (set_ext t l)) f g h i j) end.
  cbv zeta. set (t0 := GS (g_adj t) _ _ _ _ _ _ _ _ _ _).
  assert (E : eqv s0 t0) by (exists l; split; [exact P|reflexivity]).
  apply (eqv_rule_1 n A) in E. destruct (rule_2_in n _ _ E) as (t2 & I & E2).
  eexists. split; [apply in_map; exact I|].
  assert (K : g_k (rule_2 n (rule_1 n A s0)) = g_k t2) by (destruct E2 as (? & _ & ->); reflexivity).
  assert (R : g_red (rule_2 n (rule_1 n A s0)) = g_red t2) by (destruct E2 as (? & _ & ->); reflexivity).
  rewrite K, R. destruct (g_k t2 <? 0); [exact E2|]. destruct (g_red t2); [exact E2|]. now apply eqv_rule_3.
Qed.
Lemma reduz_in n A F : forall f s t r L, eqv s t -> reduz_loop f n A s = Some r -> reduz_all F n A t = Some L ->
  exists o, In o L /\ eqvr r o.
Proof.
  induction F as [|F IH]; intros f s t r L E H G; [discriminate|]. destruct f as [|f]; [discriminate|].
  cbn [reduz_loop] in H. cbn [reduz_all] in G. destruct (reduz_step_in n A s t E) as (o & I & EO).
  destruct (bindl_in _ _ _ _ G I) as (x & X & J). clear G I.
  destruct (reduz_step n A s) as [s'|e], o as [t'|e']; cbn in EO; try contradiction.
  - assert (K : g_k s' = g_k t') by (destruct EO as (? & _ & ->); reflexivity).
    assert (R : g_red s' = g_red t') by (destruct EO as (? & _ & ->); reflexivity).
    rewrite K, R in H. destruct (g_k t' <? 0); [injection H as <-; injection X as <-; exists (Ok t'); split; [apply J; left; reflexivity|exact EO]|].
    destruct (g_red t').
    + destruct (IH f s' t' r x EO H X) as (o & I & EO'). exists o. split; [now apply J|exact EO'].
    + injection H as <-. injection X as <-. exists (Ok t'). split; [apply J; left; reflexivity|exact EO].
  - subst e'. injection H as <-. injection X as <-. exists (Err e). split; [apply J; left; reflexivity|reflexivity].
Qed.

Lemma argmin_spec f l : forall b, In (argmin f b l) (b :: l) /\ forall i, In i (b :: l) -> f (argmin f b l) <= f i.
Proof.
  induction l as [|x l IH]; intro b; cbn [argmin].
  - split; [left; reflexivity|]. intros i [<-|[]]. lia.
  - destruct (IH (if f x <? f b then x else b)) as [I M]. split.
    + destruct I as [I|I]; [|right; right; exact I]. rewrite <- I. destruct (f x <? f b); cbn; auto.
    + intros i [<-|[<-|Hi]].
      * specialize (M _ (or_introl eq_refl)). destruct (Z.ltb_spec (f x) (f b)); lia.
      * specialize (M _ (or_introl eq_refl)). destruct (Z.ltb_spec (f x) (f b)); lia.
      * apply M. right. exact Hi.
Qed.
Lemma choose_in n s t : eqv s t -> In (choose_nbrhood n s) (choose_all n t).
Proof.
  intros (l & P & ->). unfold choose_nbrhood, choose_all. cbn [g_ext set_ext].
  change (score n (set_ext t l)) with (score n t).
  destruct l as [|i r].
  - apply Permutation_nil in P. rewrite P. left. reflexivity.
  - destruct (g_ext t) as [|i' r']; [apply Permutation_sym, Permutation_nil in P; discriminate|].
    destruct (argmin_spec (score n t) r i) as [I M]. apply nodup_In, in_map_iff. exists (argmin (score n t) i r). split; [reflexivity|].
    apply filter_In. split; [now apply (Permutation_in _ P)|]. apply forallb_forall. intros x Hx. apply Z.leb_le, M.
    now apply (Permutation_in _ (Permutation_sym P)).
Qed.

Lemma splits_perm {A} (x : A) l L : Permutation (x :: l) L -> exists r, In (x, r) (splits L) /\ Permutation l r.
Proof.
  intro P. assert (I : In x L) by (apply (Permutation_in _ P); left; reflexivity).
  apply in_split in I. destruct I as (a & b & ->). exists (a ++ b)%list. split.
  - clear P. induction a as [|y a IH]; cbn; [left; reflexivity|]. right. apply in_map_iff. exists (x, (a ++ b)%list). auto.
  - apply (Permutation_cons_inv (a := x)). eapply perm_trans; [exact P|]. apply Permutation_sym, Permutation_middle.
Qed.
Definition strip (r : res branch_result) : outcome := match r with Err e => Err e | Ok (c, ra, _) => Ok (c, ra) end.

Lemma union_rows n cov K : (forall v, In v K -> (v < n)%nat) -> union_of n n cov K = Ok (vstack cov (rowK n K)).
Proof.
  intro H. unfold union_of. replace (forallb _ K) with true.
  - rewrite Nat.eqb_refl. destruct cov; reflexivity.
  - symmetry. apply forallb_forall. intros v Hv. now apply Nat.ltb_lt, H.
Qed.
Lemma try_in n cov rec rec_all : 
  match rec, rec_all with
  | None, None => True
  | Some r, Some ra => forall i x u o L, r i x u = Some o -> ra x u = Some L -> In (strip o) L
  | _, _ => False
  end ->
  forall Ks i ra m L r outs, (forall K v, In K Ks -> In v K -> (v < n)%nat) ->
  Permutation (map (rowK n) (filter big Ks)) L ->
  try_cliques n n cov rec i ra Ks = Some r -> try_all cov rec_all m ra L = Some outs -> In (strip r) outs.
Proof.
  intros HR. induction Ks as [|K Ks IH]; intros i ra m L r outs B P H G.
  - apply Permutation_nil in P. subst L. cbn in H. injection H as <-. destruct m; cbn in G; injection G as <-; left; reflexivity.
  - cbn [try_cliques] in H. cbn [filter] in P. unfold big at 1 in P.
    destruct (length K =? 1)%nat; cbn [negb] in P.
    + apply (IH (S i) ra m L); auto. intros K' v HK. apply B. right. exact HK.
    + rewrite union_rows in H by (intros v Hv; apply (B K); [left; reflexivity|exact Hv]).
      destruct L as [|x0 L0] eqn:EL; [apply Permutation_sym, Permutation_nil in P; discriminate|]. rewrite <- EL in *.
      destruct rec as [rc|], rec_all as [rca|]; try contradiction.
      2:{ injection H as <-. destruct m; cbn in G; rewrite EL in G; injection G as <-; left; reflexivity. }
      destruct m as [|m]; [cbn in G; rewrite EL in G; discriminate|].
      cbn [map] in P. destruct (splits_perm _ _ _ P) as (rest & I & P').
      assert (G' : bindl (fun p => match rca ra (vstack cov (fst p)) with
                | None => None
                | Some outs => bindl (fun o => match o with
                           | Err e => Some [Err e]
                           | Ok (Some c, ra') => Some [Ok (Some c, ra')]
                           | Ok (None, ra') => try_all cov (Some rca) m ra' (snd p)
                           end) outs
                end) (splits L) = Some outs).
      { rewrite EL in *. exact G. }
      destruct (bindl_in _ _ _ _ G' I) as (x & X & J). cbn [fst snd] in X. clear G G' I.
      destruct (rca ra (vstack cov (rowK n K))) as [os|] eqn:EO; [|discriminate].
      destruct (rc i ra (vstack cov (rowK n K))) as [o|] eqn:EC; [|discriminate].
      pose proof (HR _ _ _ _ _ EC EO) as IN. destruct (bindl_in _ _ _ _ X IN) as (y & Y & J').
      destruct o as [[[c ra'] h]|e]; cbn [strip] in Y.
      * destruct c as [c|].
        -- injection H as <-. injection Y as <-. apply J, J'. left. reflexivity.
        -- apply J, J'. apply (IH (S i) ra' m rest); auto. intros K' v HK. apply B. right. exact HK.
      * injection H as <-. injection Y as <-. apply J, J'. left. reflexivity.
Qed.

(** The cliques come as the same sets in every run. *)
Lemma mem_set v K : mem v K = set_of K v.
Proof. reflexivity. Qed.
Lemma rowK_same n K K' : (forall v, In v K -> (v < n)%nat) -> (forall v, In v K' -> (v < n)%nat) ->
  rowK n K = rowK n K' <-> same_set (set_of K) (set_of K').
Proof.
  intros B B'. split.
  - intros E v. destruct (Nat.lt_ge_cases v n) as [L|L].
    + pose proof (f_equal (fun r => nth v r (mem 0 K)) E) as F. cbn beta in F. unfold rowK in F.
      rewrite (map_nth (fun v => mem v K)), seq_nth in F by assumption.
      rewrite (nth_indep _ _ (mem 0 K')) in F by (rewrite map_length, seq_length; assumption).
      rewrite (map_nth (fun v => mem v K')), seq_nth in F by assumption. exact F.
    + destruct (set_of K v) eqn:E1; [apply set_of_In, B in E1; lia|].
      destruct (set_of K' v) eqn:E2; [apply set_of_In, B' in E2; lia|]. reflexivity.
  - intro S. apply map_ext. intro v. exact (S v).
Qed.
Lemma distinct_NoDup {A B} (f : A -> B) l : ForallOrdPairs (fun x y => f x <> f y) l -> NoDup (map f l).
Proof.
  induction 1 as [|x l H _ IH]; cbn; constructor; auto. rewrite in_map_iff. intros (y & E & I).
  rewrite Forall_forall in H. apply (H y I). congruence.
Qed.
Lemma FOP_filter {A} (R : A -> A -> Prop) f l : ForallOrdPairs R l -> ForallOrdPairs R (filter f l).
Proof.
  induction 1 as [|x l H _ IH]; cbn; [constructor|]. destruct (f x); [|exact IH]. constructor; [|exact IH].
  rewrite Forall_forall in *. intros y Hy. apply H. apply filter_In in Hy. tauto.
Qed.
Lemma FOP_impl {A} (R S : A -> A -> Prop) l : (forall x y, In x l -> In y l -> R x y -> S x y) -> ForallOrdPairs R l -> ForallOrdPairs S l.
Proof.
  intros I F. induction F as [|x l H _ IH]; constructor.
  - rewrite Forall_forall in *. intros y Hy. apply I; [left; reflexivity|right; exact Hy|auto].
  - apply IH. intros a b Ha Hb. apply I; right; assumption.
Qed.
Lemma same_runs n nb orc f F Ks K0 : (0 < n)%nat -> undirected n nb ->
  max_cliques f orc nb = Some (Ok Ks) -> max_cliques F asc nb = Some (Ok K0) ->
  Permutation (map (rowK n) (filter big Ks)) (map (rowK n) (filter big K0)) /\ (forall K v, In K Ks -> In v K -> (v < n)%nat).
Proof.
  intros P U H G.
  destruct (max_cliques_spec n nb orc P U) as (f1 & o1 & R1 & A1 & B1 & C1).
  destruct (max_cliques_spec n nb asc P U) as (f2 & o2 & R2 & A2 & B2 & C2).
  pose proof (max_cliques_det _ _ _ _ _ _ H R1) as E1. injection E1 as <-.
  pose proof (max_cliques_det _ _ _ _ _ _ G R2) as E2. injection E2 as <-.
  assert (L1 : forall K v, In K Ks -> In v K -> (v < n)%nat).
  { intros K v HK Hv. destruct (A1 K HK) as [_ [[X _] _]]. apply X. now apply set_of_In. }
  assert (L2 : forall K v, In K K0 -> In v K -> (v < n)%nat).
  { intros K v HK Hv. destruct (A2 K HK) as [_ [[X _] _]]. apply X. now apply set_of_In. }
  split; [|exact L1].
  assert (ND : forall l, (forall K v, In K l -> In v K -> (v < n)%nat) -> ForallOrdPairs (fun K K' => ~ same_set (set_of K) (set_of K')) l ->
     NoDup (map (rowK n) (filter big l))).
  { intros l L FO. apply distinct_NoDup, FOP_filter. revert FO. apply FOP_impl. intros x y Hx Hy N E. apply N.
    apply (rowK_same n); auto; intros v; apply L; assumption. }
  assert (SUB : forall l l', (forall K v, In K l -> In v K -> (v < n)%nat) -> (forall K v, In K l' -> In v K -> (v < n)%nat) ->
     (forall K, In K l -> NoDup K /\ maximal_clique n nb (set_of K)) -> (forall K, In K l' -> NoDup K /\ maximal_clique n nb (set_of K)) ->
     (forall S, maximal_clique n nb S -> exists K, In K l' /\ same_set (set_of K) S) ->
     forall r, In r (map (rowK n) (filter big l)) -> In r (map (rowK n) (filter big l'))).
  { intros l l' L L' A A' B' r I. apply in_map_iff in I. destruct I as (K & <- & I). apply filter_In in I. destruct I as [I BG].
    destruct (A K I) as [NK MK]. destruct (B' _ MK) as (K' & I' & S). apply in_map_iff. exists K'. split.
    - apply rowK_same; auto; intros v; [apply L'|apply L]; assumption.
    - apply filter_In. split; [exact I'|]. unfold big in *. replace (length K') with (length K); [exact BG|].
      apply Permutation_length, NoDup_Permutation; [exact NK|exact (proj1 (A' K' I'))|].
      intro v. rewrite <- !set_of_In, (S v). tauto. }
  apply NoDup_Permutation; [now apply ND|now apply ND|]. intro r. split; apply SUB; assumption.
Qed.

Lemma tidy_in o l x L : o = Some l -> In x l -> tidy o = Some L -> In x L.
Proof. intros -> I H. injection H as <-. now apply nodup_In. Qed.
Theorem branch_in n A orc f F : (0 < n)%nat -> forall rem path s t k cov r L, eqv s t ->
  branch rem f n n A orc path s k cov = Some r -> branch_all rem F n A t k cov = Some L -> In (strip r) L.
Proof.
  intros Pn. induction rem as [|rem IH]; intros path s t k cov r L E H G;
    cbn [branch] in H; cbn [branch_all] in G; cbv zeta in H, G.
  all: set (b1 := cover_last n (reducible_copy s cov)) in *; set (d1 := cover_last n (reducible_copy t cov)) in *.
  all: assert (E1 : eqv b1 d1) by (apply eqv_cover_last; destruct E as (l & P & ->); exists l; split; [exact P|reflexivity]).
  all: assert (X1 : g_ne b1 = g_ne d1) by (destruct E1 as (? & _ & ->); reflexivity).
  all: assert (X2 : g_ra b1 = g_ra d1) by (destruct E1 as (? & _ & ->); reflexivity).
  all: assert (X3 : g_ra s = g_ra t) by (destruct E as (? & _ & ->); reflexivity).
  all: rewrite X1, X2 in H; rewrite X3 in H; destruct (g_ne d1 =? 0)%nat.
  1,3: destruct (reconstruct_cover n (g_ra d1) cov); injection H as <-; injection G as <-; left; reflexivity.
  all: unfold reduzieren in H.
  all: match type of H with context [reduz_loop ?ff ?nn ?AA ?x] => destruct (reduz_loop ff nn AA x) as [o|] eqn:RL; [|discriminate] end.
  all: match type of G with context [reduz_all ?ff ?nn ?AA ?x] => destruct (reduz_all ff nn AA x) as [os|] eqn:RA; [|discriminate] end.
  all: match type of RL with reduz_loop _ _ _ ?x = _ => match type of RA with reduz_all _ _ _ ?y = _ =>
         assert (E2 : eqv x y) by (destruct E1 as (l & P & ->); exists l; split; [exact P|reflexivity]) end end.
  all: destruct (reduz_in n A F f _ _ _ _ E2 RL RA) as (o' & I & EO).
  all: match type of G with tidy ?X = _ => destruct X as [l|] eqn:GB; [|discriminate] end.
  all: apply (tidy_in _ _ _ _ eq_refl) with (2 := G); clear G.
  all: destruct (bindl_in _ _ _ _ GB I) as (x & X & J); clear GB I; apply J; clear J.
  all: destruct o as [b2|e], o' as [d2|e']; cbn in EO; try contradiction.
  2,4: subst e'; injection H as <-; injection X as <-; left; reflexivity.
  all: assert (Y1 : g_k b2 = g_k d2) by (destruct EO as (? & _ & ->); reflexivity).
  all: assert (Y2 : g_ne b2 = g_ne d2) by (destruct EO as (? & _ & ->); reflexivity).
  all: assert (Y3 : g_ra b2 = g_ra d2) by (destruct EO as (? & _ & ->); reflexivity).
  all: assert (Y4 : g_cover b2 = g_cover d2) by (destruct EO as (? & _ & ->); reflexivity).
  all: rewrite Y1, Y2, Y3, Y4 in H.
  all: destruct (g_k d2 <? 0); [injection H as <-; injection X as <-; left; reflexivity|].
  all: destruct (g_ne d2 =? 0)%nat; [injection H as <-; injection X as <-; left; reflexivity|].
  all: pose proof (choose_in n _ _ EO) as CI; destruct (bindl_in _ _ _ _ X CI) as (y & Y & J); clear X CI; apply J; clear J.
  all: destruct (choose_nbrhood n b2) as [nb|e]; [|injection H as <-; injection Y as <-; left; reflexivity].
  all: destruct (undirectedb n nb) eqn:UN; [|discriminate]; apply undirectedb_sound in UN.
  all: destruct (max_cliques f (orc path) nb) as [[Ks|e]|] eqn:MC; [| |discriminate].
  2,4: destruct (max_cliques_ends (orc path) nb) as (Ks & _ & HE); specialize (HE _ _ MC); discriminate.
  all: destruct (max_cliques F asc nb) as [[K0|e]|] eqn:MA; try discriminate.
  all: destruct (same_runs n nb _ _ _ _ _ Pn UN MC MA) as [PK BK].
  all: match type of H with context [try_cliques ?nn ?n2 ?c ?rc 0 ?ra ?kk] => destruct (try_cliques nn n2 c rc 0 ra kk) as [q|] eqn:TC; [|discriminate] end.
  all: match type of Y with context [try_all ?c ?rc ?m ?ra ?l] => destruct (try_all c rc m ra l) as [outs|] eqn:TA; [|discriminate] end.
  all: injection Y as <-.
  all: assert (IN : In (strip q) outs).
  1: revert TC TA; apply try_in; auto.
  2: { revert TC TA. apply try_in; auto. intros i x9 u o9 L0 HO HL. revert HO HL. apply IH.
       destruct EO as (l0 & P0 & ->). exists l0. split; [exact P0|reflexivity]. }
  all: destruct q as [[[c ra] h]|e]; injection H as <-; cbn [strip] in *;
       match goal with |- In _ (map ?g _) => exact (in_map g _ _ IN) end.
Qed.

Lemma search_in n A orc f F : (0 < n)%nat -> forall OF of k s t r L, eqv s t ->
  search of f n n A orc s k = Some r -> search_all OF F n A t k = Some L ->
  In (match r with Ok (c, _) => Ok c | Err e => Err e end) L.
Proof.
  intros Pn. induction OF as [|OF IH]; intros of k s t r L E H G; [discriminate|]. destruct of as [|of]; [discriminate|].
  cbn [search] in H. cbn [search_all] in G.
  destruct (branch 3 f n n A orc [k] s (Z.of_nat k) None) as [o|] eqn:B; [|discriminate].
  destruct (branch_all 3 F n A t (Z.of_nat k) None) as [os|] eqn:BA; [|discriminate].
  pose proof (branch_in n A orc f F Pn _ _ _ _ _ _ _ _ E B BA) as IN.
  destruct (bindl_in _ _ _ _ G IN) as (x & X & J). apply J. clear G J IN.
  destruct o as [[[c ra] h]|e]; cbn [strip] in X.
  - destruct c as [c|].
    + injection H as <-. injection X as <-. left. reflexivity.
    + exact (IH of (S k) s t r x E H X).
  - injection H as <-. injection X as <-. left. reflexivity.
Qed.

Theorem all_results_complete n M F L : (0 < n)%nat -> undirected n M -> unit_diagonal n M -> all_results F M = Some L ->
  forall fuel eorc orc r, find_clique_min_cover fuel eorc orc M = Some r -> In r L.
Proof.
  intros Pn U D G fuel eorc orc r H. assert (LM : length M = n) by apply U.
  unfold find_clique_min_cover, find_clique_min_cover_traced in H. unfold all_results in G. cbv zeta in H, G.
  unfold make_aux in H, G. rewrite LM in *.
  assert (UM : u_max (udg_init M) = n) by (unfold udg_init; cbn; exact LM). rewrite UM in *.
  change (u_adj (udg_init M)) with M in *.
  assert (NV : Z.to_nat (u_nv (udg_init M)) = n).
  { unfold udg_init. cbn [u_nv]. rewrite LM. unfold bcount. rewrite Nat2Z.id. unfold count.
    assert (FI : forall (g : nat -> bool) l, (forall v, In v l -> g v = true) -> filter g l = l).
    { intros g l. induction l as [|a l IH]; intro K; cbn; [reflexivity|]. rewrite (K a (or_introl eq_refl)), IH; auto. intros v Hv. apply K. now right. }
    rewrite FI; [apply seq_length|]. intros v Hv. apply in_seq in Hv. apply D. lia. }
  assert (CASES : (edge_indices n M = [] /\ r = Ok M /\ L = [Ok M]) \/ edge_indices n M <> []).
  { destruct (edge_indices n M) eqn:EI; [left|right; discriminate]. destruct n as [|n']; [lia|].
    injection H as <-. injection G as <-. auto. }
  destruct CASES as [(_ & -> & ->)|NE]; [left; reflexivity|].
  destruct (edge_indices n M) as [|e0 es] eqn:EI; [congruence|]. clear NE.
  destruct (_ && _) eqn:CH.
  - injection H as <-. injection G as <-. left. reflexivity.
  - rewrite NV in H.
    match type of H with context [search fuel fuel n n M orc ?x 1] => destruct (search fuel fuel n n M orc x 1) as [o|] eqn:S; [|discriminate] end.
    match type of G with context [search_all F F n M ?x 1] => destruct (search_all F F n M x 1) as [os|] eqn:SA; [|discriminate] end.
    injection G as <-. apply nodup_In.
    assert (IN : In (match o with Ok (c, _) => Ok c | Err e => Err e end) os).
    { revert S SA. apply search_in; [exact Pn|]. eexists. split; [|reflexivity]. cbn [g_ext root_state a_ext].
      pose proof (edge_indices_NoDup n M) as ND. rewrite EI in ND.
      eapply perm_trans; [apply shuffle_perm; exact ND|]. apply Permutation_sym, shuffle_perm; exact ND. }
    destruct o as [[c h]|e]; injection H as <-;
      match goal with |- In _ (map ?g _) => exact (in_map g _ _ IN) end.
Qed.
