(** Proofs about [max_cliques]: the loop refines a recursive expansion, and
    the expansion enumerates the maximal cliques. *)
From Verif Require Import Base Spec MaxCliquesModel.

Lemma list_max_in l : l <> [] -> In (list_max l) l.
Proof.
  induction l as [|a l IH]; [congruence|]. intros _. cbn [list_max fold_right].
  destruct l as [|b l'].
  - cbn. rewrite Nat.max_0_r. auto.
  - destruct (Nat.max_spec a (list_max (b :: l'))) as [[_ E]|[_ E]]; fold (list_max (b :: l')).
    + rewrite E. right. apply IH. congruence.
    + rewrite E. left; auto.
Qed.

Lemma maximizers_nonempty f s : s <> [] -> maximizers f s <> [].
Proof.
  intros Hs E.
  assert (H : In (list_max (map f s)) (map f s)).
  { apply list_max_in. destruct s; cbn; congruence. }
  apply in_map_iff in H. destruct H as [u [Eu Hu]].
  assert (HI : In u (maximizers f s)).
  { unfold maximizers. apply filter_In. split; auto. apply Nat.eqb_eq; auto. }
  rewrite E in HI; destruct HI.
Qed.

Lemma max_key_In o adj subg cand : subg <> [] -> In (max_key o adj subg cand) subg.
Proof.
  intros H. unfold max_key.
  assert (HI := pick_In o _ (maximizers_nonempty (fun u => length (inter cand (adj u))) subg H)).
  unfold maximizers in HI at 2. apply filter_In in HI. tauto.
Qed.

Lemma all_some_map K : all_some (map Some K) = Some K.
Proof. induction K; cbn; auto. rewrite IHK; auto. Qed.

(** The recursive reading of the search.  [Qs] is the committed prefix,
    last chosen vertex first. *)
Inductive expand (adj : nat -> list nat) :
  list nat -> list nat -> list nat -> list nat -> list (list nat) -> Prop :=
| ex_nil Qs subg cand : expand adj Qs subg cand [] []
| ex_leaf Qs subg cand ext q outs :
    In q ext -> inter subg (adj q) = [] ->
    expand adj Qs subg (discard q cand) (discard q ext) outs ->
    expand adj Qs subg cand ext (rev (q :: Qs) :: outs)
| ex_dead Qs subg cand ext q outs :
    In q ext -> inter subg (adj q) <> [] -> inter (discard q cand) (adj q) = [] ->
    expand adj Qs subg (discard q cand) (discard q ext) outs ->
    expand adj Qs subg cand ext outs
| ex_push Qs subg cand ext q u outs1 outs2 :
    In q ext -> inter subg (adj q) <> [] -> inter (discard q cand) (adj q) <> [] ->
    In u (inter subg (adj q)) ->
    expand adj (q :: Qs) (inter subg (adj q)) (inter (discard q cand) (adj q))
           (diff (inter (discard q cand) (adj q)) (adj u)) outs1 ->
    expand adj Qs subg (discard q cand) (discard q ext) outs2 ->
    expand adj Qs subg cand ext (outs1 ++ outs2).

Lemma incl_discard q (a b : list nat) : incl a b -> incl (discard q a) (discard q b).
Proof. intros H x. rewrite !In_discard. intros [? ?]; split; auto. Qed.

Lemma loop_expands adj orc m :
  forall Qs subg cand ext, length cand <= m -> incl ext cand -> incl cand subg ->
  forall t x st, exists k outs cand' y,
    expand adj Qs subg cand ext outs /\
    forall f acc,
      mc_run (k + f) adj orc t (MC (x :: map Some Qs) subg cand ext st) acc =
      mc_run f adj orc (t + k) (MC (y :: map Some Qs) subg cand' [] st) (acc ++ outs).
Proof.
  induction m as [|m IH]; intros Qs subg cand ext Hm He Hc t x st.
  - assert (ext = []).
    { destruct ext as [|a e]; auto. specialize (He a (or_introl eq_refl)).
      destruct cand; [destruct He|cbn in Hm; lia]. }
    subst ext. exists 0, [], cand, x. split; [constructor|].
    intros f acc. rewrite app_nil_r, Nat.add_0_r. reflexivity.
  - destruct ext as [|a e] eqn:Eext.
    { exists 0, [], cand, x. split; [constructor|].
      intros f acc. rewrite app_nil_r, Nat.add_0_r. reflexivity. }
    rewrite <- Eext in *. assert (Hne : ext <> []) by (rewrite Eext; congruence).
    set (q := pick (orc (2 * t)) ext).
    assert (Hq : In q ext) by (apply pick_In; auto).
    assert (Hqc : In q cand) by auto.
    pose proof (discard_length q cand Hqc) as HL.
    assert (Hmem : mem q cand = true) by (apply mem_In; auto).
    assert (Hstep : forall f acc, mc_run (S f) adj orc t (MC (x :: map Some Qs) subg cand ext st) acc =
       match (match inter subg (adj q) with
          | [] => match all_some (rev (Some q :: map Some Qs)) with
              | Some K => Yield K (MC (Some q :: map Some Qs) subg (discard q cand) (discard q ext) st)
              | None => Escape TypeError end
          | _ :: _ => match inter (discard q cand) (adj q) with
              | [] => Continue (MC (Some q :: map Some Qs) subg (discard q cand) (discard q ext) st)
              | _ :: _ => Continue (MC (None :: Some q :: map Some Qs) (inter subg (adj q))
                   (inter (discard q cand) (adj q))
                   (diff (inter (discard q cand) (adj q))
                      (adj (max_key (orc (2 * t + 1)) adj (inter subg (adj q)) (inter (discard q cand) (adj q)))))
                   ((subg, discard q cand, discard q ext) :: st))
              end end)
       with
       | Continue s' => mc_run f adj orc (S t) s' acc
       | Yield K s' => mc_run f adj orc (S t) s' (acc ++ [K])
       | Stop => Some (Ok acc)
       | Escape e => Some (Err e)
       end).
    { intros f acc. cbn [mc_run]. unfold mc_step. cbn [mc_ext mc_Q mc_cand mc_subg mc_stack].
      rewrite Eext at 1. fold q. rewrite Hmem. cbn [negb]. 
      destruct (inter subg (adj q)) as [|b s0]; auto. }
    remember (inter subg (adj q)) as subq eqn:Dsub.
    remember (inter (discard q cand) (adj q)) as candq eqn:Dcand.
    assert (Dec : forall l : list nat, l = [] \/ l <> []) by (intros [|]; [left|right]; congruence).
    destruct (Dec subq) as [Esub|Hsubne].
    { (* leaf *)
      destruct (IH Qs subg (discard q cand) (discard q ext)) with (t := S t) (x := Some q) (st := st)
        as (k & outs & cand' & y & Hex & Hrun).
      - lia.
      - apply incl_discard; auto.
      - intros z Hz; apply In_discard in Hz; apply Hc; tauto.
      - exists (S k), (rev (q :: Qs) :: outs), cand', y. split.
        + eapply ex_leaf; eauto. rewrite <- Dsub; auto.
        + intros f acc. cbn [Nat.add]. rewrite Hstep, Esub.
          assert (Ea : all_some (rev (Some q :: map Some Qs)) = Some (rev (q :: Qs))).
          { change (Some q :: map Some Qs) with (map Some (q :: Qs)).
            rewrite <- map_rev. apply all_some_map. }
          rewrite Ea. rewrite (Hrun f (acc ++ [rev (q :: Qs)])).
          rewrite <- app_assoc. cbn [app]. f_equal. lia. }
    destruct (Dec candq) as [Ecand|Hcandne].
    { (* dead end *)
      destruct (IH Qs subg (discard q cand) (discard q ext)) with (t := S t) (x := Some q) (st := st)
          as (k & outs & cand' & y & Hex & Hrun).
      - lia.
      - apply incl_discard; auto.
      - intros z Hz; apply In_discard in Hz; apply Hc; tauto.
      - exists (S k), outs, cand', y. split.
        + eapply ex_dead; eauto; congruence.
        + intros f acc. cbn [Nat.add]. rewrite Hstep, Ecand.
          destruct subq; [congruence|]. rewrite (Hrun f acc). f_equal. lia. }
    (* push *)
    remember (max_key (orc (2 * t + 1)) adj subq candq) as u eqn:Du.
    assert (Hu : In u subq) by (rewrite Du; apply max_key_In; auto).
    assert (HLq : length candq <= length (discard q cand)).
    { rewrite Dcand. unfold inter. apply filter_length_le. }
    destruct (IH (q :: Qs) subq candq (diff candq (adj u))) with (t := S t)
            (x := @None nat) (st := (subg, discard q cand, discard q ext) :: st)
          as (k1 & outs1 & cand1 & y1 & Hex1 & Hrun1).
    { lia. }
    { intros z Hz; apply In_diff in Hz; tauto. }
    { intros z Hz. rewrite Dcand in Hz. apply In_inter in Hz. destruct Hz as [Hz1 Hz2].
      rewrite Dsub. apply In_inter. split; auto. apply In_discard in Hz1. apply Hc; tauto. }
    destruct (IH Qs subg (discard q cand) (discard q ext)) with (t := S t + k1 + 1)
              (x := Some q) (st := st)
             as (k2 & outs2 & cand2 & y2 & Hex2 & Hrun2).
    { lia. }
    { apply incl_discard; auto. }
    { intros z Hz; apply In_discard in Hz; apply Hc; tauto. }
    exists (S k1 + 1 + k2), (outs1 ++ outs2), cand2, y2. split.
    + eapply ex_push with (u := u); try rewrite <- Dsub; try rewrite <- Dcand; eauto.
    + intros f acc.
      replace (S k1 + 1 + k2 + f) with (S (k1 + (S (k2 + f)))) by lia.
      rewrite Hstep.
      assert (Hgo : forall (A B : mc_event),
        match subq with [] => A | _ :: _ => match candq with [] => B | _ :: _ =>
          Continue (MC (None :: Some q :: map Some Qs) subq candq (diff candq (adj u))
                   ((subg, discard q cand, discard q ext) :: st)) end end =
          Continue (MC (None :: Some q :: map Some Qs) subq candq (diff candq (adj u))
                   ((subg, discard q cand, discard q ext) :: st))).
      { intros A B. destruct subq; [congruence|]. destruct candq; [congruence|]. reflexivity. }
      rewrite Hgo.
      cbn [map] in Hrun1.
      rewrite (Hrun1 (S (k2 + f)) acc).
      cbn [mc_run]. unfold mc_step at 1. cbn [mc_ext mc_Q mc_stack].
      replace (S (S t + k1)) with (S t + k1 + 1) by lia.
      rewrite (Hrun2 f (acc ++ outs1)). rewrite <- app_assoc. f_equal. lia.
Qed.

Lemma set_of_In K v : set_of K v = true <-> In v K.
Proof. apply mem_In. Qed.

Lemma nbr_set_In M n u v :
  In v (nbr_set M n u) <-> v < n /\ adjacent M u v.
Proof.
  unfold nbr_set, adjacent. rewrite In_flatnonzero, andb_true_iff, negb_true_iff, Nat.eqb_neq.
  unfold get, getd, entry. intuition.
Qed.

Lemma adjacent_sym n M u v : undirected n M -> adjacent M u v -> adjacent M v u.
Proof. intros [_ H] [H1 H2]. split; [auto|]. rewrite <- H; auto. Qed.

Lemma entry_bound n M u v : square n M -> entry M u v = true -> u < n /\ v < n.
Proof.
  intros [H1 H2] H. unfold entry in H.
  destruct (le_lt_dec n u) as [Hu|Hu].
  - rewrite nth_overflow with (n := u) in H by lia. destruct v; discriminate.
  - split; auto. destruct (le_lt_dec n v) as [Hv|Hv]; auto.
    rewrite nth_overflow in H; [discriminate|].
    rewrite (H2 (nth u M [])); auto. apply nth_In. lia.
Qed.

Lemma adjacent_lt n M u v : square n M -> adjacent M u v -> u < n /\ v < n.
Proof. intros H [_ H']. eapply entry_bound; eauto. Qed.

Lemma ForallOrdPairs_app {A} (R : A -> A -> Prop) l1 l2 :
  ForallOrdPairs R l1 -> ForallOrdPairs R l2 ->
  (forall x y, In x l1 -> In y l2 -> R x y) -> ForallOrdPairs R (l1 ++ l2).
Proof.
  intros H1 H2 H. induction H1 as [|a l Ha Hl IH]; cbn; auto.
  constructor.
  - apply Forall_app. split; auto. apply Forall_forall. intros y Hy; apply H; cbn; auto.
  - apply IH. intros; apply H; cbn; auto.
Qed.

Section Correct.
Variables (n : nat) (M : matrix).
Hypothesis HM : undirected n M.
Let adj := nbr_set M n.

Definition pairwise (Qs : list nat) :=
  forall a b, In a Qs -> In b Qs -> a <> b -> adjacent M a b.

Lemma expand_correct Qs subg cand ext outs :
  expand adj Qs subg cand ext outs ->
  (forall v, In v subg <-> v < n /\ forall q, In q Qs -> adjacent M q v) ->
  incl cand subg -> NoDup Qs -> (forall q, In q Qs -> q < n) -> pairwise Qs ->
  (exists u, In u subg /\ forall v, In v ext <-> In v cand /\ ~ In v (adj u)) ->
  (forall K, In K outs -> NoDup K /\ maximal_clique n M (set_of K) /\ incl Qs K /\
             forall v, In v K -> ~ In v Qs -> In v cand) /\
  (forall S, maximal_clique n M S -> (forall q, In q Qs -> S q = true) ->
             (forall v, S v = true -> ~ In v Qs -> In v cand) ->
             exists K, In K outs /\ same_set (set_of K) S) /\
  ForallOrdPairs (fun K K' => ~ same_set (set_of K) (set_of K')) outs.
Proof.
  induction 1 as [Qs subg cand
    | Qs subg cand ext q outs Hq Hsub Hex IH
    | Qs subg cand ext q outs Hq Hsub Hcand Hex IH
    | Qs subg cand ext q u' outs1 outs2 Hq Hsub Hcand Hu' Hex1 IH1 Hex2 IH2];
    intros Fsub Fcand Hnd Hlt Hpw (u & Hu & Fext).
  - (* nothing left *)
    split; [intros K []|]. split; [|constructor].
    intros S HS HQ HC. exfalso.
    destruct HS as [[HSn HSc] HSm].
    apply Fsub in Hu. destruct Hu as [Hun HuQ].
    assert (HnotQ : ~ In u Qs).
    { intros Hi. destruct (HuQ _ Hi). congruence. }
    (* S + u is a clique *)
    assert (HSu : S u = true).
    { apply (HSm (fun v => (v =? u) || S v)).
      - split.
        + intros v Hv. apply orb_true_iff in Hv. destruct Hv as [E|E]; auto.
          apply Nat.eqb_eq in E; subst; auto.
        + assert (Hadj : forall w, S w = true -> w <> u -> adjacent M w u).
          { intros w Hw Hwu. destruct (in_dec Nat.eq_dec w Qs) as [Hi|Hi]; auto.
            specialize (HC w Hw Hi).
            destruct (in_dec Nat.eq_dec w (adj u)) as [Ha|Ha].
            - apply nbr_set_In in Ha. eapply adjacent_sym; eauto. tauto.
            - exfalso. assert (In w []) by (apply Fext; auto). auto. }
          intros a b Ha Hb Hab. apply orb_true_iff in Ha, Hb.
          destruct Ha as [Ea|Ea], Hb as [Eb|Eb];
            try apply Nat.eqb_eq in Ea; try apply Nat.eqb_eq in Eb; subst; auto; try congruence.
          eapply adjacent_sym; eauto.
      - intros v Hv. rewrite Hv. apply orb_true_r.
      - rewrite Nat.eqb_refl. reflexivity. }
    assert (Hi : In u []).
    { apply Fext. split; [auto|].
      intros Ha. apply nbr_set_In in Ha. destruct Ha as [_ [Ha _]]. congruence. }
    auto.
  - (* leaf *)
    assert (Hqc : In q cand) by (apply Fext in Hq; tauto).
    assert (Hqs : In q subg) by auto.
    pose proof Hqs as Hqs'. apply Fsub in Hqs'. destruct Hqs' as [Hqn HqQ].
    assert (HnotQ : ~ In q Qs). { intros Hi. destruct (HqQ _ Hi). congruence. }
    assert (Hpw' : pairwise (q :: Qs)).
    { intros a b [<-|Ha] [<-|Hb] Hab; auto; try congruence.
      eapply adjacent_sym; eauto. }
    assert (Hno : forall v, v < n -> (forall a, In a (q :: Qs) -> adjacent M a v) -> False).
    { intros v Hv Ha. assert (Hi : In v (inter subg (adj q))).
      { apply In_inter. split.
        - apply Fsub. split; auto. intros; apply Ha; cbn; auto.
        - apply nbr_set_In. split; auto. apply Ha; cbn; auto. }
      rewrite Hsub in Hi; destruct Hi. }
    destruct IH as (IHa & IHb & IHc).
    { auto. }
    { intros v Hv. apply In_discard in Hv. apply Fcand; tauto. }
    { auto. } { auto. } { auto. }
    { exists u. split; auto. intros v. rewrite !In_discard, Fext. tauto. }
    assert (Hset : forall v, set_of (rev (q :: Qs)) v = true <-> v = q \/ In v Qs).
    { intros v. rewrite set_of_In, <- in_rev. cbn. intuition. }
    split; [|split].
    + intros K [<-|HK].
      * split; [apply NoDup_rev; constructor; auto|].
        split; [|split].
        -- split.
           ++ split.
              ** intros v Hv. apply Hset in Hv. destruct Hv; subst; auto.
              ** intros a b Ha Hb Hab. apply Hset in Ha, Hb.
                 apply Hpw'; cbn; auto; intuition.
           ++ intros T [HTn HTc] HT v Hv. apply Hset.
              destruct (in_dec Nat.eq_dec v (q :: Qs)) as [Hi|Hi].
              ** destruct Hi; auto.
              ** exfalso. apply (Hno v); auto. intros a Ha. apply HTc; auto.
                 --- apply HT. apply Hset. destruct Ha; auto.
                 --- intros ->; contradiction.
        -- intros v Hv. rewrite <- in_rev. cbn; auto.
        -- intros v Hv Hv'. rewrite <- in_rev in Hv. destruct Hv as [<-|Hv]; [auto|contradiction].
      * destruct (IHa K HK) as (A1 & A2 & A3 & A4). split; [auto|]. split; [auto|]. split; [auto|].
        intros v Hv Hv'. specialize (A4 v Hv Hv'). apply In_discard in A4. tauto.
    + intros S HS HQ HC. destruct (S q) eqn:ESq.
      * exists (rev (q :: Qs)). split; [cbn; auto|].
        intros v. destruct (S v) eqn:ESv.
        -- apply Hset. destruct (in_dec Nat.eq_dec v (q :: Qs)) as [Hi|Hi].
           ++ destruct Hi; auto.
           ++ exfalso. destruct HS as [[HSn HSc] _]. apply (Hno v); auto.
              intros a Ha. apply HSc; auto.
              ** destruct Ha as [<-|Ha]; auto.
              ** intros ->; contradiction.
        -- destruct (set_of (rev (q :: Qs)) v) eqn:E; auto.
           apply Hset in E. destruct E as [->|E]; [congruence|].
           rewrite (HQ v E) in ESv. discriminate.
      * destruct (IHb S HS HQ) as (K & HK & HE).
        -- intros v Hv Hv'. apply In_discard. split; auto. intros ->. congruence.
        -- exists K. split; auto. right; auto.
    + constructor; auto. apply Forall_forall. intros K HK HE.
      destruct (IHa K HK) as (_ & _ & _ & A4).
      assert (Hi : In q K). { apply set_of_In. rewrite <- HE. apply Hset; auto. }
      specialize (A4 q Hi HnotQ). apply In_discard in A4. tauto.
  - (* dead end *)
    assert (Hqc : In q cand) by (apply Fext in Hq; tauto).
    destruct IH as (IHa & IHb & IHc).
    { auto. }
    { intros v Hv. apply In_discard in Hv. apply Fcand; tauto. }
    { auto. } { auto. } { auto. }
    { exists u. split; auto. intros v. rewrite !In_discard, Fext. tauto. }
    split; [|split]; auto.
    + intros K HK. destruct (IHa K HK) as (A1 & A2 & A3 & A4).
      split; [auto|]. split; [auto|]. split; [auto|].
      intros v Hv Hv'. specialize (A4 v Hv Hv'). apply In_discard in A4. tauto.
    + intros S HS HQ HC. destruct (S q) eqn:ESq.
      * exfalso.
        destruct (inter subg (adj q)) as [|w s0] eqn:Es; [congruence|].
        assert (Hw : In w (inter subg (adj q))) by (rewrite Es; left; auto).
        apply In_inter in Hw. destruct Hw as [Hw1 Hw2].
        apply nbr_set_In in Hw2. destruct Hw2 as [Hwn Hw2].
        pose proof Hw1 as Hw1'. apply Fsub in Hw1'. destruct Hw1' as [_ HwQ].
        destruct HS as [[HSn HSc] HSm].
        assert (HSv : forall v, S v = true -> v = q \/ In v Qs).
        { intros v Hv. destruct (Nat.eq_dec v q); auto.
          destruct (in_dec Nat.eq_dec v Qs); auto. exfalso.
          assert (Hi : In v (inter (discard q cand) (adj q))).
          { apply In_inter. split; [apply In_discard; auto|].
            apply nbr_set_In. split; auto. }
          rewrite Hcand in Hi; destruct Hi. }
        assert (HSw : S w = true).
        { apply (HSm (fun v => (v =? w) || S v)).
          - split.
            + intros v Hv. apply orb_true_iff in Hv. destruct Hv as [E|E]; auto.
              apply Nat.eqb_eq in E; subst; auto.
            + assert (Hadj : forall a, S a = true -> a <> w -> adjacent M a w).
              { intros a Ha Haw. destruct (HSv a Ha) as [->|Hi]; auto. }
              intros a b Ha Hb Hab. apply orb_true_iff in Ha, Hb.
              destruct Ha as [Ea|Ea], Hb as [Eb|Eb];
                try apply Nat.eqb_eq in Ea; try apply Nat.eqb_eq in Eb; subst; auto; try congruence.
              eapply adjacent_sym; eauto.
          - intros v Hv. rewrite Hv. apply orb_true_r.
          - rewrite Nat.eqb_refl. reflexivity. }
        destruct (HSv w HSw) as [->|Hi].
        -- destruct Hw2; congruence.
        -- destruct (HwQ w Hi); congruence.
      * apply IHb; auto. intros v Hv Hv'. apply In_discard. split; auto.
        intros ->. congruence.
  - (* push *)
    assert (Hqc : In q cand) by (apply Fext in Hq; tauto).
    assert (Hqs : In q subg) by auto.
    pose proof Hqs as Hqs'. apply Fsub in Hqs'. destruct Hqs' as [Hqn HqQ].
    assert (HnotQ : ~ In q Qs). { intros Hi. destruct (HqQ _ Hi). congruence. }
    destruct IH1 as (I1a & I1b & I1c).
    { intros v. unfold adj. rewrite In_inter, Fsub, nbr_set_In. split.
      - intros [[? Hv] [_ ?]]. split; auto. intros a [<-|Ha]; auto.
      - intros [? Hv]. repeat split; auto; try (intros; apply Hv; cbn; auto);
        apply Hv; cbn; auto. }
    { intros v Hv. apply In_inter in Hv. destruct Hv as [Hv1 Hv2].
      apply In_discard in Hv1. apply In_inter. split; auto. apply Fcand; tauto. }
    { constructor; auto. }
    { intros a [<-|Ha]; auto. }
    { intros a b [<-|Ha] [<-|Hb] Hab; auto; try congruence.
      eapply adjacent_sym; eauto. }
    { exists u'. split; auto. intros v. rewrite In_diff. tauto. }
    destruct IH2 as (I2a & I2b & I2c).
    { auto. }
    { intros v Hv. apply In_discard in Hv. apply Fcand; tauto. }
    { auto. } { auto. } { auto. }
    { exists u. split; auto. intros v. rewrite !In_discard, Fext. tauto. }
    split; [|split].
    + intros K HK. apply in_app_or in HK. destruct HK as [HK|HK].
      * destruct (I1a K HK) as (A1 & A2 & A3 & A4).
        split; [auto|]. split; [auto|]. split.
        -- intros v Hv. apply A3; right; auto.
        -- intros v Hv Hv'. destruct (Nat.eq_dec v q) as [->|Hne]; auto.
           assert (Hi : In v (inter (discard q cand) (adj q))).
           { apply A4; auto. intros [<-|Hi]; auto. }
           apply In_inter in Hi. destruct Hi as [Hi _]. apply In_discard in Hi. tauto.
      * destruct (I2a K HK) as (A1 & A2 & A3 & A4).
        split; [auto|]. split; [auto|]. split; [auto|].
        intros v Hv Hv'. specialize (A4 v Hv Hv'). apply In_discard in A4. tauto.
    + intros S HS HQ HC. destruct (S q) eqn:ESq.
      * destruct (I1b S HS) as (K & HK & HE).
        -- intros a [<-|Ha]; auto.
        -- intros v Hv Hv'. apply In_inter. split.
           ++ apply In_discard. split; [|intros ->; apply Hv'; cbn; auto].
              apply HC; auto. intros Hi; apply Hv'; cbn; auto.
           ++ destruct HS as [[HSn HSc] _]. apply nbr_set_In. split; auto.
              apply HSc; auto. intros ->; apply Hv'; cbn; auto.
        -- exists K. split; auto. apply in_or_app; auto.
      * destruct (I2b S HS HQ) as (K & HK & HE).
        -- intros v Hv Hv'. apply In_discard. split; auto. intros ->. congruence.
        -- exists K. split; auto. apply in_or_app; auto.
    + apply ForallOrdPairs_app; auto.
      intros K K' HK HK' HE.
      destruct (I1a K HK) as (_ & _ & A3 & _).
      destruct (I2a K' HK') as (_ & _ & _ & B4).
      assert (Hi : In q K'). { apply set_of_In. rewrite <- HE. apply set_of_In. apply A3; cbn; auto. }
      specialize (B4 q Hi HnotQ). apply In_discard in B4. tauto.
Qed.
End Correct.

(** Fuel only ever turns [None] into an answer. *)
Lemma mc_run_mono adj orc f : forall t s acc r, mc_run f adj orc t s acc = Some r ->
  forall f', f <= f' -> mc_run f' adj orc t s acc = Some r.
Proof.
  induction f as [|f IH]; intros t s acc r H f' Hf; [discriminate|].
  destruct f' as [|f']; [lia|]. cbn [mc_run] in *.
  destruct (mc_step adj (orc (2 * t)) (orc (2 * t + 1)) s); auto; apply IH; auto; lia.
Qed.

Lemma max_cliques_mono orc M f r : max_cliques f orc M = Some r ->
  forall f', f <= f' -> max_cliques f' orc M = Some r.
Proof.
  unfold max_cliques. destruct (length M); [auto|]. intros H f' Hf.
  eapply mc_run_mono; eauto.
Qed.

Lemma max_cliques_det orc M f1 f2 r1 r2 :
  max_cliques f1 orc M = Some r1 -> max_cliques f2 orc M = Some r2 -> r1 = r2.
Proof.
  intros H1 H2. destruct (le_ge_dec f1 f2) as [H|H].
  - rewrite (max_cliques_mono _ _ _ _ H1 f2 H) in H2. congruence.
  - rewrite (max_cliques_mono _ _ _ _ H2 f1 H) in H1. congruence.
Qed.

(** The generator run on any matrix: it ends, and its output is an expansion. *)
Lemma max_cliques_run orc M :
  0 < length M ->
  exists fuel outs u, max_cliques fuel orc M = Some (Ok outs) /\
    In u (seq 0 (length M)) /\
    expand (nbr_set M (length M)) [] (seq 0 (length M)) (seq 0 (length M))
           (diff (seq 0 (length M)) (nbr_set M (length M) u)) outs.
Proof.
  intros Hpos. unfold max_cliques.
  destruct (length M) as [|n'] eqn:En; [lia|].
  set (n := S n') in *. set (adj := nbr_set M n). set (V := seq 0 n).
  set (u := max_key (orc 0) adj V V).
  destruct (loop_expands adj orc (length V) [] V V (diff V (adj u))) with
    (t := 1) (x := @None nat) (st := @nil (list nat * list nat * list nat))
    as (k & outs & cand' & y & Hex & Hrun).
  - auto.
  - intros z Hz; apply In_diff in Hz; tauto.
  - intros z Hz; auto.
  - exists (k + 1), outs, u. split; [|split].
    + rewrite Hrun. cbn. reflexivity.
    + apply max_key_In. unfold V, n. cbn. congruence.
    + exact Hex.
Qed.

Theorem max_cliques_spec n M orc :
  0 < n -> undirected n M ->
  exists fuel outs, max_cliques fuel orc M = Some (Ok outs) /\
    (forall K, In K outs -> NoDup K /\ maximal_clique n M (set_of K)) /\
    (forall S, maximal_clique n M S -> exists K, In K outs /\ same_set (set_of K) S) /\
    ForallOrdPairs (fun K K' => ~ same_set (set_of K) (set_of K')) outs.
Proof.
  intros Hn HM. assert (Hl : length M = n) by apply HM.
  destruct (max_cliques_run orc M) as (fuel & outs & u & Hr & Hu & Hex); [lia|].
  rewrite Hl in *.
  exists fuel, outs. split; [auto|].
  destruct (expand_correct n M HM _ _ _ _ _ Hex) as (A & B & C).
  - intros v. rewrite in_seq. cbn. intuition lia.
  - intros v; auto.
  - constructor.
  - intros q [].
  - intros a b [].
  - exists u. split; auto. intros v. rewrite In_diff. tauto.
  - split; [|split]; auto.
    + intros K HK. destruct (A K HK) as (A1 & A2 & _). auto.
    + intros S HS. apply B; auto.
      intros v Hv _. apply in_seq. destruct HS as [[HS _] _]. specialize (HS v Hv). lia.
Qed.

Lemma same_set_sym S T : same_set S T -> same_set T S.
Proof. intros H v; rewrite H; auto. Qed.
Lemma same_set_trans S T U : same_set S T -> same_set T U -> same_set S U.
Proof. intros H1 H2 v; rewrite H1; auto. Qed.

Lemma distinct_exactly_once outs S :
  ForallOrdPairs (fun K K' => ~ same_set (set_of K) (set_of K')) outs ->
  (exists K, In K outs /\ same_set (set_of K) S) ->
  exactly_once (fun K => same_set (set_of K) S) outs.
Proof.
  intros Hd (K & HK & HE). apply in_split in HK. destruct HK as (l1 & l2 & ->).
  exists l1, K, l2. split; [auto|]. split; [auto|].
  intros y Hy HyS. apply in_app_or in Hy. destruct Hy as [Hy|Hy].
  - induction l1 as [|a l1 IH]; [destruct Hy|].
    cbn in Hd. inversion Hd as [|? ? Ha Hd']; subst.
    destruct Hy as [->|Hy]; [|apply IH; auto].
    rewrite Forall_forall in Ha. apply (Ha K); [apply in_or_app; right; cbn; auto|].
    eapply same_set_trans; eauto. apply same_set_sym; auto.
  - induction l1 as [|a l1 IH].
    + cbn in Hd. inversion Hd as [|? ? Ha Hd']; subst.
      rewrite Forall_forall in Ha. apply (Ha y Hy).
      eapply same_set_trans; eauto. apply same_set_sym; auto.
    + cbn in Hd. inversion Hd; subst. auto.
Qed.

Lemma max_cliques_ends orc M : exists outs, ends_with (fun f => max_cliques f orc M) (Ok outs).
Proof.
  destruct M as [|r M'] eqn:EM.
  - exists []. split; [exists 0; auto|]. cbn. intros; congruence.
  - destruct (max_cliques_run orc M) as (f & outs & u & H & _).
    { subst; cbn; lia. }
    subst M. exists outs. apply ends_with_mono; eauto.
    intros; eapply max_cliques_mono; eauto.
Qed.

Lemma max_cliques_full n M orc :
  0 < n -> undirected n M ->
  exists cliques, ends_with (fun f => max_cliques f orc M) (Ok cliques) /\
    (forall K, In K cliques -> NoDup K /\ maximal_clique n M (set_of K)) /\
    (forall S, maximal_clique n M S ->
       exactly_once (fun K => same_set (set_of K) S) cliques).
Proof.
  intros Hn HM. destruct (max_cliques_spec n M orc Hn HM) as (f & outs & H & A & B & C).
  exists outs. split; [|split]; auto.
  - apply ends_with_mono; eauto. intros; eapply max_cliques_mono; eauto.
  - intros S HS. apply distinct_exactly_once; auto.
Qed.

Lemma max_cliques_terminates M orc :
  exists cliques, ends_with (fun f => max_cliques f orc M) (Ok cliques) /\ (M = [] -> cliques = []).
Proof.
  destruct (max_cliques_ends orc M) as [outs H]. exists outs. split; auto.
  intros ->. destruct H as [_ H]. specialize (H 0 (Ok []) eq_refl). congruence.
Qed.
