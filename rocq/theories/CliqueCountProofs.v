(** How many maximal cliques there are and how long max_cliques takes to list them. *)
From Verif Require Import Base Spec MaxCliquesModel MaxCliquesProofs CliqueCountSpec.

Fixpoint moon (c : nat) : nat :=
  match c with
  | 0 => 1 | 1 => 1 | 2 => 2
  | S (S (S c')) => match c' with 1 => 4 | _ => 3 * moon c' end
  end.
Lemma moon_step c : c <> 1 -> moon (S (S (S c))) = 3 * moon c.
Proof. intro H. cbn [moon]. destruct c as [|[|c]]; [reflexivity|congruence|reflexivity]. Qed.
Lemma moon_pos c : 1 <= moon c.
Proof.
  induction c as [c IH] using (well_founded_induction lt_wf). destruct c as [|[|[|c]]]; [cbn; lia..|].
  destruct (Nat.eq_dec c 1) as [->|N]; [cbn; lia|]. rewrite moon_step by exact N. specialize (IH c ltac:(lia)). lia.
Qed.
Lemma moon_succ c : 1 <= c -> moon c < moon (S c).
Proof.
  induction c as [c IH] using (well_founded_induction lt_wf). intro H.
  destruct (Nat.le_gt_cases c 4) as [L|L].
  - destruct c as [|[|[|[|[|c]]]]]; try lia; vm_compute; lia.
  - destruct c as [|[|[|c]]]; try lia. rewrite !moon_step by lia. specialize (IH c ltac:(lia) ltac:(lia)). lia.
Qed.
Lemma moon_mono c d : c <= d -> moon c <= moon d.
Proof.
  induction 1 as [|d L IH]; [lia|]. destruct d as [|d]; [assert (c = 0) as -> by lia; cbn; lia|].
  pose proof (moon_succ (S d) ltac:(lia)). lia.
Qed.
Lemma moon_mul j k : k * moon j <= moon (j + k).
Proof.
  remember (j + k) as s eqn:E. revert j k E. induction s as [s IH] using (well_founded_induction lt_wf). intros j k ->.
  destruct (Nat.le_gt_cases 5 k) as [K|K].
  - destruct k as [|[|[|k]]]; try lia. replace (j + S (S (S k))) with (S (S (S (j + k)))) by lia. rewrite moon_step by lia.
    specialize (IH (j + k) ltac:(lia) j k eq_refl). nia.
  - destruct (Nat.le_gt_cases 5 j) as [J|J].
    + destruct j as [|[|[|j]]]; try lia. cbn [Nat.add]. rewrite !moon_step by lia.
      specialize (IH (j + k) ltac:(lia) j k eq_refl). lia.
    + destruct j as [|[|[|[|[|j]]]]]; try lia; destruct k as [|[|[|[|[|k]]]]]; try lia; vm_compute; lia.
Qed.
Lemma moon_cube c : moon c ^ 3 <= 3 ^ c.
Proof.
  induction c as [c IH] using (well_founded_induction lt_wf).
  destruct (Nat.le_gt_cases c 4) as [L|L].
  - destruct c as [|[|[|[|[|c]]]]]; try lia; vm_compute; lia.
  - destruct c as [|[|[|c]]]; try lia. rewrite moon_step by lia. specialize (IH c ltac:(lia)).
    rewrite Nat.pow_mul_l. change (S (S (S c))) with (3 + c). rewrite Nat.pow_add_r. nia.
Qed.

(** Iterations spent below a choice that leaves [c] candidates. *)
Definition below (c : nat) : nat := match c with 0 => 0 | _ => 5 * moon c - 3 end.
Lemma below_mono c d : c <= d -> below c <= below d.
Proof.
  intro H. destruct c as [|c]; [cbn; lia|]. destruct d as [|d]; [lia|]. unfold below. pose proof (moon_mono _ _ H). lia.
Qed.
Lemma below_step c k : 1 <= c -> k <= c -> k * (1 + below (c - k)) + 1 <= below c.
Proof.
  intros C K. destruct c as [|c]; [lia|]. pose proof (moon_pos (S c)) as MP.
  destruct k as [|k]; [unfold below; lia|].
  destruct (Nat.eq_dec (S k) (S c)) as [->|N].
  - rewrite Nat.sub_diag. cbn [below]. pose proof (moon_mul 0 (S c)) as MM. cbn [moon] in MM. change (0 + S c) with (S c) in MM. lia.
  - assert (J : S c - S k <> 0) by lia. pose proof (moon_mul (S c - S k) (S k)) as MM.
    replace (S c - S k + S k) with (S c) in MM by lia. pose proof (moon_pos (S c - S k)) as P.
    destruct k as [|k].
    + replace (S c - 1) with c in * by lia. pose proof (moon_succ c ltac:(lia)). unfold below. destruct c as [|c]; [lia|]. lia.
    + unfold below. destruct (S c - S (S k)) as [|j] eqn:EJ; [lia|]. nia.
Qed.

Lemma inter_discard_length q s t : length (inter (discard q s) t) <= length (inter s t).
Proof.
  unfold inter, discard. induction s as [|a s IH]; cbn; [lia|].
  destruct (negb (a =? q)) eqn:E; cbn; destruct (mem a t); cbn; lia.
Qed.
Lemma inter_diff_length s t : length (inter s t) + length (diff s t) = length s.
Proof. unfold inter, diff. induction s as [|a s IH]; cbn; [lia|]. destruct (mem a t); cbn; lia. Qed.
Lemma list_max_ge l x : In x l -> x <= list_max l.
Proof.
  intro I. pose proof (proj1 (list_max_le l (list_max l)) (Nat.le_refl _)) as F. rewrite Forall_forall in F. now apply F.
Qed.
Lemma max_key_max o adj subg cand q : In q subg -> length (inter cand (adj q)) <= length (inter cand (adj (max_key o adj subg cand))).
Proof.
  intro I. assert (N : subg <> []) by (destruct subg; [destruct I|congruence]).
  unfold max_key. pose proof (pick_In o _ (maximizers_nonempty (fun u => length (inter cand (adj u))) subg N)) as P.
  unfold maximizers in P at 2. apply filter_In in P. destruct P as [_ P]. apply Nat.eqb_eq in P. rewrite P.
  apply list_max_ge. apply (in_map (fun u => length (inter cand (adj u)))). exact I.
Qed.

Lemma loop_count adj orc m :
  forall d Qs subg cand ext, length cand <= m -> incl ext cand -> incl cand subg ->
  (forall q, In q ext -> length (inter cand (adj q)) <= d) ->
  forall t x st, exists k outs cand' y,
    k <= length ext * (1 + below d) /\ length outs <= length ext * moon d /\
    forall f acc,
      mc_run (k + f) adj orc t (MC (x :: map Some Qs) subg cand ext st) acc =
      mc_run f adj orc (t + k) (MC (y :: map Some Qs) subg cand' [] st) (acc ++ outs).
Proof.
  induction m as [|m IH]; intros d Qs subg cand ext Hm He Hc Hd t x st.
  - assert (ext = []).
    { destruct ext as [|a e]; auto. specialize (He a (or_introl eq_refl)).
      destruct cand; [destruct He|cbn in Hm; lia]. }
    subst ext. exists 0, [], cand, x. split; [lia|]. split; [cbn; lia|].
    intros f acc. rewrite app_nil_r, Nat.add_0_r. reflexivity.
  - destruct ext as [|a e] eqn:Eext.
    { exists 0, [], cand, x. split; [lia|]. split; [cbn; lia|].
      intros f acc. rewrite app_nil_r, Nat.add_0_r. reflexivity. }
    rewrite <- Eext in *. assert (Hne : ext <> []) by (rewrite Eext; congruence).
    set (q := pick (orc (2 * t)) ext).
    assert (Hq : In q ext) by (apply pick_In; auto).
    assert (Hqc : In q cand) by auto.
    pose proof (discard_length q cand Hqc) as HL.
    pose proof (discard_length q ext Hq) as HLe.
    assert (Hmem : mem q cand = true) by (apply mem_In; auto).
    assert (Hd' : forall q', In q' (discard q ext) -> length (inter (discard q cand) (adj q')) <= d).
    { intros q' I. apply In_discard in I. pose proof (inter_discard_length q cand (adj q')). specialize (Hd q' (proj1 I)). lia. }
    assert (Hdq : length (inter (discard q cand) (adj q)) <= d).
    { pose proof (inter_discard_length q cand (adj q)). specialize (Hd q Hq). lia. }
    assert (Hstep : forall f acc, mc_run (S f) adj orc t (MC (x :: map Some Qs) subg cand ext st) acc =
       match (match inter subg (adj q) with
          | [] => match all_some (rev (Some q :: map Some Qs)) with
              | Some K => Yield K (MC (Some q :: map Some Qs) subg (discard q cand) (discard q ext) st)
              | None => Escape TypeError end
          | _ :: _ => match inter (discard q cand) (adj q) with
              | [] => Continue (MC (Some q :: map Some Qs) subg (discard q cand) (discard q ext) st)
              | _ :: _ => Continue (MC (None :: Some q :: map Some Qs) (inter subg (adj q))
                   (inter (discard q cand) (adj q))
                   (diff (inter (discard q cand) (adj q))
                      (adj (max_key (orc (2 * t + 1)) adj (inter subg (adj q)) (inter (discard q cand) (adj q)))))
                   ((subg, discard q cand, discard q ext) :: st))
              end end)
       with
       | Continue s' => mc_run f adj orc (S t) s' acc
       | Yield K s' => mc_run f adj orc (S t) s' (acc ++ [K])
       | Stop => Some (Ok acc)
       | Escape e => Some (Err e)
       end).
    { intros f acc. cbn [mc_run]. unfold mc_step. cbn [mc_ext mc_Q mc_cand mc_subg mc_stack].
      rewrite Eext at 1. fold q. rewrite Hmem. cbn [negb].
      destruct (inter subg (adj q)) as [|b s0]; auto. }
    remember (inter subg (adj q)) as subq eqn:Dsub.
    remember (inter (discard q cand) (adj q)) as candq eqn:Dcand.
    assert (Dec : forall l : list nat, l = [] \/ l <> []) by (intros [|]; [left|right]; congruence).
    pose proof (moon_pos d) as MP.
    destruct (Dec subq) as [Esub|Hsubne].
    { (* leaf *)
      destruct (IH d Qs subg (discard q cand) (discard q ext)) with (t := S t) (x := Some q) (st := st)
        as (k & outs & cand' & y & Hk & Ho & Hrun).
      - lia.
      - apply incl_discard; auto.
      - intros z Hz; apply In_discard in Hz; apply Hc; tauto.
      - exact Hd'.
      - exists (S k), (rev (q :: Qs) :: outs), cand', y. split; [nia|]. split; [cbn [length]; nia|].
        intros f acc. cbn [Nat.add]. rewrite Hstep, Esub.
        assert (Ea : all_some (rev (Some q :: map Some Qs)) = Some (rev (q :: Qs))).
        { change (Some q :: map Some Qs) with (map Some (q :: Qs)).
          rewrite <- map_rev. apply all_some_map. }
        rewrite Ea. rewrite (Hrun f (acc ++ [rev (q :: Qs)])).
        rewrite <- app_assoc. cbn [app]. f_equal. lia. }
    destruct (Dec candq) as [Ecand|Hcandne].
    { (* dead end *)
      destruct (IH d Qs subg (discard q cand) (discard q ext)) with (t := S t) (x := Some q) (st := st)
          as (k & outs & cand' & y & Hk & Ho & Hrun).
      - lia.
      - apply incl_discard; auto.
      - intros z Hz; apply In_discard in Hz; apply Hc; tauto.
      - exact Hd'.
      - exists (S k), outs, cand', y. split; [nia|]. split; [nia|].
        intros f acc. cbn [Nat.add]. rewrite Hstep, Ecand.
        destruct subq; [congruence|]. rewrite (Hrun f acc). f_equal. lia. }
    (* push *)
    remember (max_key (orc (2 * t + 1)) adj subq candq) as u eqn:Du.
    assert (Hu : In u subq) by (rewrite Du; apply max_key_In; auto).
    assert (HLq : length candq <= length (discard q cand)).
    { rewrite Dcand. unfold inter. apply filter_length_le. }
    assert (Hcs : incl candq subq).
    { intros z Hz. rewrite Dcand in Hz. apply In_inter in Hz. destruct Hz as [Hz1 Hz2].
      rewrite Dsub. apply In_inter. split; auto. apply In_discard in Hz1. apply Hc; tauto. }
    pose proof (inter_diff_length candq (adj u)) as HID.
    destruct (IH (length (inter candq (adj u))) (q :: Qs) subq candq (diff candq (adj u))) with (t := S t)
            (x := @None nat) (st := (subg, discard q cand, discard q ext) :: st)
          as (k1 & outs1 & cand1 & y1 & Hk1 & Ho1 & Hrun1).
    { lia. }
    { intros z Hz; apply In_diff in Hz; tauto. }
    { exact Hcs. }
    { intros q' I. apply In_diff in I. rewrite Du. apply max_key_max. apply Hcs. tauto. }
    destruct (IH d Qs subg (discard q cand) (discard q ext)) with (t := S t + k1 + 1)
              (x := Some q) (st := st)
             as (k2 & outs2 & cand2 & y2 & Hk2 & Ho2 & Hrun2).
    { lia. }
    { apply incl_discard; auto. }
    { intros z Hz; apply In_discard in Hz; apply Hc; tauto. }
    { exact Hd'. }
    assert (Hc1 : 1 <= length candq) by (destruct candq; [congruence|cbn; lia]).
    assert (B1 : k1 + 1 <= below d).
    { pose proof (below_step (length candq) (length (diff candq (adj u))) Hc1 ltac:(lia)) as BS.
      replace (length candq - length (diff candq (adj u))) with (length (inter candq (adj u))) in BS by lia.
      pose proof (below_mono _ _ Hdq). lia. }
    assert (B2 : length outs1 <= moon d).
    { pose proof (moon_mul (length (inter candq (adj u))) (length (diff candq (adj u)))) as MM. rewrite HID in MM.
      pose proof (moon_mono _ _ Hdq). lia. }
    exists (S k1 + 1 + k2), (outs1 ++ outs2), cand2, y2. split; [nia|]. split; [rewrite app_length; nia|].
      intros f acc.
      replace (S k1 + 1 + k2 + f) with (S (k1 + (S (k2 + f)))) by lia.
      rewrite Hstep.
      assert (Hgo : forall (A B : mc_event),
        match subq with [] => A | _ :: _ => match candq with [] => B | _ :: _ =>
          Continue (MC (None :: Some q :: map Some Qs) subq candq (diff candq (adj u))
                   ((subg, discard q cand, discard q ext) :: st)) end end =
          Continue (MC (None :: Some q :: map Some Qs) subq candq (diff candq (adj u))
                   ((subg, discard q cand, discard q ext) :: st))).
      { intros A B. destruct subq; [congruence|]. destruct candq; [congruence|]. reflexivity. }
      rewrite Hgo.
      cbn [map] in Hrun1.
      rewrite (Hrun1 (S (k2 + f)) acc).
      cbn [mc_run]. unfold mc_step at 1. cbn [mc_ext mc_Q mc_stack].
      replace (S (S t + k1)) with (S t + k1 + 1) by lia.
      rewrite (Hrun2 f (acc ++ outs1)). rewrite <- app_assoc. f_equal. lia.
Qed.

Theorem max_cliques_time orc M : exists outs, max_cliques (5 * moon (length M)) orc M = Some (Ok outs) /\ length outs <= moon (length M).
Proof.
  destruct (length M) as [|n'] eqn:En.
  { unfold max_cliques. rewrite En. exists []. split; [reflexivity|cbn; lia]. }
  unfold max_cliques. rewrite En.
  set (n := S n') in *. set (adj := nbr_set M n). set (V := seq 0 n).
  set (u := max_key (orc 0) adj V V).
  assert (LV : length V = n) by (unfold V; apply seq_length).
  destruct (loop_count adj orc (length V) (length (inter V (adj u))) [] V V (diff V (adj u))) with
    (t := 1) (x := @None nat) (st := @nil (list nat * list nat * list nat))
    as (k & outs & cand' & y & Hk & Ho & Hrun).
  - auto.
  - intros z Hz; apply In_diff in Hz; tauto.
  - intros z Hz; auto.
  - intros q I. apply In_diff in I. apply max_key_max. tauto.
  - pose proof (inter_diff_length V (adj u)) as HID.
    pose proof (below_step n (length (diff V (adj u))) ltac:(unfold n; lia) ltac:(lia)) as BS.
    replace (n - length (diff V (adj u))) with (length (inter V (adj u))) in BS by lia.
    pose proof (moon_mul (length (inter V (adj u))) (length (diff V (adj u)))) as MM. rewrite HID, LV in MM.
    exists outs. split; [|lia].
    assert (B : k + 1 <= 5 * moon n). { assert (X : below n = 5 * moon n - 3) by reflexivity. lia. }
    replace (5 * moon n) with (k + S (5 * moon n - k - 1)) by lia. rewrite Hrun. reflexivity.
Qed.

(** Groups of three. *)
Definition choice (k x v : nat) : bool := (v <? 3 * k) && (v mod 3 =? (x / 3 ^ (v / 3)) mod 3).
Lemma triples_entry k u v : entry (triples k) u v = true <-> u < 3 * k /\ v < 3 * k /\ (u = v \/ u / 3 <> v / 3).
Proof.
  unfold triples, entry. destruct (Nat.lt_ge_cases u (3 * k)) as [U|U].
  - rewrite (nth_indep _ [] (map (fun w => orb (0 =? w) (negb (0 / 3 =? w / 3))) (seq 0 (3 * k)))) by (now rewrite map_length, seq_length).
    rewrite (map_nth (fun u => map (fun v => orb (u =? v) (negb (u / 3 =? v / 3))) (seq 0 (3 * k)))), seq_nth by assumption. cbn [Nat.add].
    destruct (Nat.lt_ge_cases v (3 * k)) as [V|V].
    + rewrite (nth_indep _ false (orb (u =? 0) (negb (u / 3 =? 0 / 3)))) by (now rewrite map_length, seq_length).
      rewrite (map_nth (fun v => orb (u =? v) (negb (u / 3 =? v / 3)))), seq_nth by assumption. cbn [Nat.add].
      rewrite orb_true_iff, negb_true_iff, Nat.eqb_eq, Nat.eqb_neq. tauto.
    + rewrite nth_overflow by (rewrite map_length, seq_length; lia). split; [discriminate|lia].
  - rewrite (nth_overflow _ []) by (rewrite map_length, seq_length; lia). split; [destruct v; discriminate|lia].
Qed.
Lemma triples_undirected k : undirected (3 * k) (triples k).
Proof.
  split.
  - split; [unfold triples; now rewrite map_length, seq_length|]. intros r I. unfold triples in I. apply in_map_iff in I.
    destruct I as (u & <- & _). now rewrite map_length, seq_length.
  - intros u v. destruct (entry (triples k) u v) eqn:E1, (entry (triples k) v u) eqn:E2; auto.
    + apply triples_entry in E1. assert (entry (triples k) v u = true); [|congruence]. apply triples_entry. intuition.
    + apply triples_entry in E2. assert (entry (triples k) u v = true); [|congruence]. apply triples_entry. intuition.
Qed.
Lemma div3 v : v = 3 * (v / 3) + v mod 3 /\ v mod 3 < 3.
Proof. split; [apply Nat.div_mod; lia|apply Nat.mod_upper_bound; lia]. Qed.
Lemma choice_maximal k x : maximal_clique (3 * k) (triples k) (choice k x).
Proof.
  split; [split|].
  - intros v H. apply andb_true_iff in H. now apply Nat.ltb_lt.
  - intros u v Hu Hv N. split; [exact N|]. apply andb_true_iff in Hu, Hv. rewrite Nat.ltb_lt, Nat.eqb_eq in Hu, Hv.
    apply triples_entry. split; [tauto|]. split; [tauto|]. right. intro E. apply N.
    destruct Hu as [_ Hu], Hv as [_ Hv]. rewrite E in Hu. destruct (div3 u) as [Du _], (div3 v) as [Dv _]. lia.
  - intros T [T1 T2] Sub v Tv. specialize (T1 v Tv). apply andb_true_iff. rewrite Nat.ltb_lt, Nat.eqb_eq. split; [exact T1|].
    remember (3 * (v / 3) + (x / 3 ^ (v / 3)) mod 3) as w eqn:DW.
    assert (B : (x / 3 ^ (v / 3)) mod 3 < 3) by (apply Nat.mod_upper_bound; lia).
    assert (W1 : w / 3 = v / 3) by (symmetry; apply (Nat.div_unique w 3 (v / 3) ((x / 3 ^ (v / 3)) mod 3)); [exact B|first [exact DW|reflexivity]]).
    assert (W2 : w mod 3 = (x / 3 ^ (v / 3)) mod 3) by (symmetry; apply (Nat.mod_unique w 3 (v / 3)); [exact B|first [exact DW|reflexivity]]).
    destruct (div3 v) as [Dv Bv].
    assert (VK : v / 3 < k) by (apply Nat.div_lt_upper_bound; lia).
    assert (Cw : choice k x w = true).
    { unfold choice. apply andb_true_iff. rewrite Nat.ltb_lt, Nat.eqb_eq, W1, W2. split; [lia|reflexivity]. }
    apply Sub in Cw. destruct (Nat.eq_dec w v) as [E|N]; [rewrite E in W2; exact W2|]. exfalso.
    destruct (T2 w v Cw Tv N) as [_ E]. apply triples_entry in E. destruct E as (_ & _ & [E|E]); [congruence|]. apply E. exact W1.
Qed.
Lemma digits k : forall x y, x < 3 ^ k -> y < 3 ^ k -> (forall i, i < k -> (x / 3 ^ i) mod 3 = (y / 3 ^ i) mod 3) -> x = y.
Proof.
  induction k as [|k IH]; intros x y X Y H; [cbn in X, Y; lia|].
  destruct (div3 x) as [Dx Bx], (div3 y) as [Dy By].
  assert (E : x mod 3 = y mod 3). { specialize (H 0 ltac:(lia)). cbn [Nat.pow] in H. now rewrite !Nat.div_1_r in H. }
  assert (E' : x / 3 = y / 3); [|lia]. cbn [Nat.pow] in X, Y. apply IH.
  - apply Nat.div_lt_upper_bound; lia.
  - apply Nat.div_lt_upper_bound; lia.
  - intros i Hi. specialize (H (S i) ltac:(lia)). cbn [Nat.pow] in H.
    rewrite !Nat.div_div by (try lia; apply Nat.pow_nonzero; lia). exact H.
Qed.
Lemma choice_inj k x y : x < 3 ^ k -> y < 3 ^ k -> same_set (choice k x) (choice k y) -> x = y.
Proof.
  intros X Y S. apply (digits k); [assumption..|]. intros i Hi. set (d := (x / 3 ^ i) mod 3).
  assert (B : d < 3) by (apply Nat.mod_upper_bound; lia). set (v := 3 * i + d).
  assert (W1 : v / 3 = i) by (symmetry; apply (Nat.div_unique v 3 i d); [exact B|first [exact DW|reflexivity]]).
  assert (W2 : v mod 3 = d) by (symmetry; apply (Nat.mod_unique v 3 i); [exact B|first [exact DW|reflexivity]]).
  assert (C : choice k x v = true).
  { unfold choice. apply andb_true_iff. rewrite Nat.ltb_lt, Nat.eqb_eq, W1, W2. split; [unfold v; lia|reflexivity]. }
  rewrite (S v) in C. unfold choice in C. apply andb_true_iff in C. rewrite Nat.eqb_eq, W1, W2 in C. tauto.
Qed.
Lemma moon_triples k : moon (3 * k) = 3 ^ k.
Proof.
  induction k as [|k IH]; [reflexivity|]. replace (3 * S k) with (S (S (S (3 * k)))) by lia.
  rewrite moon_step by (destruct k; lia). rewrite IH. reflexivity.
Qed.
Lemma triples_count orc k outs fuel : 0 < k -> max_cliques fuel orc (triples k) = Some (Ok outs) -> length outs = 3 ^ k.
Proof.
  intros K H. pose proof (triples_undirected k) as U. assert (LM : length (triples k) = 3 * k) by apply U.
  destruct (max_cliques_time orc (triples k)) as (o & H' & L). pose proof (max_cliques_det _ _ _ _ _ _ H H') as E. injection E as <-.
  rewrite LM, moon_triples in L. apply Nat.le_antisymm; [exact L|].
  destruct (max_cliques_spec (3 * k) (triples k) orc ltac:(lia) U) as (f & o' & H2 & _ & B & _).
  pose proof (max_cliques_det _ _ _ _ _ _ H H2) as E. injection E as <-.
  set (row := fun S : vset => map S (seq 0 (3 * k))).
  assert (RI : forall S T : vset, (forall v, S v = true -> v < 3 * k) -> (forall v, T v = true -> v < 3 * k) -> row S = row T -> same_set S T).
  { intros S T BS BT E v. destruct (Nat.lt_ge_cases v (3 * k)) as [V|V].
    - pose proof (f_equal (fun r => nth v r (S 0)) E) as F. cbn beta in F. unfold row in F.
      rewrite map_nth, seq_nth in F by assumption. rewrite (nth_indep _ _ (T 0)) in F by (now rewrite map_length, seq_length).
      rewrite map_nth, seq_nth in F by assumption. exact F.
    - destruct (S v) eqn:E1; [apply BS in E1; lia|]. destruct (T v) eqn:E2; [apply BT in E2; lia|]. reflexivity. }
  assert (CB : forall x v, choice k x v = true -> v < 3 * k) by (intros x; apply (choice_maximal k x)).
  rewrite <- (seq_length (3 ^ k) 0), <- (map_length (fun x => row (choice k x))), <- (map_length (fun K => row (set_of K)) outs).
  apply NoDup_incl_length.
  - assert (ND : forall l, NoDup l -> (forall x, In x l -> x < 3 ^ k) -> NoDup (map (fun x => row (choice k x)) l)).
    { intros l N. induction N as [|a l Na _ IH]; intro LT; cbn; constructor.
      - rewrite in_map_iff. intros (b & E & I). apply Na. replace a with b; [exact I|].
        apply (choice_inj k); [apply LT; now right|apply LT; now left|]. apply RI; [apply CB|apply CB|exact E].
      - apply IH. intros x I. apply LT. now right. }
    apply ND; [apply seq_NoDup|]. intros x I. apply in_seq in I. lia.
  - intros r I. apply in_map_iff in I. destruct I as (x & <- & _). destruct (B _ (choice_maximal k x)) as (K' & IK & S).
    apply in_map_iff. exists K'. split; [|exact IK]. apply map_ext. intro v. apply S.
Qed.
