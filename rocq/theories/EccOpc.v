(** The clique cover search on graphs of one-pure-child structures. *)
From Verif Require Import Base Spec MaxCliquesModel MaxCliquesProofs HeuristicModel HeuristicProofs
  GraphModel GraphProofs EccModel EccProofs.

Lemma NoDup_app {X} (a b : list X) : NoDup a -> NoDup b ->
  (forall x, In x a -> In x b -> False) -> NoDup (a ++ b).
Proof.
  induction 1 as [|x a Hx Ha IH]; intros Hb H; [auto|]. cbn. constructor.
  - intros Hin. apply in_app_or in Hin. destruct Hin as [Hin|Hin]; [auto|]. apply (H x); cbn; auto.
  - apply IH; auto. intros y Hy. apply H. right; auto.
Qed.

Section Opc.
Variables (l n : nat) (B M : matrix) (cs : list nat).
Hypothesis HB : one_pure_child l n B.
Hypothesis HM : dependence_graph l n B M.
Hypothesis HD : unit_diagonal n M.
Notation pc k := (nth k cs 0).
Hypothesis Hpc : forall k, k < l -> pc k < n /\ entry B k (pc k) = true /\
  forall k', k' < l -> k' <> k -> entry B k' (pc k) = false.
Notation m := (length (upper_pairs n)).

Let HU : undirected n M := proj1 HM.

Lemma B_lt k w : k < l -> entry B k w = true -> w < n.
Proof.
  intros Hk E. destruct (le_lt_dec n w) as [L|L]; auto. unfold entry in E.
  rewrite nth_overflow in E; [discriminate|]. rewrite (opc_rows l n B HB k Hk). auto.
Qed.

Lemma M_of_B k u v : k < l -> entry B k u = true -> entry B k v = true -> entry M u v = true.
Proof.
  intros Hk Hu Hv. pose proof (B_lt k u Hk Hu). pose proof (B_lt k v Hk Hv).
  destruct (Nat.eq_dec u v) as [->|Hne]; [apply HD; auto|].
  apply (proj2 HM); auto. exists k; auto.
Qed.

Lemma pc_nbr k w : k < l -> w < n -> entry M (pc k) w = true -> entry B k w = true.
Proof.
  intros Hk Hw E. destruct (Hpc k Hk) as (Hp & Hpk & Hpo).
  destruct (Nat.eq_dec (pc k) w) as [<-|Hne]; auto.
  apply (proj2 HM) in E; auto. destruct E as (k' & Hk' & E1 & E2).
  destruct (Nat.eq_dec k' k) as [->|Hkk]; auto. rewrite (Hpo k' Hk' Hkk) in E1. discriminate.
Qed.

Lemma B_clique k : k < l -> clique n M (entry B k).
Proof.
  intros Hk. split; [intros v; apply B_lt; auto|]. intros u v Hu Hv Hne. split; auto.
  apply (M_of_B k); auto.
Qed.

Definition big (k : nat) : bool := existsb (fun w => negb (w =? pc k) && entry B k w) (seq 0 n).

Lemma big_spec k : big k = true -> exists w, w < n /\ w <> pc k /\ entry B k w = true.
Proof.
  intros E. apply existsb_exists in E. destruct E as (w & Hw & E). apply in_seq in Hw.
  apply andb_true_iff in E. rewrite negb_true_iff, Nat.eqb_neq in E. exists w. intuition lia.
Qed.

Lemma big_intro k u v : k < l -> u <> v -> entry B k u = true -> entry B k v = true -> big k = true.
Proof.
  intros Hk Hne Hu Hv. apply existsb_exists.
  destruct (Nat.eq_dec u (pc k)) as [->|Hup].
  - exists v. split; [apply in_seq; pose proof (B_lt k v Hk Hv); lia|].
    rewrite Hv, (proj2 (Nat.eqb_neq _ _)) by auto. reflexivity.
  - exists u. split; [apply in_seq; pose proof (B_lt k u Hk Hu); lia|].
    rewrite Hu, (proj2 (Nat.eqb_neq _ _)) by auto. reflexivity.
Qed.

Definition rowsof (ch : list nat) : bmat := map (fun k => nth k B []) ch.

Record Inv (s : gstate) (ch : list nat) : Prop := mkInv {
  i_core : CoreS n M s;
  i_nd : NoDup ch;
  i_ch : forall k, In k ch -> k < l /\ big k = true;
  i_cov : g_cover s = match ch with [] => None | _ => Some (rowsof ch) end;
  i_adj : forall u v, u <> v -> (entry (g_adj s) u v = true <->
            entry M u v = true /\ ~ exists k, In k ch /\ entry B k u = true /\ entry B k v = true);
  i_alive : forall k w, k < l -> big k = true -> ~ In k ch -> entry B k w = true ->
            entry (g_adj s) w w = true;
  i_cnt : forall k i, k < l -> big k = true -> ~ In k ch -> i < m ->
            entry B k (eu n i) = true -> entry B k (ev n i) = true ->
            eu n i = pc k \/ ev n i = pc k ->
            nth i (g_cnt s) 0%Z = Z.of_nat (edges_inside n M (entry B k));
  i_del : g_del s = []
}.

(** Adjacent uncovered vertices share an unchosen row. *)
Lemma inv_unchosen s ch u v : Inv s ch -> u <> v -> entry (g_adj s) u v = true ->
  exists k, k < l /\ big k = true /\ ~ In k ch /\ entry B k u = true /\ entry B k v = true.
Proof.
  intros I Hne E. destruct (core_lt _ _ _ _ _ _ _ (i_core _ _ I) _ _ E) as [Lu Lv].
  apply (i_adj _ _ I) in E; auto. destruct E as [E Hno].
  apply (proj2 HM) in E; auto. destruct E as (k & Hk & Hu & Hv).
  exists k. repeat split; auto.
  - apply (big_intro k u v); auto.
  - intros Hin. apply Hno. exists k; auto.
Qed.

(** Unchosen rows keep the edges at their pure child. *)
Lemma inv_pc_edge s ch k w : Inv s ch -> k < l -> ~ In k ch -> entry B k w = true -> w <> pc k ->
  entry (g_adj s) (pc k) w = true.
Proof.
  intros I Hk Hch Hw Hne. destruct (Hpc k Hk) as (Hp & Hpk & Hpo).
  apply (i_adj _ _ I); auto. split.
  - apply (M_of_B k); auto.
  - intros (k' & Hin & E1 & _). destruct (i_ch _ _ I k' Hin) as [Hk' _].
    destruct (Nat.eq_dec k' k) as [->|Hkk]; auto. rewrite (Hpo k' Hk' Hkk) in E1. discriminate.
Qed.

Lemma inv_cn_super s ch i k w : Inv s ch -> i < m -> k < l -> big k = true -> ~ In k ch ->
  entry B k (eu n i) = true -> entry B k (ev n i) = true -> entry B k w = true ->
  get (g_cn s) i w = true.
Proof.
  intros I Hi Hk Hb Hch Hu Hv Hw.
  rewrite (c_cn _ _ _ _ _ _ _ (i_core _ _ I)) by auto.
  pose proof (B_lt k w Hk Hw) as Lw. apply Nat.ltb_lt in Lw. rewrite Lw.
  rewrite (M_of_B k _ _ Hk Hu Hv), (M_of_B k _ _ Hk Hu Hw), (M_of_B k _ _ Hk Hv Hw).
  rewrite (i_alive _ _ I k w); auto.
Qed.

Lemma inv_cn_exact s ch i k w : Inv s ch -> i < m -> k < l -> big k = true -> ~ In k ch ->
  entry B k (eu n i) = true -> entry B k (ev n i) = true -> eu n i = pc k \/ ev n i = pc k ->
  get (g_cn s) i w = entry B k w.
Proof.
  intros I Hi Hk Hb Hch Hu Hv Hend. destruct (entry B k w) eqn:Ew.
  - apply (inv_cn_super s ch i k w); auto.
  - destruct (get (g_cn s) i w) eqn:E; auto. rewrite <- Ew. symmetry.
    rewrite (c_cn _ _ _ _ _ _ _ (i_core _ _ I)) in E by auto. rewrite !andb_true_iff in E.
    destruct E as [[Lw [_ [E1 E2]]] _]. apply Nat.ltb_lt in Lw.
    apply pc_nbr; auto. destruct Hend as [<-|<-]; auto.
Qed.

(** Rule 2 chooses exactly an unchosen row. *)
Lemma inv_score0 s ch i : Inv s ch -> In i (g_ext s) -> score n s i = 0%Z ->
  exists k, k < l /\ big k = true /\ ~ In k ch /\ row_of n (g_cn s) i = nth k B [] /\
            forall w, get (g_cn s) i w = entry B k w.
Proof.
  intros I Hi Hs. pose proof (i_core _ _ I) as H.
  destruct (core_ends _ _ HD _ _ _ _ _ i H Hi) as (Him & He & _ & _).
  destruct (eu_ev n i Him) as [L1 L2].
  destruct (inv_unchosen s ch (eu n i) (ev n i) I) as (k & Hk & Hb & Hch & Hu & Hv); auto; [lia|].
  assert (Heq : forall w, get (g_cn s) i w = entry B k w).
  { intros w. destruct (entry B k w) eqn:Ew; [apply (inv_cn_super s ch i k w); auto|].
    destruct (get (g_cn s) i w) eqn:E; auto. rewrite <- Ew. symmetry.
    destruct (Hpc k Hk) as (Hp & Hpk & Hpo).
    destruct (score0_clique n M HU s i H Him Hs) as [Hlt Hclq].
    pose proof (Hlt w E) as Lw. apply pc_nbr; auto.
    destruct (Nat.eq_dec (pc k) w) as [->|Hne]; [apply HD; auto|].
    apply Hclq; auto. apply (inv_cn_super s ch i k); auto. }
  exists k. repeat split; auto.
  unfold row_of. apply (list_eq_nth false).
  - rewrite map_length, seq_length. symmetry. apply (opc_rows l n B HB); auto.
  - intros w Hw. rewrite map_length, seq_length in Hw. rewrite nth_map_seq by auto. apply Heq.
Qed.

(** As long as a row is unchosen, Rule 2 applies. *)
Lemma inv_fires s ch k : Inv s ch -> k < l -> big k = true -> ~ In k ch ->
  exists i, In i (g_ext s) /\ score n s i = 0%Z.
Proof.
  intros I Hk Hb Hch. pose proof (i_core _ _ I) as H.
  destruct (big_spec k Hb) as (w & Lw & Hw & Ew).
  pose proof (inv_pc_edge s ch k w I Hk Hch Ew Hw) as E.
  destruct (ext_exists _ _ _ _ _ _ _ (pc k) w H) as (i & Hi & Hends); auto.
  destruct (core_ends _ _ HD _ _ _ _ _ i H Hi) as (Him & He & _ & _).
  destruct (Hpc k Hk) as (Hp & Hpk & Hpo).
  assert (Hu : entry B k (eu n i) = true) by (destruct Hends as [[-> _]|[-> _]]; auto).
  assert (Hv : entry B k (ev n i) = true) by (destruct Hends as [[_ ->]|[_ ->]]; auto).
  assert (Hend : eu n i = pc k \/ ev n i = pc k) by tauto.
  exists i. split; auto. unfold score.
  rewrite (i_cnt _ _ I k i) by auto. unfold bcount.
  rewrite (count_ext n (get (g_cn s) i) (entry B k))
    by (intros; apply (inv_cn_exact s ch); auto).
  fold (bcount n (entry B k)). rewrite n_choose_2_pairs, (clique_full n M _ (B_clique k Hk)). lia.
Qed.

Lemma inv_not_iso s ch k w : Inv s ch -> k < l -> big k = true -> ~ In k ch -> entry B k w = true ->
  ~ isolated (g_adj s) w.
Proof.
  intros I Hk Hb Hch Hw [_ Hiso]. destruct (Nat.eq_dec w (pc k)) as [->|Hne].
  - destruct (big_spec k Hb) as (x & Lx & Hx & Ex). specialize (Hiso x Hx).
    rewrite (inv_pc_edge s ch k x) in Hiso; auto; discriminate.
  - specialize (Hiso (pc k) (not_eq_sym Hne)).
    pose proof (inv_pc_edge s ch k w I Hk Hch Hw Hne) as E.
    destruct (c_und _ _ _ _ _ _ _ (i_core _ _ I)) as [_ Hsym]. rewrite Hsym in E. congruence.
Qed.

Lemma rule_1_inv s ch : Inv s ch -> Inv (rule_1 n M s) ch.
Proof.
  intros I. pose proof (i_core _ _ I) as H. constructor.
  - apply rule_1_core; auto.
  - apply (i_nd _ _ I).
  - apply (i_ch _ _ I).
  - apply (i_cov _ _ I).
  - intros u v Hne. rewrite (rule_1_adj_ne _ _ s u v H Hne). apply (i_adj _ _ I); auto.
  - intros k w Hk Hb Hch Hw. rewrite (rule_1_adj _ _ s w w H), (i_alive _ _ I k w) by auto.
    rewrite Nat.eqb_refl. cbn [andb]. apply negb_true_iff, mem_false. intros Hin.
    apply (isolated_verts_spec _ _ s w H) in Hin. apply (inv_not_iso s ch k w); tauto.
  - intros k i Hk Hb Hch Hi Hu Hv Hend. unfold rule_1. cbn [g_cnt].
    pose proof (c_cntlen _ _ _ _ _ _ _ H) as HL.
    destruct (subtract_fold n M (g_cn s) (isolated_verts n (g_adj s)) (g_cnt s) i) as [_ E]; [lia|].
    rewrite E, (i_cnt _ _ I k i) by auto.
    replace (list_sum _) with 0; [lia|]. symmetry.
    assert (Hz : forall v, In v (isolated_verts n (g_adj s)) -> get (g_cn s) i v = false).
    { intros v Hin. apply (isolated_verts_spec _ _ s v H) in Hin.
      rewrite (inv_cn_exact s ch i k v) by auto. destruct (entry B k v) eqn:Ev; auto.
      exfalso. apply (inv_not_iso s ch k v); tauto. }
    clear - Hz. induction (isolated_verts n (g_adj s)) as [|v iso IH]; [reflexivity|].
    cbn [map list_sum fold_right]. rewrite (Hz v) by (left; auto). cbn. apply IH.
    intros; apply Hz; right; auto.
  - apply (i_del _ _ I).
Qed.

Lemma rule_2_inv s ch i k : Inv s ch -> In i (g_ext s) -> k < l -> big k = true -> ~ In k ch ->
  row_of n (g_cn s) i = nth k B [] -> (forall w, get (g_cn s) i w = entry B k w) ->
  Inv (rule_2_row n s i) (ch ++ [k]).
Proof.
  intros I Hi Hk Hb Hch Hrow Hcn. pose proof (i_core _ _ I) as H. constructor.
  - apply rule_2_row_core; auto.
  - apply NoDup_app; [apply (i_nd _ _ I)|repeat constructor; auto|].
    intros x Hx [<-|[]]; auto.
  - intros k' Hin. apply in_app_or in Hin. destruct Hin as [Hin|[<-|[]]]; auto. apply (i_ch _ _ I); auto.
  - change (g_cover (rule_2_row n s i)) with (Some (vstack (g_cover s) (row_of n (g_cn s) i))).
    rewrite (i_cov _ _ I), Hrow. destruct ch as [|k0 ch]; [reflexivity|].
    cbn [app vstack]. f_equal. unfold rowsof. cbn [map]. rewrite map_app. reflexivity.
  - intros u v Hne. rewrite (rule_2_row_adj _ _ s i u v H Hne), !Hcn, andb_true_iff.
    rewrite (i_adj _ _ I u v Hne), negb_true_iff. split.
    + intros [[E Hno] E2]. split; auto. intros (k' & Hin & E3 & E4). apply in_app_or in Hin.
      destruct Hin as [Hin|[<-|[]]]; [apply Hno; eauto|]. rewrite E3, E4 in E2. discriminate.
    + intros [E Hno]. split; [split; auto|].
      * intros (k' & Hin & E3 & E4). apply Hno. exists k'. split; auto. apply in_or_app; auto.
      * destruct (entry B k u && entry B k v) eqn:E2; auto. exfalso. apply andb_true_iff in E2.
        apply Hno. exists k. split; [apply in_or_app; right; left; auto|auto].
  - intros k' w Hk' Hb' Hch' Hw. rewrite (rule_2_row_diag _ _ s i w H).
    apply (i_alive _ _ I k' w); auto. intros Hin; apply Hch'; apply in_or_app; auto.
  - intros k' j Hk' Hb' Hch'. apply (i_cnt _ _ I k' j Hk' Hb').
    intros Hin; apply Hch'; apply in_or_app; auto.
  - apply (i_del _ _ I).
Qed.

Definition bigs : list nat := filter big (seq 0 l).
Notation Lb := (length bigs).

Lemma In_bigs k : In k bigs <-> k < l /\ big k = true.
Proof. unfold bigs. rewrite filter_In, in_seq. intuition lia. Qed.

Lemma inv_len s ch : Inv s ch -> length ch <= Lb.
Proof.
  intros I. apply NoDup_incl_length; [apply (i_nd _ _ I)|].
  intros k Hk. apply In_bigs, (i_ch _ _ I); auto.
Qed.

Lemma inv_more s ch : Inv s ch -> length ch < Lb -> exists k, k < l /\ big k = true /\ ~ In k ch.
Proof.
  intros I L. destruct (forallb (fun k => mem k ch) bigs) eqn:E.
  - exfalso. assert (Lb <= length ch); [|lia]. apply NoDup_incl_length.
    + apply NoDup_filter, seq_NoDup.
    + intros k Hk. rewrite forallb_forall in E. apply mem_In, E; auto.
  - assert (X : exists k, In k bigs /\ mem k ch = false).
    { clear - E. induction bigs as [|k t IH]; [discriminate|]. cbn in E. apply andb_false_iff in E.
      destruct E as [E|E]; [exists k; cbn; auto|]. destruct (IH E) as (k' & H1 & H2). exists k'; cbn; auto. }
    destruct X as (k & Hk & Hm). apply In_bigs in Hk. apply mem_false in Hm. exists k. tauto.
Qed.

Lemma inv_all s ch : Inv s ch -> length ch = Lb -> forall k, k < l -> big k = true -> In k ch.
Proof.
  intros I L k Hk Hb.
  assert (Hincl : incl bigs ch).
  { apply NoDup_length_incl; [apply (i_nd _ _ I)|lia|]. intros x Hx. apply In_bigs, (i_ch _ _ I); auto. }
  apply Hincl, In_bigs. auto.
Qed.

Lemma inv_done s ch : Inv s ch -> length ch = Lb -> g_ne s = 0 /\ g_ext s = [].
Proof.
  intros I L. pose proof (i_core _ _ I) as H.
  assert (Hno : forall u v, u <> v -> entry (g_adj s) u v = true -> False).
  { intros u v Hne E. destruct (inv_unchosen s ch u v I Hne E) as (k & Hk & Hb & Hch & _).
    apply Hch, (inv_all s ch); auto. }
  split.
  - rewrite (c_ne _ _ _ _ _ _ _ H). destruct (cntU n (entry (g_adj s))) eqn:E; auto. exfalso.
    destruct (cntU_exists n (entry (g_adj s))) as (u & v & L1 & L2 & Euv); [lia|].
    apply (Hno u v); auto. lia.
  - destruct (g_ext s) as [|i t] eqn:E; auto. exfalso.
    destruct (core_ends _ _ HD _ _ _ _ _ i H) as (Him & He & _ & _); [rewrite E; left; auto|].
    destruct (eu_ev n i Him). apply (Hno (eu n i) (ev n i)); auto. lia.
Qed.

Lemma inv_not_done s ch : Inv s ch -> length ch < Lb -> 0 < g_ne s.
Proof.
  intros I L. pose proof (i_core _ _ I) as H. destruct (inv_more s ch I L) as (k & Hk & Hb & Hch).
  destruct (big_spec k Hb) as (w & Lw & Hw & Ew).
  pose proof (inv_pc_edge s ch k w I Hk Hch Ew Hw) as E.
  destruct (core_lt _ _ _ _ _ _ _ H _ _ E) as [Lp _].
  assert (E' : entry (g_adj s) w (pc k) = true) by (destruct (c_und _ _ _ _ _ _ _ H) as [_ ->]; auto).
  rewrite (c_ne _ _ _ _ _ _ _ H).
  destruct (Nat.lt_trichotomy (pc k) w) as [L1|[L1|L1]]; [|congruence|];
  eapply cntU_pos; eauto.
Qed.

Lemma inv_ext s s' ch : Inv s ch -> g_adj s' = g_adj s -> g_ne s' = g_ne s -> g_cn s' = g_cn s ->
  g_cnt s' = g_cnt s -> g_ext s' = g_ext s -> g_cover s' = g_cover s -> g_del s' = g_del s -> Inv s' ch.
Proof.
  intros [] E1 E2 E3 E4 E5 E6 E7. constructor; auto.
  - unfold CoreS in *. rewrite E1, E2, E3, E4, E5. auto.
  - rewrite E6; auto.
  - intros; rewrite E1; auto.
  - intros; rewrite E1; eauto.
  - intros; rewrite E4; eauto.
  - rewrite E7; auto.
Qed.

Lemma reduz_step_opc s ch : Inv s ch -> length ch < Lb ->
  exists s' k, reduz_step n M s = Ok s' /\ Inv s' (ch ++ [k]) /\ g_k s' = (g_k s - 1)%Z /\ g_red s' = true.
Proof.
  intros I L. unfold reduz_step. set (s0 := GS _ _ _ _ _ _ _ _ _ _ _).
  assert (I0 : Inv s0 ch) by (apply (inv_ext s); auto).
  pose proof (rule_1_inv s0 ch I0) as I1. set (s1 := rule_1 n M s0) in *.
  destruct (inv_more s ch I L) as (k0 & Hk0 & Hb0 & Hch0).
  destruct (inv_fires s1 ch k0 I1 Hk0 Hb0 Hch0) as (i0 & Hi0 & Hs0).
  destruct (rule_2_cases n s1) as [[_ Hno]|(i & Hi & Hs & E)]; [exfalso; apply (Hno i0); auto|].
  destruct (inv_score0 s1 ch i I1 Hi Hs) as (k & Hk & Hb & Hch & Hrow & Hcn).
  rewrite E. exists (rule_2_row n s1 i), k.
  split; [cbn [rule_2_row g_red]; destruct (_ <? _)%Z; reflexivity|].
  split; [apply rule_2_inv; auto|]. split; reflexivity.
Qed.

Lemma reduz_step_opc_done s ch : Inv s ch -> length ch = Lb -> (0 <= g_k s)%Z ->
  exists s', reduz_step n M s = Ok s' /\ Inv s' ch /\ g_k s' = g_k s /\ g_red s' = false.
Proof.
  intros I L Hk. unfold reduz_step. set (s0 := GS _ _ _ _ _ _ _ _ _ _ _).
  assert (I0 : Inv s0 ch) by (apply (inv_ext s); auto).
  pose proof (rule_1_inv s0 ch I0) as I1.
  pose proof (rule_1_no_isolated n M s0 (i_core _ _ I0)) as Hno. set (s1 := rule_1 n M s0) in *.
  destruct (inv_done s1 ch I1 L) as [Hne Hext].
  assert (E2 : rule_2 n s1 = s1) by (unfold rule_2; rewrite Hext; reflexivity).
  rewrite E2. exists s1.
  assert (Ek : g_k s1 = g_k s) by reflexivity. rewrite Ek.
  replace (g_k s <? 0)%Z with false by (symmetry; apply Z.ltb_ge; auto).
  change (g_red s1) with false. cbv iota.
  destruct (rule_3_cases n M s1 (i_core _ _ I1) Hno) as [[-> _]|(v & Lv & Hv & _)]; [auto|].
  exfalso. destruct (Hno v Hv) as (y & Hy & Ey).
  destruct (inv_unchosen s1 ch v y I1) as (k & Hk' & Hb & Hch & _); auto.
  apply Hch. apply (inv_all s1 ch); auto.
Qed.

Lemma reduz_loop_opc : forall r s ch, Inv s ch -> length ch + r = Lb -> (0 <= g_k s)%Z ->
  exists s', reduz_loop (S r) n M s = Some (Ok s') /\
    (((g_k s < Z.of_nat r)%Z /\ g_k s' = (-1)%Z) \/
     ((Z.of_nat r <= g_k s)%Z /\ (0 <= g_k s')%Z /\ exists ch', Inv s' ch' /\ length ch' = Lb)).
Proof.
  induction r as [|r IH]; intros s ch I L Hk.
  - destruct (reduz_step_opc_done s ch I) as (s' & E & I' & Ek & Er); [lia|auto|].
    exists s'. cbn [reduz_loop]. rewrite E, Ek, Er.
    split; [destruct (g_k s <? 0)%Z; reflexivity|]. right. split; [lia|]. split; [auto|].
    exists ch. split; auto. lia.
  - destruct (reduz_step_opc s ch I) as (s1 & k & E & I1 & Ek & Er); [lia|].
    remember (S r) as sr. cbn [reduz_loop]. rewrite E, Er.
    destruct (Z.ltb_spec (g_k s1) 0) as [Ln|Ln].
    + exists s1. split; auto. left. lia.
    + destruct (IH s1 (ch ++ [k])) as (s' & E' & HC); auto.
      { rewrite app_length. cbn. lia. }
      subst sr. exists s'. split; auto.
      destruct HC as [[H1 H2]|[H1 H2]]; [left; lia|right; split; [lia|auto]].
Qed.

Lemma branch_opc orc path s j : Inv (reducible_copy s None) [] -> 0 < Lb ->
  (Z.of_nat j < Z.of_nat Lb -> exists ra h, evt (fun f => branch 3 f n n M orc path s (Z.of_nat j) None) (Ok (None, ra, h)))%Z /\
  (j = Lb -> exists ra ch, evt (fun f => branch 3 f n n M orc path s (Z.of_nat j) None)
      (Ok (Some (rowsof ch), ra, Reduced [])) /\ NoDup ch /\ length ch = Lb /\ forall k, In k ch <-> In k bigs).
Proof.
  intros I HL.
  assert (Hb1 : cover_last n (reducible_copy s None) = reducible_copy s None) by reflexivity.
  pose proof (inv_not_done _ _ I HL) as Hne. apply Nat.lt_neq, Nat.neq_sym, Nat.eqb_neq in Hne.
  set (s0 := GS (g_adj (reducible_copy s None)) (g_nv (reducible_copy s None)) (g_ne (reducible_copy s None))
     (g_cn (reducible_copy s None)) (g_cnt (reducible_copy s None)) (g_ext (reducible_copy s None))
     (g_cover (reducible_copy s None)) (g_ra (reducible_copy s None)) (Z.of_nat j) true (g_del (reducible_copy s None))).
  assert (I0 : Inv s0 []) by (apply (inv_ext (reducible_copy s None)); auto).
  assert (Hj : (0 <= g_k s0)%Z) by (cbn; lia).
  destruct (reduz_loop_opc Lb s0 [] I0 eq_refl Hj) as (s' & E & HC).
  change (g_k s0) with (Z.of_nat j) in HC.
  assert (Hrun : forall f, S Lb <= f -> reduzieren f n M (reducible_copy s None) (Z.of_nat j) = Some (Ok s')).
  { intros f Hf. unfold reduzieren. apply (reduz_loop_mono _ f _ _ _ _ E Hf). }
  split.
  - intros Hlt. destruct HC as [[_ Hk]|[Hk _]]; [|lia].
    exists (shared (g_ra s) (g_ra s')), NoCover. exists (S Lb). intros f Hf.
    cbn [branch]. rewrite Hb1, Hne, (Hrun f Hf), Hk. reflexivity.
  - intros ->. destruct HC as [[Hk _]|[_ (Hk & ch & I' & Hlen)]]; [lia|].
    exists (shared (g_ra s) (g_ra s')), ch. split.
    + exists (S Lb). intros f Hf. cbn [branch]. rewrite Hb1, Hne, (Hrun f Hf).
      apply Z.ltb_ge in Hk. rewrite Hk. destruct (inv_done s' ch I' Hlen) as [Hz _]. rewrite Hz.
      rewrite (i_cov _ _ I'), (i_del _ _ I'). destruct ch; [cbn in Hlen; lia|reflexivity].
    + split; [apply (i_nd _ _ I')|]. split; auto. intros k. split.
      * intros Hin. apply In_bigs, (i_ch _ _ I'); auto.
      * intros Hin. apply In_bigs in Hin. apply (inv_all s' ch); tauto.
Qed.

Lemma search_opc orc s : Inv (reducible_copy s None) [] -> 0 < Lb ->
  forall d j, j + d = Lb -> exists ch, NoDup ch /\ (forall k, In k ch <-> In k bigs) /\
    exists D F, forall o f, D <= o -> F <= f -> search o f n n M orc s j = Some (Ok (rowsof ch, Reduced [])).
Proof.
  intros I HL. induction d as [|d IH]; intros j Hj.
  - destruct (branch_opc orc [j] s j I HL) as [_ Hb].
    destruct Hb as (ra & ch & [F HF] & Hnd & Hlen & Hin); [lia|].
    exists ch. split; auto. split; auto. exists 1, F. intros [|o] f Ho Hf; [lia|]. cbn [search].
    rewrite HF by auto. reflexivity.
  - destruct (branch_opc orc [j] s j I HL) as [Hb _].
    destruct Hb as (ra & h & [F HF]); [lia|].
    destruct (IH (S j)) as (ch & Hnd & Hin & D & F' & HS); [lia|].
    exists ch. split; auto. split; auto. exists (S D), (F + F'). intros [|o] f Ho Hf; [lia|].
    cbn [search]. rewrite HF by lia. apply HS; lia.
Qed.

(** Adding the measurements with a latent of their own. *)
Lemma singleton_row k : k < l -> big k = false -> nth k B [] = map (Nat.eqb (pc k)) (seq 0 n).
Proof.
  intros Hk Hb. apply (list_eq_nth false).
  - rewrite (opc_rows l n B HB k Hk), map_length, seq_length. auto.
  - intros w Hw. rewrite (opc_rows l n B HB k Hk) in Hw. rewrite nth_map_seq by auto.
    change (nth w (nth k B []) false) with (entry B k w).
    destruct (Nat.eqb_spec (pc k) w) as [<-|Hne]; [apply Hpc; auto|].
    destruct (entry B k w) eqn:E; auto. exfalso.
    destruct (Hpc k Hk) as (_ & Hpk & _). rewrite (big_intro k (pc k) w) in Hb; auto. discriminate.
Qed.

Lemma opc_rows_NoDup : NoDup B.
Proof.
  rewrite <- (map_nth_seq [] B). apply NoDup_map_in; [|apply seq_NoDup].
  assert (Hl : length B = l) by apply HB. rewrite Hl.
  intros i j Hi Hj E. apply in_seq in Hi, Hj.
  destruct (Nat.eq_dec i j) as [|Hne]; auto. exfalso.
  destruct (Hpc i) as (_ & Hp & Ho); [lia|]. unfold entry in Hp. rewrite E in Hp.
  change (entry B j (pc i) = true) in Hp. rewrite Ho in Hp; [discriminate|lia|auto].
Qed.

Lemma add_isolated_opc ch : NoDup ch -> (forall k, In k ch <-> In k bigs) ->
  Permutation B (add_isolated_verts n (rowsof ch)).
Proof.
  intros Hnd Hin. assert (Hl : length B = l) by apply HB.
  set (isol := flatnonzero n (fun v => negb (existsb (fun row => nth v row false) (rowsof ch)))).
  assert (Hch : forall k, In k ch -> k < l) by (intros k Hk; apply Hin, In_bigs in Hk; tauto).
  assert (Hiso : forall v, In v isol <-> v < n /\ forall k, In k ch -> entry B k v = false).
  { intros v. unfold isol. rewrite In_flatnonzero, negb_true_iff. split; intros [Lv Hv]; split; auto.
    - intros k Hk. destruct (entry B k v) eqn:E; auto.
      rewrite (proj2 (existsb_exists _ _)) in Hv; [discriminate|].
      exists (nth k B []). split; auto. unfold rowsof. apply (in_map (fun k => nth k B [])); auto.
    - destruct (existsb _ _) eqn:E; auto. apply existsb_exists in E. destruct E as (row & Hr & E).
      unfold rowsof in Hr. apply in_map_iff in Hr. destruct Hr as (k & <- & Hk).
      change (entry B k v = true) in E. rewrite Hv in E; auto. }
  assert (Hparent : forall v, In v isol -> exists k, k < l /\ big k = false /\ v = pc k).
  { intros v Hv. apply Hiso in Hv. destruct Hv as [Lv Hv]. destruct HB as (_ & _ & Hpar).
    destruct (Hpar v Lv) as (k & Hk & Ek). exists k.
    assert (Hbk : big k = false).
    { destruct (big k) eqn:E; auto. rewrite Hv in Ek; [discriminate|]. apply Hin, In_bigs; auto. }
    repeat split; auto. destruct (Nat.eq_dec v (pc k)); auto. exfalso.
    destruct (Hpc k Hk) as (_ & Hpk & _). rewrite (big_intro k v (pc k)) in Hbk; auto. discriminate. }
  apply NoDup_Permutation.
  - apply opc_rows_NoDup.
  - unfold add_isolated_verts. fold isol. apply NoDup_app.
    + unfold rowsof. apply NoDup_map_in; auto. intros i j Hi Hj E.
      destruct (Nat.eq_dec i j) as [|Hne]; auto. exfalso. pose proof (Hch i Hi). pose proof (Hch j Hj).
      destruct (Hpc i) as (_ & Hp & Ho); [lia|]. unfold entry in Hp. rewrite E in Hp.
      change (entry B j (pc i) = true) in Hp. rewrite Ho in Hp; auto. discriminate.
    + apply NoDup_map_in; [|apply NoDup_flatnonzero].
      intros u v Hu Hv E. apply Hiso in Hu, Hv.
      assert (X : nth u (map (Nat.eqb u) (seq 0 n)) false = true)
        by (rewrite nth_map_seq by tauto; apply Nat.eqb_refl).
      rewrite E, nth_map_seq in X by tauto. apply Nat.eqb_eq in X. auto.
    + intros row H1 H2. unfold rowsof in H1. apply in_map_iff in H1. destruct H1 as (k & <- & Hk).
      apply in_map_iff in H2. destruct H2 as (v & E & Hv). apply Hiso in Hv. destruct Hv as [Lv Hv].
      specialize (Hv k Hk). unfold entry in Hv. rewrite <- E, nth_map_seq, Nat.eqb_refl in Hv by auto.
      discriminate.
  - intros row. unfold add_isolated_verts. fold isol. rewrite in_app_iff. split.
    + intros Hr. destruct (In_nth _ _ [] Hr) as (k & Hk & <-). rewrite Hl in Hk.
      destruct (big k) eqn:Eb.
      * left. unfold rowsof. apply (in_map (fun k => nth k B [])). apply Hin, In_bigs; auto.
      * right. rewrite (singleton_row k Hk Eb). apply (in_map (fun v => map (Nat.eqb v) (seq 0 n))).
        apply Hiso. destruct (Hpc k Hk) as (Lp & Hpk & Ho). split; auto.
        intros k' Hk'. apply Ho; auto. intros ->. apply Hin, In_bigs in Hk'. destruct Hk'. congruence.
    + intros [H1|H1].
      * unfold rowsof in H1. apply in_map_iff in H1. destruct H1 as (k & <- & Hk). apply nth_In.
        rewrite Hl; auto.
      * apply in_map_iff in H1. destruct H1 as (v & <- & Hv).
        destruct (Hparent v Hv) as (k & Hk & Hb & ->).
        rewrite <- (singleton_row k Hk Hb). apply nth_In. rewrite Hl; auto.
Qed.

(** The root satisfies the invariant. *)
Lemma root_inv eorc a : 0 < n -> (exists u v, u < n /\ v < n /\ adjacent M u v) ->
  make_aux eorc (udg_init M) = Ok a -> Inv (reducible_copy (root_state (udg_init M) a) None) [].
Proof.
  intros Hn He Ha. destruct (root_good n M eorc a Hn HU HD He Ha) as [G _].
  pose proof (gd_core _ _ _ G) as H. pose proof (gd_fresh _ _ _ G eq_refl) as F.
  constructor.
  - exact H.
  - constructor.
  - intros k [].
  - reflexivity.
  - intros u v Hne. change (g_adj _) with M. split; [|tauto]. intros E. split; auto. intros (k & [] & _).
  - intros k w Hk Hb _ Hw. change (entry M w w = true). apply HD. apply (B_lt k); auto.
  - intros k i Hk Hb _ Hi Hu Hv Hend. rewrite (f_cnt _ _ _ _ _ _ F i Hi). f_equal.
    apply edges_inside_ext. intros w Lw.
    destruct (entry B k w) eqn:Ew.
    + rewrite (c_cn _ _ _ _ _ _ _ H) by auto. apply Nat.ltb_lt in Lw as Lw'. rewrite Lw'.
      rewrite (M_of_B k _ _ Hk Hu Hv), (M_of_B k _ _ Hk Hu Ew), (M_of_B k _ _ Hk Hv Ew).
      change (g_adj _) with M. rewrite (HD w); auto.
    + destruct (get _ i w) eqn:E; auto. rewrite <- Ew. symmetry.
      rewrite (c_cn _ _ _ _ _ _ _ H) in E by auto. rewrite !andb_true_iff in E.
      destruct E as [[_ [_ [E1 E2]]] _]. apply pc_nbr; auto. destruct Hend as [<-|<-]; auto.
  - reflexivity.
Qed.

Lemma opc_big_exists : (exists u v, u < n /\ v < n /\ adjacent M u v) -> 0 < Lb.
Proof.
  intros (u & v & Lu & Lv & Hne & E). apply (proj2 HM) in E; auto.
  destruct E as (k & Hk & Hu & Hv).
  assert (Hin : In k bigs) by (apply In_bigs; split; auto; apply (big_intro k u v); auto).
  destruct bigs; [destruct Hin|cbn; lia].
Qed.

Lemma search_result_opc eorc orc : 0 < n -> (exists u v, u < n /\ v < n /\ adjacent M u v) ->
  exists C, ends_with (fun f => find_clique_min_cover_traced f eorc orc M) (Ok (C, Reduced [])) /\
            Permutation B C.
Proof.
  intros Hn He. assert (Hl : length M = n) by apply HU.
  destruct (make_aux_spec n M eorc HU HD He) as (a & Ha & _).
  pose proof (root_inv eorc a Hn He Ha) as I. pose proof (opc_big_exists He) as HL.
  destruct (search_opc orc (root_state (udg_init M) a) I HL (Lb - 1) 1) as (ch & Hnd & Hin & D & F & HS); [lia|].
  exists (add_isolated_verts n (rowsof ch)). split; [|apply add_isolated_opc; auto].
  apply ends_with_mono.
  - intros; eapply traced_mono; eauto.
  - exists (D + F). unfold find_clique_min_cover_traced. rewrite Ha.
    assert (Env : u_nv (udg_init M) = Z.of_nat n) by (apply trace_unit; auto).
    rewrite Env, Nat2Z.id, Hl.
    replace (_ && _) with false.
    + rewrite HS by lia. reflexivity.
    + symmetry. apply andb_false_iff. right. apply Z.ltb_ge.
      unfold udg_init; cbn [u_ne]. rewrite Hl, n_choose_2_nat, <- length_upper_pairs_choose.
      unfold count_upper. pose proof (filter_length_le (fun e => get M (fst e) (snd e)) (upper_pairs n)). lia.
Qed.

End Opc.
