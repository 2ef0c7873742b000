(** reconstruct_cover: what it computes, and that it undoes the deletions made
    by Rule 3 as long as no edge has been covered. *)
From Coq Require Import Sorting.Sorted.
From Verif Require Import Base Spec SpecDec ReduceSpec MaxCliquesModel MaxCliquesProofs GraphModel GraphProofs HeuristicProofs
  EccModel EccProofs EccReach ReduceModel EccAttr UndoProofs.

(** *** Exact description *)
Definition expand_all (r : bmat) (te : list nat) (row : list bool) : list bool :=
  fold_left (fun row v => expand_row r v row) te row.

Lemma expand_rows r : forall te c,
  fold_left (fun c v => map (expand_row r v) c) te c = map (expand_all r te) c.
Proof.
  induction te as [|v te IH]; intros c; cbn.
  - rewrite map_id. reflexivity.
  - rewrite IH, map_map. reflexivity.
Qed.

Lemma expand_row_length r v row : length (expand_row r v row) = length row.
Proof. unfold expand_row. destruct (existsb _ _); auto. apply upd_length. Qed.

Lemma expand_all_length r te : forall row, length (expand_all r te row) = length row.
Proof.
  unfold expand_all. induction te as [|v te IH]; intros row; cbn; auto.
  rewrite IH. apply expand_row_length.
Qed.

Lemma expand_row_other r v row x : x <> v -> nth x (expand_row r v row) false = nth x row false.
Proof.
  intros H. unfold expand_row. destruct (existsb _ _); auto.
  rewrite nth_upd. destruct (Nat.eqb_spec x v); [contradiction|]. auto.
Qed.

Lemma expand_all_other r te x : ~ In x te -> forall row,
  nth x (expand_all r te row) false = nth x row false.
Proof.
  unfold expand_all. induction te as [|v te IH]; intros H row; cbn; auto.
  cbn in H. rewrite IH by tauto. apply expand_row_other. intuition.
Qed.

Lemma expand_row_self r v row : v < length row ->
  (nth v (expand_row r v row) false = true <->
   nth v row false = true \/ exists p, entry r v p = true /\ nth p row false = true).
Proof.
  intros Hv. unfold expand_row. destruct (existsb _ _) eqn:Ex.
  - rewrite nth_upd. apply existsb_exists in Ex. destruct Ex as (p & Hp & Ep).
    apply andb_true_iff in Ep. destruct Ep as [E1 E2].
    destruct (Nat.eqb_spec v v) as [_|]; [|contradiction].
    replace (v <? length row) with true by (symmetry; apply Nat.ltb_lt; auto). cbn.
    split; auto. intros _. right. exists p. split; auto.
  - split; auto. intros [|(p & E1 & E2)]; auto. exfalso.
    assert (Hp : p < length row).
    { destruct (le_lt_dec (length row) p); auto. rewrite nth_overflow in E2 by auto. discriminate. }
    rewrite <- not_true_iff_false in Ex. apply Ex. apply existsb_exists. exists p.
    split; [apply in_seq; lia|]. rewrite E2, andb_true_r. exact E1.
Qed.

Lemma flatnonzero_sorted n f : StronglySorted lt (flatnonzero n f).
Proof.
  unfold flatnonzero. assert (H : forall k a, StronglySorted lt (filter f (seq a k))).
  { induction k as [|k IH]; intros a; cbn; [constructor|].
    destruct (f a); auto. constructor; auto. apply Forall_forall. intros x Hx.
    apply filter_In in Hx. destruct Hx as [Hx _]. apply in_seq in Hx. lia. }
  apply H.
Qed.

Lemma expand_all_exact r te : StronglySorted lt te -> forall row,
  (forall x, In x te -> x < length row) -> forall v, In v te ->
  (nth v (expand_all r te row) false = true <->
   nth v row false = true \/
   exists p, entry r v p = true /\ nth p (if p <? v then expand_all r te row else row) false = true).
Proof.
  induction 1 as [|x te Hs IH Hf]; intros row Hlen v Hv; [destruct Hv|].
  rewrite Forall_forall in Hf.
  assert (Hxn : ~ In x te) by (intros Hx; apply Hf in Hx; lia).
  change (expand_all r (x :: te) row) with (expand_all r te (expand_row r x row)).
  destruct Hv as [->|Hv].
  - rewrite (expand_all_other r te v Hxn). rewrite expand_row_self by (apply Hlen; left; auto).
    split; intros [|(p & E1 & E2)]; auto; right; exists p; (split; [auto|]).
    + destruct (Nat.ltb_spec p v) as [L|L]; auto.
      rewrite expand_all_other by (intros Hp; apply Hf in Hp; lia).
      rewrite expand_row_other by lia. auto.
    + destruct (Nat.ltb_spec p v) as [L|L]; auto.
      rewrite expand_all_other in E2 by (intros Hp; apply Hf in Hp; lia).
      rewrite expand_row_other in E2 by lia. auto.
  - pose proof (Hf v Hv) as Lxv. rewrite (IH (expand_row r x row)); auto.
    + rewrite expand_row_other by lia.
      split; intros [|(p & E1 & E2)]; auto; right; exists p; (split; [auto|]);
        destruct (Nat.ltb_spec p v) as [L|L]; auto.
      * rewrite expand_row_other in E2 by lia. auto.
      * rewrite expand_row_other by lia. auto.
    + intros y Hy. rewrite expand_row_length. apply Hlen. right; auto.
Qed.

Definition to_expand (n : nat) (r : bmat) : list nat :=
  flatnonzero n (fun v => existsb (fun b => b) (nth v r [])).

Lemma In_to_expand n r v : v < n -> (In v (to_expand n r) <-> exists p, entry r v p = true).
Proof.
  intros Hv. unfold to_expand. rewrite In_flatnonzero, existsb_exists. unfold entry. split.
  - intros [_ (b & Hb & ->)]. apply (In_nth _ _ false) in Hb. destruct Hb as (p & _ & E). eauto.
  - intros (p & E). split; auto. exists true. split; auto. rewrite <- E. apply nth_In.
    destruct (le_lt_dec (length (nth v r [])) p); auto. rewrite nth_overflow in E by auto. discriminate.
Qed.

Theorem reconstruct_exact n r c : has_shape n n r -> (forall row, In row c -> length row = n) ->
  exists c', reconstruct_cover n (Some r) (Some c) = Ok (Some c') /\
    has_shape (length c) n c' /\
    forall k v, k < length c -> v < n ->
      (entry c' k v = true <-> entry c k v = true \/
       exists p, entry r v p = true /\ entry (if p <? v then c' else c) k p = true).
Proof.
  intros Hr Hc. exists (map (expand_all r (to_expand n r)) c).
  split; [unfold reconstruct_cover; fold (to_expand n r); rewrite expand_rows; reflexivity|].
  split; [split; [apply map_length|]|].
  - intros row Hrow. apply in_map_iff in Hrow. destruct Hrow as (row0 & <- & Hin).
    rewrite expand_all_length. auto.
  - intros k v Hk Hv.
    assert (Ec : forall x, entry (map (expand_all r (to_expand n r)) c) k x =
                           nth x (expand_all r (to_expand n r) (nth k c [])) false).
    { intros x. unfold entry. rewrite nth_indep with (d' := expand_all r (to_expand n r) [])
        by (rewrite map_length; auto). rewrite map_nth. reflexivity. }
    assert (Hlen : length (nth k c []) = n) by (apply Hc, nth_In; auto).
    rewrite Ec. destruct (in_dec Nat.eq_dec v (to_expand n r)) as [Hin|Hout].
    + rewrite (expand_all_exact r (to_expand n r)); auto.
      * unfold entry at 1.
        split; intros [|(p & E1 & E2)]; auto; right; exists p; (split; [auto|]);
          destruct (p <? v); rewrite ?Ec in *; auto.
      * apply flatnonzero_sorted.
      * intros x Hx. apply In_flatnonzero in Hx. lia.
    + rewrite expand_all_other by auto. split; auto.
      intros [|(p & E1 & _)]; auto. exfalso. apply Hout, In_to_expand; eauto.
Qed.

(** *** States reached from the fresh graph by Rules 1 and 3 and by copying (graph.py 141-165) alone *)
Inductive deleting (n : nat) (A : bmat) (root : gstate) : gstate -> Prop :=
| del_root : deleting n A root (reducible_copy root None)
| del_start s k : deleting n A root s -> deleting n A root (start s k)
| del_flag s : deleting n A root s -> deleting n A root (clear_flag s)
| del_rule_1 s : deleting n A root s -> deleting n A root (rule_1 n A s)
| del_rule_3 s s' : deleting n A root s -> rule_3 n s = Ok s' -> deleting n A root s'
| del_copy s : deleting n A root s -> deleting n A root (reducible_copy s None).

Section Link.
Variables (n : nat) (M : matrix).
Hypothesis HM : undirected n M.
Hypothesis HD : unit_diagonal n M.
Let E := adjacent M.

Lemma E_sym a b : E a b -> E b a.
Proof. intros [H1 H2]. split; auto. destruct HM as [_ ->]; auto. Qed.
Lemma E_irr a : ~ E a a.
Proof. intros [H _]; auto. Qed.
Lemma E_dec a b : E a b \/ ~ E a b.
Proof.
  unfold E, adjacent. destruct (Nat.eq_dec a b); [tauto|].
  destruct (entry M a b); [left; auto|right; intros [_ H]; discriminate].
Qed.
Lemma E_lt a b : E a b -> a < n /\ b < n.
Proof. intros [_ H]. apply (entry_bound n) in H; [auto|apply HM]. Qed.

(** The recorded prisoners. *)
Definition records (D : list nat) (r : bmat) : Prop :=
  forall v p, entry r v p = true <-> In v D /\ ~ In p D /\ Q E v p \/
     exists A B, D = A ++ v :: B /\ In p A /\ Q E v p.

Definition Inv (s : gstate) : Prop :=
  dels E (g_del s) /\
  (forall a b, adjacent (g_adj s) a b <-> N E (g_del s) a b) /\
  match g_ra s with
  | None => g_del s = []
  | Some r => has_shape n n r /\ records (g_del s) r
  end.

Lemma prisoner_spec s v p : CoreS n M s -> Inv s -> entry (g_adj s) v v = true -> p < n ->
  (is_prisoner n (g_adj s) v p = true <-> pris E (g_del s) v p).
Proof.
  intros HC (_ & HA & _) Hvv Hp. unfold is_prisoner, is_exit. rewrite !andb_true_iff, !negb_true_iff.
  change (get (g_adj s)) with (entry (g_adj s)). split.
  - intros [[H1 H2] H3]. apply Nat.eqb_neq in H3. rewrite H2 in H1. cbn [andb] in H1.
    split; [apply HA; split; auto|]. intros w Hw. apply HA in Hw. destruct Hw as [Hne Hw].
    destruct (Nat.eq_dec w v) as [|Hwv]; auto. right. apply HA. split; auto.
    destruct (entry (g_adj s) v w) eqn:Evw; auto. exfalso.
    rewrite <- not_true_iff_false in H1. apply H1. apply existsb_exists. exists w.
    split; [apply in_seq; apply (core_lt _ _ _ _ _ _ _ HC) in Hw; lia|]. rewrite Evw, Hw. reflexivity.
  - intros [H1 H2]. apply HA in H1. destruct H1 as [Hne Hvp].
    split; [split; [|auto]|apply Nat.eqb_neq; auto].
    rewrite Hvp. cbn [andb]. destruct (existsb _ _) eqn:Ex; auto. exfalso.
    apply existsb_exists in Ex. destruct Ex as (w & _ & Ew). apply andb_true_iff in Ew.
    destruct Ew as [E1 E2]. apply negb_true_iff in E1.
    destruct (Nat.eq_dec w p) as [->|Hwp]; [congruence|].
    assert (Hw : N E (g_del s) p w) by (apply HA; split; auto).
    destruct (H2 w Hw) as [->|Hx]; [congruence|]. apply HA in Hx. destruct Hx. congruence.
Qed.

Lemma rule_3_inv s v : CoreS n M s -> Inv s -> v < n -> entry (g_adj s) v v = true ->
  prisoners_dominate n (g_adj s) v = true -> star n (g_adj s) v <> [] -> Inv (rule_3_state n s v).
Proof.
  intros HC HI Hv Hvv Hdom Hst. pose proof HI as (HDs & HA & Hra).
  assert (Hnb : exists u, N E (g_del s) v u).
  { destruct (star n (g_adj s) v) as [|(a, b) l] eqn:Es; [contradiction|].
    assert (Hin : In (a, b) (star n (g_adj s) v)) by (rewrite Es; left; auto).
    apply (In_star n M) in Hin; auto. destruct Hin as (L1 & L2 & Eab & [->| ->]).
    - exists b. apply HA. split; auto. lia.
    - exists a. apply N_sym; [exact E_sym|]. apply HA. split; auto. lia. }
  assert (HDs' : dels E (v :: g_del s)).
  { constructor; auto. intros x Hx. apply HA in Hx. destruct Hx as [Hne Hvx].
    destruct (core_lt _ _ _ _ _ _ _ HC _ _ Hvx) as [_ Lx].
    unfold prisoners_dominate in Hdom. rewrite forallb_forall in Hdom.
    specialize (Hdom x). rewrite in_seq in Hdom. specialize (Hdom ltac:(lia)).
    destruct (is_exit n (g_adj s) v x) eqn:Ex; cbn [implb] in Hdom.
    - right. apply existsb_exists in Hdom. destruct Hdom as (p & Hp & Epx). apply in_seq in Hp.
      apply andb_true_iff in Epx. destruct Epx as [E1 E2].
      assert (Hpx : p <> x).
      { intros ->. unfold is_prisoner in E1. rewrite Ex in E1. discriminate. }
      exists p. split; [apply prisoner_spec; auto; lia|]. apply HA. split; auto.
    - left. apply prisoner_spec; auto. unfold is_prisoner. rewrite Ex.
      change (get (g_adj s)) with (entry (g_adj s)). rewrite Hvx. cbn.
      apply negb_true_iff, Nat.eqb_neq; auto. }
  split; [exact HDs'|]. split.
  - intros a b. change (g_del (rule_3_state n s v)) with (v :: g_del s). split.
    + intros [Hne Hab]. rewrite (rule_3_adj n M) in Hab by auto. apply andb_true_iff in Hab.
      destruct Hab as [Hab Hno]. apply negb_true_iff, orb_false_iff in Hno.
      rewrite !Nat.eqb_neq in Hno. assert (HN : N E (g_del s) a b) by (apply HA; split; auto).
      destruct HN as (H1 & H2 & H3). split; auto. split; cbn; intuition.
    + intros (H1 & H2 & H3). cbn in H2, H3.
      assert (HN : N E (g_del s) a b) by (unfold N; tauto). apply HA in HN. destruct HN as [Hne Hab].
      split; auto. rewrite (rule_3_adj n M) by auto. rewrite Hab. cbn [andb].
      apply negb_true_iff, orb_false_iff. rewrite !Nat.eqb_neq. intuition.
  - pose (r0 := match g_ra s with None => mk n n (fun _ _ => false) | Some r => r end).
    change (g_ra (rule_3_state n s v)) with
      (Some (upd r0 v (map (is_prisoner n (g_adj s) v) (seq 0 n)))).
    change (g_del (rule_3_state n s v)) with (v :: g_del s). cbv iota.
    assert (H0 : has_shape n n r0 /\ records (g_del s) r0).
    { unfold r0. destruct (g_ra s) as [r|]; auto. split.
      - split; [apply length_mk|]. intros row; apply row_length_mk.
      - rewrite Hra. intros x p. split.
        + intros Ex. exfalso. rewrite <- entry_get, get_mk_eq, andb_false_r in Ex. discriminate.
        + intros [(Hx & _)|(A & B & HAB & _)]; [destruct Hx|]. destruct A; cbn in HAB; discriminate HAB. }
    clearbody r0. destruct H0 as [[Hl Hr] Hrec]. split.
    + split; [rewrite upd_length; auto|]. intros row Hin.
      apply (In_nth _ _ []) in Hin. destruct Hin as (k & Hk & <-). rewrite upd_length in Hk.
      rewrite nth_upd. destruct ((k =? v) && (v <? length r0)).
      * rewrite map_length, seq_length; auto.
      * apply Hr, nth_In; auto.
    + assert (HvD : ~ In v (g_del s)) by (apply (dels_head E); auto).
      intros x p. unfold entry. rewrite nth_upd. rewrite Hl.
      replace (v <? n) with true by (symmetry; apply Nat.ltb_lt; auto). rewrite andb_true_r.
      destruct (Nat.eqb_spec x v) as [->|Hxv].
      * destruct (le_lt_dec n p) as [Hp|Hp].
        { rewrite nth_map_seq_over by auto. split; [discriminate|].
          intros [(_ & _ & HQ)|(_ & _ & _ & _ & HQ)]; destruct HQ as [HE _]; apply E_lt in HE; lia. }
        rewrite nth_map_seq by auto. rewrite prisoner_spec by auto. split.
        -- intros Hpr. left. split; [left; auto|]. split.
           ++ destruct Hpr as [(HE & _ & Hpd) _]. intros [<-|]; [apply (E_irr v); auto|auto].
           ++ apply (pris_Q E E_sym E_irr E_dec (g_del s)); auto.
        -- intros [(_ & Hpd & HQ)|(A & B & HAB & HpA & HQ)].
           ++ apply Q_pris; auto. intros Hin. apply Hpd. right; auto.
           ++ destruct A as [|a A]; [destruct HpA|]. injection HAB as -> HAB.
              exfalso. apply HvD. rewrite HAB. apply in_or_app. right. left. auto.
      * fold (entry r0 x p). rewrite (Hrec x p). split.
        -- intros [(Hx & Hpd & HQ)|(A & B & HAB & HpA & HQ)].
           ++ destruct (Nat.eq_dec p v) as [->|Hpv].
              ** right. apply in_split in Hx. destruct Hx as (A & B & HAB).
                 exists (v :: A), B. rewrite HAB. split; auto. split; auto. left; auto.
              ** left. split; [right; auto|]. split; auto. intros [|]; auto.
           ++ right. exists (v :: A), B. rewrite HAB. split; auto. split; auto. right; auto.
        -- intros [(Hx & Hpd & HQ)|(A & B & HAB & HpA & HQ)].
           ++ left. destruct Hx as [|Hx]; [congruence|]. split; auto. split; auto.
              intros Hin. apply Hpd. right; auto.
           ++ destruct A as [|a A]; [destruct HpA|]. injection HAB as -> HAB.
              destruct HpA as [->|HpA].
              ** left. split; [rewrite HAB; apply in_or_app; right; left; auto|]. split; auto.
              ** right. exists A, B. auto.
Qed.

Lemma deleting_core root s : CoreS n M (reducible_copy root None) ->
  deleting n M root s -> CoreS n M s.
Proof.
  intros H0. induction 1 as [|s k _ IH|s _ IH|s _ IH|s s' _ IH E3|s _ IH]; auto.
  - apply rule_1_core; auto.
  - revert E3. unfold rule_3.
    destruct (find _ _) as [v|]; [|intros [= <-]; auto].
    fold (star n (g_adj s) v).
    destruct (star n (g_adj s) v) as [|e es] eqn:Es; [discriminate|].
    intros E3. assert (E' : Ok (rule_3_state n s v) = Ok s').
    { rewrite <- E3. unfold rule_3_state. rewrite Es. reflexivity. }
    assert (s' = rule_3_state n s v) as -> by congruence. exact (rule_3_core n M s v IH).
Qed.

Lemma deleting_inv root s : CoreS n M (reducible_copy root None) ->
  g_adj root = M -> g_ra root = None -> g_del root = [] ->
  deleting n M root s -> Inv s.
Proof.
  intros H0 EA Era Ed Hd. pose proof (fun t => deleting_core root t H0) as HC.
  induction Hd as [|s k Hd IH|s Hd IH|s Hd IH|s s' Hd IH E3|s Hd IH]; auto.
  - split; [|split]; cbn [reducible_copy g_del g_adj g_ra]; rewrite ?Ed, ?EA, ?Era; auto.
    + constructor.
    + intros a b. unfold N. cbn. fold E. unfold E. tauto.
  - destruct IH as (H1 & H2 & H3). split; [exact H1|]. split; [|exact H3].
    intros a b. rewrite <- (H2 a b). unfold adjacent.
    specialize (HC s Hd).
    split; intros [Hne Hab]; split; auto; rewrite (rule_1_adj_ne n M) in *; auto.
  - specialize (HC s Hd).
    revert E3. unfold rule_3.
    destruct (find _ _) as [v|] eqn:Ef; [|intros [= <-]; auto].
    fold (star n (g_adj s) v).
    destruct (star n (g_adj s) v) as [|e es] eqn:Es; [discriminate|].
    intros E3. assert (E' : Ok (rule_3_state n s v) = Ok s').
    { rewrite <- E3. unfold rule_3_state. rewrite Es. reflexivity. }
    assert (s' = rule_3_state n s v) as -> by congruence.
    apply find_some in Ef. destruct Ef as [Hv Ef]. apply in_seq in Hv.
    apply andb_true_iff in Ef. destruct Ef as [E1 E2].
    apply rule_3_inv; auto; [lia|]. rewrite Es. discriminate.
Qed.

Lemma expanded_row D r c c' : dels E D -> records D r ->
  (forall k a, entry c k a = true -> ~ In a D) -> (forall k a, entry c k a = true -> a < n) ->
  (forall k v, k < length c -> v < n ->
      (entry c' k v = true <-> entry c k v = true \/
       exists p, entry r v p = true /\ entry (if p <? v then c' else c) k p = true)) ->
  forall k, k < length c -> forall v, v < n ->
  (entry c' k v = true <-> expands E D (fun a => entry c k a = true) v).
Proof.
  intros HDs Hrec Hout Hlt Hex k Hk. induction v as [v IH] using lt_wf_ind. intros Hv.
  rewrite (Hex k v Hk Hv). unfold expands.
  assert (HQin : forall p, entry r v p = true -> In v D /\ Q E v p /\ v <> p).
  { intros p Hp. apply Hrec in Hp.
    assert (Hv' : In v D /\ Q E v p).
    { destruct Hp as [(H1 & H2 & H3)|(A & B & HAB & HpA & HQ)]; auto. split; auto.
      rewrite HAB. apply in_or_app. right. left. auto. }
    destruct Hv' as [H1 H2]. split; auto. split; auto. intros ->. apply (E_irr p). apply H2. }
  split.
  - intros [|(p & E1 & E2)]; auto. right. destruct (HQin p E1) as (HvD & HQ & Hvp). split; auto.
    destruct (Nat.ltb_spec p v) as [L|L].
    + apply (IH p L) in E2; [|lia]. destruct E2 as [E2|[HpD (q & Hq & HQq)]].
      * exists p. auto.
      * exists q. split; auto. apply (Q_trans E v p q); auto. intros ->. apply (Hout k v); auto.
    + exists p. auto.
  - intros [|[HvD (p & Hp & HQ)]]; auto. right. exists p. split.
    + apply Hrec. left. split; auto. split; [eapply Hout; eauto|auto].
    + destruct (Nat.ltb_spec p v) as [L|L]; auto. apply Hex; auto. eapply Hlt; eauto.
Qed.

Lemma clique_out row a : length row = n -> row_set row a = true -> a < n.
Proof.
  unfold row_set. intros HL H. destruct (le_lt_dec n a); auto. rewrite nth_overflow in H by lia. discriminate.
Qed.

Lemma undo_state s C : Inv s -> cover_of_rest n M (g_del s) C ->
  exists C', reconstruct_cover n (g_ra s) (Some C) = Ok (Some C') /\ length C' = length C /\
    edge_clique_cover n M C'.
Proof.
  intros (HDs & HA & Hra) (HC1 & HC2 & HC3).
  assert (HrowK : forall k, k < length C -> In (nth k C []) C) by (intros; apply nth_In; auto).
  assert (Hent : forall k a, entry C k a = true -> k < length C /\ row_set (nth k C []) a = true).
  { intros k a H. split; [|exact H]. destruct (le_lt_dec (length C) k); auto.
    unfold entry in H. rewrite (nth_overflow C) in H by auto. destruct a; discriminate. }
  assert (Hlt : forall k a, entry C k a = true -> a < n).
  { intros k a H. apply Hent in H. destruct H as [Hk H]. destruct (HC1 _ (HrowK k Hk)) as (HL & _ & _).
    eapply clique_out; eauto. }
  assert (Hout : forall k a, entry C k a = true -> ~ In a (g_del s)).
  { intros k a H Hin. apply Hent in H. destruct H as [Hk H].
    destruct (HC1 _ (HrowK k Hk)) as (_ & _ & Hd). rewrite (Hd a Hin) in H. discriminate. }
  assert (Hmain : exists C', reconstruct_cover n (g_ra s) (Some C) = Ok (Some C') /\
     has_shape (length C) n C' /\ forall k, k < length C -> forall v, v < n ->
       (entry C' k v = true <-> expands E (g_del s) (fun a => entry C k a = true) v)).
  { destruct (g_ra s) as [r|].
    - destruct Hra as [Hsh Hrec].
      destruct (reconstruct_exact n r C Hsh) as (C' & H1 & H2 & H3); [intros; apply HC1; auto|].
      exists C'. split; auto. split; auto. apply (expanded_row (g_del s) r C C'); auto.
    - exists C. split; auto. split; [split; auto; intros; apply HC1; auto|].
      intros k _ v _. rewrite Hra. unfold expands. cbn. tauto. }
  destruct Hmain as (C' & H1 & [H2 H2'] & H3). exists C'. split; auto. split; auto.
  assert (HinC : forall row, In row C -> exists k, k < length C /\ row = nth k C []).
  { intros row Hr. apply (In_nth _ _ []) in Hr. destruct Hr as (k & Hk & <-). eauto. }
  assert (Hin' : forall row, In row C' -> exists k, k < length C /\ row = nth k C' []).
  { intros row Hr. apply (In_nth _ _ []) in Hr. destruct Hr as (k & Hk & <-). exists k. split; auto. lia. }
  assert (Hget : forall k, k < length C -> In (nth k C' []) C') by (intros; apply nth_In; lia).
  assert (Hvert : forall a b, E a b -> ~ In a (g_del s) ->
     exists k, k < length C /\ entry C k a = true).
  { intros a b HE Ha. apply E_lt in HE. destruct (HC3 a) as (row & Hr & Hx); [tauto|auto|].
    destruct (HinC row Hr) as (k & Hk & ->). exists k. auto. }
  assert (Hedge : forall a b, E a b -> ~ In a (g_del s) -> ~ In b (g_del s) ->
     exists k, k < length C /\ entry C k a = true /\ entry C k b = true).
  { intros a b HE Ha Hb. pose proof (E_lt _ _ HE).
    destruct (HC2 a b) as (row & Hr & Hx & Hy); try tauto.
    destruct (HinC row Hr) as (k & Hk & ->). exists k. auto. }
  set (K := fun (k : {k | k < length C}) (a : nat) => entry C (proj1_sig k) a = true).
  assert (Hcov : forall a b, E a b -> exists k, expands E (g_del s) (K k) a /\ expands E (g_del s) (K k) b).
  { apply (expands_covers E E_sym E_irr E_dec (g_del s) HDs _ K).
    - intros [k Hk] a. apply Hout.
    - intros a b HE Ha. destruct (Hvert a b HE Ha) as (k & Hk & Hx). exists (exist _ k Hk). exact Hx.
    - intros a b HE Ha Hb. destruct (Hedge a b HE Ha Hb) as (k & Hk & Hx). exists (exist _ k Hk). exact Hx. }
  assert (Hcv : forall a, In a (g_del s) -> exists k, expands E (g_del s) (K k) a).
  { apply (expands_vertex E E_sym E_irr E_dec (g_del s) HDs _ K).
    - intros [k Hk] a. apply Hout.
    - intros a b HE Ha. destruct (Hvert a b HE Ha) as (k & Hk & Hx). exists (exist _ k Hk). exact Hx.
    - intros a b HE Ha Hb. destruct (Hedge a b HE Ha Hb) as (k & Hk & Hx). exists (exist _ k Hk). exact Hx. }
  split; [auto|]. split; [|split].
  - intros row Hr. destruct (Hin' row Hr) as (k & Hk & ->). split.
    + intros v. apply clique_out. apply H2'. auto.
    + intros u v Hu Hv Huv.
      assert (Lu : u < n) by (eapply clique_out; eauto). assert (Lv : v < n) by (eapply clique_out; eauto).
      apply (H3 k Hk u Lu) in Hu. apply (H3 k Hk v Lv) in Hv.
      apply (expands_clique E E_sym (g_del s) (fun a => entry C k a = true)); auto.
      * intros a. apply Hout.
      * intros a b Ha Hb Hab. destruct (HC1 _ (HrowK k Hk)) as (_ & [_ Hcl] & _). apply Hcl; auto.
  - intros u v Lu Lv Huv. destruct (Hcov u v Huv) as ([k Hk] & Hx & Hy).
    exists (nth k C' []). split; auto. split; apply (H3 k Hk); auto.
  - intros v Lv. destruct (in_dec Nat.eq_dec v (g_del s)) as [Hin|Hno].
    + destruct (Hcv v Hin) as ([k Hk] & Hx). exists (nth k C' []). split; auto. apply (H3 k Hk); auto.
    + destruct (HC3 v Lv Hno) as (row & Hr & Hx). destruct (HinC row Hr) as (k & Hk & ->).
      exists (nth k C' []). split; auto. apply (H3 k Hk); auto. left. exact Hx.
Qed.

(** Any cover of [M], restricted to the vertices that are left. *)
Lemma restrict_cover dead C : edge_clique_cover n M C ->
  exists C2, cover_of_rest n M dead C2 /\ length C2 = length C.
Proof.
  intros (H1 & H2 & H3 & H4).
  set (f := fun row => map (fun v => row_set row v && negb (mem v dead)) (seq 0 n)).
  assert (Hf : forall row v, v < n -> row_set (f row) v = row_set row v && negb (mem v dead)).
  { intros row v Hv. unfold row_set at 1, f. rewrite nth_map_seq; auto. }
  assert (Hlen : forall row, length (f row) = n) by (intros; unfold f; rewrite map_length, seq_length; auto).
  exists (map f C). split; [|apply map_length]. split; [|split].
  - intros row Hr. apply in_map_iff in Hr. destruct Hr as (row0 & <- & Hr0). split; auto.
    assert (Hsub : forall v, row_set (f row0) v = true -> v < n /\ row_set row0 v = true /\ ~ In v dead).
    { intros v Hv. assert (Lv : v < n) by (eapply clique_out; eauto). split; auto.
      rewrite Hf in Hv by auto. apply andb_true_iff in Hv. destruct Hv as [Hv Hm].
      apply negb_true_iff, mem_false in Hm. auto. }
    split; [split|].
    + intros v Hv. apply Hsub; auto.
    + intros u v Hu Hv Hne. destruct (H2 row0 Hr0) as [_ Hcl]. apply Hcl; auto; apply Hsub; auto.
    + intros v Hv. destruct (row_set (f row0) v) eqn:Ev; auto. destruct (Hsub v Ev) as (_ & _ & Hx).
      contradiction.
  - intros u v Lu Lv Huv Du Dv. destruct (H3 u v Lu Lv Huv) as (row & Hr & Hx & Hy).
    exists (f row). split; [apply in_map; auto|]. rewrite !Hf by auto.
    apply mem_false in Du, Dv. unfold row_set. rewrite Hx, Hy, Du, Dv. auto.
  - intros u Lu Du. destruct (H4 u Lu) as (row & Hr & Hx).
    exists (f row). split; [apply in_map; auto|]. rewrite !Hf by auto.
    apply mem_false in Du. unfold row_set. rewrite Hx, Du. auto.
Qed.

Theorem undo_deletions eorc a s C : (exists u v, u < n /\ v < n /\ adjacent M u v) ->
  make_aux eorc (udg_init M) = Ok a -> deleting n M (root_of M a) s ->
  (forall u v, adjacent (g_adj s) u v <->
     adjacent M u v /\ ~ In u (g_del s) /\ ~ In v (g_del s)) /\
  (cover_of_rest n M (g_del s) C ->
   exists C', reconstruct_cover n (g_ra s) (Some C) = Ok (Some C') /\ length C' = length C /\
     edge_clique_cover n M C' /\
     ((forall C2, cover_of_rest n M (g_del s) C2 -> length C <= length C2) -> minimum_cover n M C')).
Proof.
  intros He Ha Hd. assert (Hn : 0 < n) by (destruct He as (u & _ & Hu & _); lia).
  destruct (root_good n M eorc a Hn HM HD He Ha) as [G _].
  assert (HI : Inv s).
  { apply (deleting_inv (root_of M a)); auto. exact (gd_core _ _ _ G). }
  split; [apply HI|]. intros Hcov.
  destruct (undo_state s C HI Hcov) as (C' & H1 & H2 & H3). exists C'. split; auto. split; auto. split; auto.
  intros Hmin. split; auto. intros C2 HC2.
  destruct (restrict_cover (g_del s) C2 HC2) as (C3 & H4 & H5). rewrite H2, <- H5. auto.
Qed.

(** As long as nothing has been put in the cover, the loop of reduzieren stays
    among these states. *)
Lemma cover_kept s s' : reduz_step n M s = Ok s' -> g_cover s' = None -> g_cover s = None.
Proof.
  unfold reduz_step. set (s0 := GS _ _ _ _ _ _ _ _ _ false _).
  assert (H2 : g_cover (rule_2 n (rule_1 n M s0)) = None -> g_cover s = None).
  { destruct (rule_2_cases n (rule_1 n M s0)) as [[-> _]|(i & _ & _ & ->)]; [auto|]. discriminate. }
  destruct (g_k _ <? 0)%Z; [intros [= <-]; auto|].
  destruct (g_red _); [intros [= <-]; auto|].
  unfold rule_3. destruct (find _ _); [|intros [= <-]; auto].
  destruct (map _ _); [discriminate|]. intros [= <-]. exact H2.
Qed.

Lemma rounds_cover s s' : rounds n M s s' -> g_cover s' = None -> g_cover s = None.
Proof. induction 1; auto. intros. eapply cover_kept; eauto. Qed.

Lemma rounds_deleting root s s' : rounds n M s s' -> g_cover s' = None ->
  deleting n M root s -> deleting n M root s'.
Proof.
  induction 1 as [|s s1 s2 E1 HR IH]; auto. intros Hc Hd. apply IH; auto.
  pose proof (rounds_cover _ _ HR Hc) as Hc1. revert E1.
  unfold reduz_step. change (GS _ _ _ _ _ _ _ _ _ false _) with (clear_flag s).
  assert (H2 : deleting n M root (rule_1 n M (clear_flag s))) by (apply del_rule_1, del_flag; auto).
  destruct (rule_2_cases n (rule_1 n M (clear_flag s))) as [[-> _]|(i & Hi & Hs & E2)].
  - destruct (g_k _ <? 0)%Z; [intros [= <-]; auto|].
    destruct (g_red _); [intros [= <-]; auto|]. intros E3. eapply del_rule_3; eauto.
  - rewrite E2. assert (Hnc : g_cover (rule_2_row n (rule_1 n M (clear_flag s)) i) <> None) by discriminate.
    assert (Hred : g_red (rule_2_row n (rule_1 n M (clear_flag s)) i) = true) by reflexivity.
    destruct (g_k _ <? 0)%Z; [intros [= <-]; congruence|]. rewrite Hred. intros [= <-]; congruence.
Qed.

End Link.

(** Decision procedure for [cover_of_rest], to exhibit instances. *)
Definition restb (n : nat) (M : matrix) (dead : list nat) (C : matrix) : bool :=
  forallb (fun row => (length row =? n) &&
    all2 n n (fun u v => implb (nth u row false && nth v row false) ((u =? v) || entry M u v)) &&
    forallb (fun v => negb (nth v row false)) dead) C &&
  all2 n n (fun u v => (u =? v) || negb (entry M u v) || mem u dead || mem v dead ||
    existsb (fun row => nth u row false && nth v row false) C) &&
  forallb (fun u => mem u dead || existsb (fun row => nth u row false) C) (seq 0 n).
Lemma restb_sound n M dead C : restb n M dead C = true -> cover_of_rest n M dead C.
Proof.
  unfold restb. rewrite !andb_true_iff, !forallb_forall. intros [[H1 H2] H3]. split; [|split].
  - intros row Hr. specialize (H1 row Hr). rewrite !andb_true_iff, forallb_forall in H1.
    destruct H1 as [[HL HC] HD]. apply Nat.eqb_eq in HL.
    assert (Hlt : forall v, row_set row v = true -> v < n) by (intros v; apply clique_out; auto).
    split; auto. split; [split; auto|].
    + intros u v Hu Hv Hne. pose proof (all2_sound _ _ _ HC u v (Hlt u Hu) (Hlt v Hv)) as Hx. cbv beta in Hx.
      unfold row_set in Hu, Hv. rewrite Hu, Hv in Hx. cbn in Hx. apply Nat.eqb_neq in Hne as Hne'.
      rewrite Hne' in Hx. split; auto.
    + intros v Hv. apply negb_true_iff. apply (HD v Hv).
  - intros u v Lu Lv [Hne E] Du Dv. pose proof (all2_sound _ _ _ H2 u v Lu Lv) as Hx. cbv beta in Hx.
    apply Nat.eqb_neq in Hne. apply mem_false in Du, Dv. rewrite Hne, E, Du, Dv in Hx. cbn in Hx.
    apply existsb_exists in Hx. destruct Hx as (row & Hr & Hx). apply andb_true_iff in Hx. exists row. auto.
  - intros u Lu Du. apply mem_false in Du. specialize (H3 u). rewrite in_seq, Du in H3.
    cbn in H3. specialize (H3 ltac:(lia)). apply existsb_exists in H3. auto.
Qed.
