From Verif Require Import Base Spec MaxCliquesModel MaxCliquesProofs GraphModel GraphProofs EccModel EccProofs EccReach NewEdgeSpec.

Section NewEdge.
Variables (n : nat) (A : matrix).
Hypothesis HA : undirected n A.
Hypothesis HD : unit_diagonal n A.
Hypothesis Hn : 0 < n.

Definition Chain (c : option bmat) : Prop := forall rows, c = Some rows -> explains_something_new n A rows.
Record Inv (s : gstate) : Prop := mkInv {
  iv_adj : forall u v, u <> v -> entry (g_adj s) u v = true -> ~ in_cover (g_cover s) u v;
  iv_chain : Chain (g_cover s) }.

Lemma entry_nth (C : bmat) j u : entry C j u = nth u (nth j C []) false.
Proof. reflexivity. Qed.

Lemma chain_vstack c row u v : Chain c -> u < n -> v < n -> adjacent A u v -> nth u row false = true -> nth v row false = true ->
  ~ in_cover c u v -> Chain (Some (vstack c row)).
Proof.
  intros HC Lu Lv Ad Ru Rv NC rows [= <-]. destruct c as [c|]; cbn [vstack].
  - intros k Hk. rewrite app_length in Hk. cbn in Hk. destruct (Nat.lt_ge_cases k (length c)) as [L|L].
    + destruct (HC c eq_refl k L) as (a & b & La & Lb & Aab & E1 & E2 & Hj). exists a, b.
      rewrite !entry_nth in *. rewrite app_nth1 by lia. repeat (split; [assumption|]).
      intros j Hlt. rewrite !entry_nth, app_nth1 by lia. rewrite <- !entry_nth. apply Hj; auto.
    + assert (k = length c) by lia. subst k. exists u, v.
      rewrite !entry_nth, app_nth2, Nat.sub_diag by lia. cbn [nth]. repeat (split; [assumption|]).
      intros j Hlt. rewrite !entry_nth, app_nth1 by lia. destruct (_ && _) eqn:E; [|reflexivity].
      apply andb_true_iff in E. exfalso. apply NC. exists c, (nth j c []). split; [reflexivity|]. split; [apply nth_In; auto|exact E].
  - intros k Hk. cbn in Hk. assert (k = 0) by lia. subst k. exists u, v. rewrite !entry_nth. cbn [nth].
    repeat (split; [assumption|]). intros j Hj. lia.
Qed.

Lemma in_cover_inv c row u v : in_cover (Some (vstack c row)) u v -> in_cover c u v \/ (nth u row false = true /\ nth v row false = true).
Proof.
  intros (rows & r & [= <-] & Hr & Hu & Hv). destruct c as [c|]; cbn [vstack] in Hr.
  - apply in_app_or in Hr. destruct Hr as [Hr|[<-|[]]]; auto. left. exists c, r. auto.
  - destruct Hr as [<-|[]]. auto.
Qed.

Lemma rule_1_inv s : CoreS n A s -> Inv s -> Inv (rule_1 n A s).
Proof.
  intros H I. constructor; [|exact (iv_chain _ I)]. intros u v Huv E. apply (iv_adj _ I); auto.
  rewrite (rule_1_adj_ne n A s u v H Huv) in E. exact E.
Qed.

Lemma rule_2_inv s i : CoreS n A s -> In i (g_ext s) -> Inv s -> Inv (rule_2_row n s i).
Proof.
  intros H Hi I. destruct (core_ends n A HD _ _ _ _ _ i H Hi) as (Him & He & C1 & C2).
  destruct (eu_ev n i Him) as [L1 L2]. constructor.
  - intros u v Huv E. rewrite (rule_2_row_adj n A s i u v H Huv) in E. apply andb_true_iff in E. destruct E as [E1 E2].
    intros HC. change (g_cover (rule_2_row n s i)) with (Some (vstack (g_cover s) (row_of n (g_cn s) i))) in HC.
    apply in_cover_inv in HC. destruct HC as [HC|[R1 R2]]; [apply (iv_adj _ I u v Huv E1); exact HC|].
    destruct (core_lt n A _ _ _ _ _ H _ _ E1) as [Lu Lv]. rewrite row_of_nth in R1, R2 by auto. rewrite R1, R2 in E2. discriminate.
  - change (g_cover (rule_2_row n s i)) with (Some (vstack (g_cover s) (row_of n (g_cn s) i))).
    apply (chain_vstack _ _ (eu n i) (ev n i) (iv_chain _ I)); try lia.
    + split; [lia|]. apply (c_sub _ _ _ _ _ _ _ H); auto.
    + rewrite row_of_nth by lia. exact C1.
    + rewrite row_of_nth by lia. exact C2.
    + apply (iv_adj _ I); auto. lia.
Qed.

Lemma rule_3_inv s v : CoreS n A s -> Inv s -> Inv (rule_3_state n s v).
Proof.
  intros H I. constructor; [|exact (iv_chain _ I)]. intros a b Hab E. rewrite (rule_3_adj n A s v a b H Hab) in E.
  apply andb_true_iff in E. apply (iv_adj _ I); tauto.
Qed.

Lemma step_inv s s' : Good n A s -> Inv s -> reduz_step n A s = Ok s' -> Inv s'.
Proof.
  intros G I. unfold reduz_step.
  set (s0 := GS (g_adj s) (g_nv s) (g_ne s) (g_cn s) (g_cnt s) (g_ext s) (g_cover s) (g_ra s) (g_k s) false (g_del s)).
  assert (H0 : CoreS n A s0) by exact (gd_core _ _ _ G).
  assert (I0 : Inv s0) by (constructor; [exact (iv_adj _ I)|exact (iv_chain _ I)]).
  pose proof (rule_1_inv s0 H0 I0) as I1. pose proof (rule_1_core n A HA s0 H0) as H1.
  pose proof (rule_1_no_isolated n A s0 H0) as Hno. set (s1 := rule_1 n A s0) in *.
  destruct (rule_2_cases n s1) as [[-> _]|(i & Hi & _ & ->)].
  - destruct (g_k s1 <? 0)%Z; [intros [= <-]; auto|]. destruct (g_red s1); [intros [= <-]; auto|].
    destruct (rule_3_cases n A s1 H1 Hno) as [[-> _]|(v & _ & _ & _ & ->)]; intros [= <-]; auto using rule_3_inv.
  - pose proof (rule_2_inv s1 i H1 Hi I1) as I2.
    change (g_red (rule_2_row n s1 i)) with true. destruct (g_k _ <? 0)%Z; intros [= <-]; auto.
Qed.

Lemma loop_inv : forall f s s', Good n A s -> Inv s -> reduz_loop f n A s = Some (Ok s') -> Inv s' /\ Good n A s'.
Proof.
  induction f as [|f IH]; intros s s' G I; cbn [reduz_loop]; [discriminate|].
  destruct (reduz_step_spec n A HA HD s G) as (s1 & E & G1 & _). rewrite E. pose proof (step_inv s s1 G I E) as I1.
  destruct (g_k s1 <? 0)%Z; [intros [= <-]; auto|]. destruct (g_red s1); [apply IH; auto|intros [= <-]; auto].
Qed.

Lemma reduzieren_inv f s k s' : Good n A s -> Inv s -> reduzieren f n A s k = Some (Ok s') -> Inv s' /\ Good n A s'.
Proof.
  unfold reduzieren. intros G I. apply loop_inv.
  - constructor; [exact (gd_core _ _ _ G)|exact (gd_cov _ _ _ G)|exact (gd_expl _ _ _ G)|exact (gd_fresh _ _ _ G)].
  - constructor; [exact (iv_adj _ I)|exact (iv_chain _ I)].
Qed.

Lemma child_inv s ra K : Good n A s -> Inv s -> good_row n A (K_row n K) -> (forall v, In v K -> v < n) ->
  (forall u v, u <> v -> In u K -> In v K -> entry (g_adj s) u v = true) ->
  Inv (child n s ra (vstack (g_cover s) (K_row n K))).
Proof.
  intros G I Hgr Hlt Hcl. pose proof (gd_core _ _ _ G) as H.
  destruct (child_spec n A s ra (K_row n K) G Hgr) as (Gc & _ & Ec & _ & _ & _ & Hadj & _).
  assert (HK : forall v, nth v (K_row n K) false = true -> v < n /\ In v K).
  { intros v E. destruct (le_lt_dec n v) as [L|L]; [rewrite K_row_over in E by auto; discriminate|].
    rewrite K_row_nth in E by auto. apply mem_In in E. auto. }
  constructor; rewrite Ec.
  - intros u v Huv E. rewrite (Hadj u v Huv) in E. apply andb_true_iff in E. destruct E as [E1 E2]. intros HC.
    apply in_cover_inv in HC. destruct HC as [HC|[R1 R2]]; [apply (iv_adj _ I u v Huv E1 HC)|rewrite R1, R2 in E2; discriminate].
  - destruct Hgr as (_ & _ & u & v & Huv & Ru & Rv). destruct (HK u Ru) as [Lu Iu], (HK v Rv) as [Lv Iv].
    pose proof (Hcl u v Huv Iu Iv) as E. apply (chain_vstack _ _ u v (iv_chain _ I)); auto.
    + split; [exact Huv|]. apply (c_sub _ _ _ _ _ _ _ H); auto.
    + apply (iv_adj _ I); auto.
Qed.

Lemma try_inv cov rc (P : option bmat -> Prop) : P None -> P cov -> forall Ks,
  (forall K i ra r ra' h, In K Ks -> length K <> 1 -> match rc with Some rc => rc i ra (vstack cov (K_row n K)) = Some (Ok (r, ra', h)) -> P r | None => True end) ->
  (forall K, In K Ks -> forall v, In v K -> v < n) ->
  forall i ra r ra' h, try_cliques n n cov rc i ra Ks = Some (Ok (r, ra', h)) -> P r.
Proof.
  intros P0 P1. induction Ks as [|K Ks IH]; intros Hr Hlt i ra r ra' h; cbn [try_cliques].
  { intros [= <- <- <-]. exact P0. }
  assert (Hr' : forall K i ra r ra' h, In K Ks -> length K <> 1 -> match rc with Some rc => rc i ra (vstack cov (K_row n K)) = Some (Ok (r, ra', h)) -> P r | None => True end).
  { intros K' j ra0 r0 ra0' h0 I0. apply (Hr K' j ra0 r0 ra0' h0). right; auto. }
  assert (Hlt' : forall K, In K Ks -> forall v, In v K -> v < n) by (intros K' I'; apply Hlt; right; auto).
  destruct (Nat.eqb_spec (length K) 1); [apply IH; auto|]. rewrite union_of_ok by (apply Hlt; left; auto).
  destruct rc as [rc|]; [|intros [= <- <- <-]; exact P1].
  destruct (rc i ra (vstack cov (K_row n K))) as [[[[[c|] rb] hb]|e]|] eqn:E; try discriminate.
  - intros [= <- <- <-]. apply (Hr K i ra (Some c) rb hb (or_introl eq_refl) n0 E).
  - apply IH; auto.
Qed.

Lemma branch_inv f orc : forall rem path s k cov r ra h,
  let b1 := cover_last n (reducible_copy s cov) in
  Good n A b1 -> Inv b1 -> 0 < g_ne b1 ->
  branch rem f n n A orc path s k cov = Some (Ok (r, ra, h)) -> Chain r.
Proof.
  assert (C0 : Chain None) by (intros rows [=]).
  induction rem as [|rem IH]; intros path s k cov r ra h b1 G I Hne H; revert H; cbn [branch]; fold b1;
  replace (g_ne b1 =? 0) with false by (symmetry; apply Nat.eqb_neq; lia).
  all: destruct (reduzieren f n A b1 k) as [[b2|]|] eqn:E; try discriminate.
  all: destruct (reduzieren_inv f b1 k b2 G I E) as [I2 G2].
  all: destruct (Z.ltb_spec (g_k b2) 0) as [Kn|Kn]; [intros [= <- <- <-]; exact C0|].
  all: destruct (Nat.eqb_spec (g_ne b2) 0) as [|N2]; [intros [= <- <- <-]; exact (iv_chain _ I2)|].
  all: destruct (choose_spec n A HD b2 (gd_core _ _ _ G2)) as (nb & i & Ech & Hund & Hi & Hnb); [lia|]; rewrite Ech.
  all: destruct (max_cliques f (orc path) nb) as [[Ks|]|] eqn:Em; try discriminate.
  all: destruct (nb_cliques n A HD b2 nb i (orc path) Hn (gd_core _ _ _ G2) Hi Hund Hnb) as (Ks' & [F2 HF2] & HK & Hrow & _).
  all: pose proof (max_cliques_mono _ _ _ _ Em (f + F2) ltac:(lia)) as X; rewrite HF2 in X by lia; injection X as ->.
  all: cbv zeta; match goal with |- context [try_cliques n n ?b ?a 0 ?c ?d] => set (rc := a) end.
  all: destruct (try_cliques n n (g_cover b2) rc 0 (g_ra b2) Ks) as [[[[r' ra'] h']|]|] eqn:Et; try discriminate.
  all: intros [= -> _ _].
  all: apply (try_inv (g_cover b2) rc Chain C0 (iv_chain _ I2) Ks) in Et; [exact Et| |intros K HKin; apply HK; auto].
  all: intros K j ra0 r0 ra0' h0 HKin HKl; unfold rc.
  1: exact Logic.I.
  intros Hb. destruct (Hrow K HKin HKl) as [Hgr Hcl].
  destruct (child_spec n A b2 ra0 (K_row n K) G2 Hgr) as (Gc & _ & _ & _ & _ & _ & Hadjc & _).
  refine (IH _ _ _ _ _ _ _ Gc _ _ Hb).
  - apply child_inv; auto. intros v. apply HK; auto.
  - assert (St : Stuck n b2).
    { destruct (reduzieren_spec n A HA HD b1 k G) as (b3 & [F HF] & _ & _ & _ & [Hst|Hst] & _).
      - pose proof (reduz_loop_mono _ (f + F) _ _ _ _ E ltac:(lia)) as X. unfold reduzieren in HF. rewrite HF in X by lia. injection X as ->. lia.
      - pose proof (reduz_loop_mono _ (f + F) _ _ _ _ E ltac:(lia)) as X. unfold reduzieren in HF. rewrite HF in X by lia. injection X as ->. exact Hst. }
    destruct (stuck_not_one_clique n A b2 (fun v => mem v K) (gd_core _ _ _ G2) St) as (u & v & L1 & L2 & Euv & Ekk).
    { lia. }
    { intros u v Huv Hu Hv. apply Hcl; auto; apply mem_In; auto. }
    assert (Hpos : entry (g_adj (child n b2 ra0 (vstack (g_cover b2) (K_row n K)))) u v = true).
    { rewrite Hadjc by lia. rewrite Euv, !K_row_nth by lia. rewrite Ekk. reflexivity. }
    pose proof (c_ne _ _ _ _ _ _ _ (gd_core _ _ _ Gc)) as HN.
    pose proof (cntU_pos n _ u v L1 L2 Hpos) as HP0. unfold child in *. lia.
Qed.

Lemma search_inv f orc s : Good n A (reducible_copy s None) -> 0 < g_ne s -> g_cover s = None -> forall o j c h,
  search o f n n A orc s j = Some (Ok (c, h)) -> explains_something_new n A c.
Proof.
  intros G Hne _. assert (I : Inv (cover_last n (reducible_copy s None))).
  { constructor; [intros u v _ _ (rows & r & E & _); discriminate|intros rows [=]]. }
  induction o as [|o IH]; intros j c h; cbn [search]; [discriminate|].
  destruct (branch 3 f n n A orc [j] s (Z.of_nat j) None) as [[[[[c'|] ra] h']|]|] eqn:E; try discriminate.
  - intros [= <- <-]. apply (branch_inv f orc 3 [j] s (Z.of_nat j) None _ _ _ G I Hne E c' eq_refl).
  - apply IH.
Qed.
End NewEdge.

Theorem fcmc_new n M eorc orc : 0 < n -> undirected n M -> unit_diagonal n M ->
  exists C iso, ends_with (fun fuel => find_clique_min_cover fuel eorc orc M) (Ok (C ++ map (unit_row n) iso)) /\
    cover_shape n M C iso /\ explains_something_new n M C.
Proof.
  intros Hn HM HD. assert (Hl : length M = n) by apply HM. destruct (edge_dec n M HM) as [He|He].
  - destruct (make_aux_spec n M eorc HM HD He) as (a & Ha & _).
    destruct (root_good n M eorc a Hn HM HD He Ha) as [G Hne].
    destruct (search_spec n M HM HD orc (root_state (udg_init M) a) Hn G Hne
             (g_ne (root_state (udg_init M) a) + 3) 1) as (c & h & [HR _] & D & F & HS); [lia|].
    destruct (add_isolated_shape n M c HR) as (iso & E & HSh). exists c, iso. split; [|split; [exact HSh|]].
    + rewrite <- E. apply (ends_traced _ _ _ (Ok (add_isolated_verts n c, h))). apply ends_with_mono; [intros; eapply traced_mono; eauto|].
      exists (D + F). unfold find_clique_min_cover_traced. rewrite Ha.
      assert (Env : u_nv (udg_init M) = Z.of_nat n) by (apply trace_unit; auto). rewrite Env, Nat2Z.id, Hl.
      replace (_ && _) with false; [rewrite HS by lia; reflexivity|].
      symmetry. apply andb_false_iff. right. apply Z.ltb_ge.
      unfold udg_init; cbn [u_ne]. rewrite Hl, n_choose_2_nat, <- length_upper_pairs_choose.
      unfold count_upper. pose proof (filter_length_le (fun e => get M (fst e) (snd e)) (upper_pairs n)). lia.
    + apply (search_inv n M HM HD Hn F orc _ G Hne eq_refl D 1 c h). apply HS; lia.
  - exists [], (seq 0 n). split; [|split].
    + cbn [app]. rewrite <- (edgeless_unit n M HM HD He).
      exact (ends_traced _ _ _ _ (fcmc_edgeless n M eorc orc Hn HM He)).
    + split; [intros row []|]. split; [|apply sorted_seq]. intros v. rewrite in_seq.
      split; [intros; split; [lia|intros ? []]|lia].
    + intros k Hk. cbn in Hk. lia.
Qed.

Lemma new_edges_count n M C : undirected n M -> explains_something_new n M C -> length C <= edges_among n M (fun _ => true).
Proof.
  intros HM HC.
  assert (X : forall k, k <= length C -> exists es, length es = k /\ NoDup es /\
     forall e, In e es -> fst e < snd e /\ snd e < n /\ entry M (fst e) (snd e) = true /\
       exists j, j < k /\ entry C j (fst e) && entry C j (snd e) = true).
  { induction k as [|k IH]; intros Hk.
    - exists []. split; [reflexivity|]. split; [constructor|intros e []].
    - destruct IH as (es & L & ND & H); [lia|]. destruct (HC k Hk) as (u & v & Lu & Lv & [Huv Auv] & E1 & E2 & Hj).
      assert (Y : exists e, fst e < snd e /\ snd e < n /\ entry M (fst e) (snd e) = true /\ entry C k (fst e) && entry C k (snd e) = true /\
         forall j, j < k -> entry C j (fst e) && entry C j (snd e) = false).
      { destruct (Nat.lt_ge_cases u v) as [L'|L'].
        - exists (u, v). cbn [fst snd]. rewrite E1, E2. auto.
        - exists (v, u). cbn [fst snd]. rewrite E1, E2. assert (entry M v u = true) by (destruct HM as [_ ->]; auto).
          split; [lia|]. repeat (split; [auto|]). intros j Hlt. rewrite andb_comm. auto. }
      destruct Y as (e & Y1 & Y2 & Y3 & Y4 & Y5). exists (e :: es). split; [cbn; lia|]. split.
      + constructor; [|exact ND]. intros I. destruct (H e I) as (_ & _ & _ & j & Lj & Ej). rewrite (Y5 j Lj) in Ej. discriminate.
      + intros e' [<-|I]; [eauto 10|]. destruct (H e' I) as (Z1 & Z2 & Z3 & j & Lj & Ej). eauto 10. }
  destruct (X (length C) (le_n _)) as (es & <- & ND & H). unfold edges_among. apply NoDup_incl_length; [exact ND|].
  intros [a b] I. destruct (H _ I) as (L1 & L2 & E & _). cbn [fst snd] in *. apply filter_In. split.
  - apply in_prod; apply in_seq; lia.
  - cbn [fst snd]. rewrite E, !andb_true_r. apply Nat.ltb_lt. exact L1.
Qed.

Lemma new_rows_distinct n M C i j : explains_something_new n M C -> i < length C -> j < length C -> i <> j ->
  ~ same_set (row_set (nth i C [])) (row_set (nth j C [])).
Proof.
  intros HC. assert (X : forall i j, i < j -> j < length C -> ~ same_set (row_set (nth i C [])) (row_set (nth j C []))).
  { intros a b L Lb E. destruct (HC b Lb) as (u & v & _ & _ & _ & E1 & E2 & Hj). specialize (Hj a L).
    pose proof (E u) as Eu. pose proof (E v) as Ev. unfold row_set in *. rewrite !entry_nth in *. rewrite Eu, Ev, E1, E2 in Hj. discriminate. }
  intros Li Lj N E. destruct (Nat.lt_ge_cases i j) as [L|L]; [apply (X i j L Lj E)|].
  apply (X j i ltac:(lia) Li). intros v. symmetry. apply E.
Qed.
