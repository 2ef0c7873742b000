(** Lower bounds for edge clique covers, and the optimality of answers that
    Rules 1 and 2 find on their own. *)
From Verif Require Import Base Spec SpecDec MaxCliquesModel MaxCliquesProofs HeuristicModel HeuristicProofs
  GraphModel GraphProofs EccModel EccProofs EccReach CoverSpec.

Lemma forall2_choose {X Y} (R : X -> Y -> Prop) l : (forall x, In x l -> exists y, R x y) ->
  exists l', Forall2 R l l'.
Proof.
  induction l as [|x l IH]; intros H; [exists []; constructor|].
  destruct (H x (or_introl eq_refl)) as (y & Hy). destruct IH as (l' & Hl'); [intros; apply H; right; auto|].
  exists (y :: l'). constructor; auto.
Qed.

Lemma Forall2_In_r {X Y} (R : X -> Y -> Prop) l l' y : Forall2 R l l' -> In y l' -> exists x, In x l /\ R x y.
Proof.
  induction 1 as [|a b l l' Hab H IH]; intros Hin; [destruct Hin|]. destruct Hin as [<-|Hin].
  - exists a. split; [left|]; auto.
  - destruct (IH Hin) as (x & Hx & Hr). exists x. split; [right|]; auto.
Qed.

Lemma fooling_bound n M ps C : fooling n M ps -> edge_clique_cover n M C -> length ps <= length C.
Proof.
  intros [Hp Hi] (_ & Hcl & He & Hv).
  destruct (forall2_choose (fun p i => i < length C /\ nth (fst p) (nth i C []) false = true /\ nth (snd p) (nth i C []) false = true) ps) as (is & HF).
  { intros p Hin. destruct (Hp p Hin) as (L1 & L2 & [E|A]).
    - destruct (Hv (fst p) L1) as (row & Hr & E1). destruct (In_nth _ _ [] Hr) as (i & Hl & <-). exists i. rewrite <- E. auto.
    - destruct (He _ _ L1 L2 A) as (row & Hr & E1 & E2). destruct (In_nth _ _ [] Hr) as (i & Hl & <-). exists i. auto. }
  assert (HL : length ps = length is) by (clear -HF; induction HF; cbn; congruence).
  rewrite HL.
  rewrite <- (seq_length (length C) 0). apply NoDup_incl_length.
  - clear Hp. revert Hi. induction HF as [|p i ps is (Hl & E1 & E2) HF IH]; intros Hi; [constructor|].
    inversion Hi as [|? ? F Hi']; subst. constructor; [|apply IH; auto].
    intros Hin. destruct (Forall2_In_r _ _ _ _ HF Hin) as (q & Hq & Hl' & E3 & E4).
    rewrite Forall_forall in F. apply (F q Hq). exists (row_set (nth i C [])).
    split; [apply Hcl, nth_In; auto|]. unfold row_set. auto.
  - intros i Hin. destruct (Forall2_In_r _ _ _ _ HF Hin) as (p & _ & Hl & _). apply in_seq. lia.
Qed.

(** ** Rules 1 and 2 *)
Definition setk (s : gstate) (k : Z) : gstate :=
  GS (g_adj s) (g_nv s) (g_ne s) (g_cn s) (g_cnt s) (g_ext s) (g_cover s) (g_ra s) k (g_red s) (g_del s).

Section Forced.
Variables (n : nat) (M : matrix).
Hypothesis HM : undirected n M.
Hypothesis HD : unit_diagonal n M.

Definition nrows (c : option bmat) : nat := match c with None => 0 | Some c => length c end.

(** One pair per chosen clique; none shares a clique with another or with an
    uncovered edge. *)
Record Forced (s : gstate) (ps : list (nat * nat)) : Prop := mkForced {
  fo_len : length ps = nrows (g_cover s);
  fo_adj : forall p, In p ps -> fst p < n /\ snd p < n /\ adjacent M (fst p) (snd p);
  fo_inc : ForallOrdPairs (fun p q => ~ share_clique n M p q) ps;
  fo_unc : forall p u v, In p ps -> u <> v -> entry (g_adj s) u v = true -> ~ share_clique n M p (u, v)
}.

Lemma ForallOrdPairs_snoc {X} (R : X -> X -> Prop) l x : ForallOrdPairs R l -> Forall (fun y => R y x) l ->
  ForallOrdPairs R (l ++ [x]).
Proof.
  induction 1 as [|a l Ha H IH]; intros HF; [repeat constructor|]. inversion HF; subst. cbn [app]. constructor.
  - rewrite Forall_forall in *. intros y Hy. apply in_app_or in Hy. destruct Hy as [Hy|[<-|[]]]; auto.
  - apply IH; auto.
Qed.

Lemma nrows_vstack c row : nrows (Some (vstack c row)) = S (nrows c).
Proof. destruct c; cbn; [rewrite app_length; cbn; lia|reflexivity]. Qed.

Lemma rule_1_forced s ps : CoreS n M s -> Forced s ps -> Forced (rule_1 n M s) ps.
Proof.
  intros H F. constructor; try apply F. intros p u v Hp Hne E. rewrite (rule_1_adj_ne n M) in E by auto.
  apply (fo_unc _ _ F); auto.
Qed.

Lemma rule_2_forced s ps i : CoreS n M s -> Forced s ps -> In i (g_ext s) -> score n s i = 0%Z ->
  Forced (rule_2_row n s i) (ps ++ [(eu n i, ev n i)]).
Proof.
  intros H F Hi Hs. destruct (core_ends n M HD _ _ _ _ _ i H Hi) as (Him & He & C1 & C2).
  destruct (eu_ev n i Him) as [L1 L2].
  assert (Hne : eu n i <> ev n i) by lia.
  constructor.
  - rewrite app_length, (fo_len _ _ F). cbn [length].
    change (g_cover (rule_2_row n s i)) with (Some (vstack (g_cover s) (row_of n (g_cn s) i))). rewrite nrows_vstack. lia.
  - intros p Hp. apply in_app_or in Hp. destruct Hp as [Hp|[<-|[]]]; [apply (fo_adj _ _ F); auto|]. cbn [fst snd].
    split; [lia|]. split; [lia|]. split; auto. apply (c_sub _ _ _ _ _ _ _ H); auto.
  - apply ForallOrdPairs_snoc; [apply F|]. apply Forall_forall. intros p Hp. apply (fo_unc _ _ F); auto.
  - intros p u v Hp Huv E. rewrite (rule_2_row_adj n M) in E by auto. apply andb_true_iff in E. destruct E as [E Ec].
    apply in_app_or in Hp. destruct Hp as [Hp|[<-|[]]]; [apply (fo_unc _ _ F); auto|].
    intros (S & [_ Hcl] & S1 & S2 & S3 & S4). cbn [fst snd] in *.
    destruct (core_lt n M _ _ _ _ _ H _ _ E) as [Lu Lv].
    assert (E' : entry (g_adj s) v u = true) by (destruct (c_und _ _ _ _ _ _ _ H) as [_ ->]; auto).
    assert (K : forall a x, S a = true -> S x = true -> x < n -> entry M a x = true).
    { intros a x Ha Hx Lx. destruct (Nat.eq_dec a x) as [->|Hax]; [apply HD; auto|]. apply (Hcl a x); auto. }
    apply negb_true_iff, andb_false_iff in Ec. rewrite !(c_cn _ _ _ _ _ _ _ H) in Ec by auto.
    rewrite (K _ (ev n i) S1 S2 L2), (K _ _ S1 S3 Lu), (K _ _ S2 S3 Lu), (K _ _ S1 S4 Lv), (K _ _ S2 S4 Lv) in Ec.
    rewrite (c_alive _ _ _ _ _ _ _ H _ _ Huv E), (c_alive _ _ _ _ _ _ _ H _ _ (not_eq_sym Huv) E') in Ec.
    apply Nat.ltb_lt in Lu, Lv. rewrite Lu, Lv in Ec. destruct Ec; discriminate.
Qed.

Lemma step_setk s k2 : reduz_step n M (setk s k2) =
  let t := rule_2 n (rule_1 n M (clear_flag s)) in
  let k3 := (k2 - (g_k s - g_k t))%Z in
  if (k3 <? 0)%Z then Ok (setk t k3) else if g_red t then Ok (setk t k3) else rule_3 n (setk t k3).
Proof.
  unfold reduz_step. change (GS _ _ _ _ _ _ _ _ _ false _) with (setk (clear_flag s) k2).
  change (rule_1 n M (setk (clear_flag s) k2)) with (setk (rule_1 n M (clear_flag s)) k2).
  change (g_k s) with (g_k (rule_1 n M (clear_flag s))). set (t1 := rule_1 n M (clear_flag s)).
  assert (R2 : rule_2 n (setk t1 k2) = setk (rule_2 n t1) (k2 - (g_k t1 - g_k (rule_2 n t1)))).
  { unfold rule_2. change (score n (setk t1 k2)) with (score n t1). cbn [setk g_ext].
    destruct (filter (fun i => Z.eqb (score n t1 i) 0) (g_ext t1)) as [|i l].
    - rewrite Z.sub_diag, Z.sub_0_r. destruct t1; reflexivity.
    - destruct t1. unfold cover_last, cover_these. cbn. unfold setk. cbn. f_equal. lia. }
  rewrite R2. reflexivity.
Qed.

(** The reduction with another budget follows the same path. *)
Lemma loop_forced : forall f s s' ps k2, Good n M s -> Forced s ps -> g_ra s = None ->
  reduz_loop f n M s = Some (Ok s') -> g_ra s' = None -> (0 <= g_k s')%Z -> g_del s' = g_del s /\
  exists ps', Forced s' ps' /\ Good n M s' /\ length ps <= length ps' /\
    (Z.of_nat (length ps') - Z.of_nat (length ps) = g_k s - g_k s')%Z /\
    exists t, reduz_loop f n M (setk s k2) = Some (Ok t) /\
      ((0 <= k2)%Z -> 
       if (k2 <? g_k s - g_k s')%Z then (g_k t < 0)%Z else t = setk s' (k2 - (g_k s - g_k s'))).
Proof.
  induction f as [|f IH]; intros s s' ps k2 G F Hra; [discriminate|]. cbn [reduz_loop].
  destruct (reduz_step n M s) as [s1|] eqn:E1; [|discriminate].
  unfold reduz_step in E1.
  set (s0 := GS (g_adj s) (g_nv s) (g_ne s) (g_cn s) (g_cnt s) (g_ext s) (g_cover s) (g_ra s)
               (g_k s) false (g_del s)) in *.
  assert (G0 : Good n M s0).
  { constructor; [exact (gd_core _ _ _ G)|exact (gd_cov _ _ _ G)|exact (gd_expl _ _ _ G)|exact (gd_fresh _ _ _ G)]. }
  assert (F0 : Forced s0 ps) by (constructor; apply F).
  pose proof (rule_1_good n M HM s0 G0) as G1. pose proof (rule_1_no_isolated n M s0 (gd_core _ _ _ G0)) as Hno.
  pose proof (rule_1_forced s0 ps (gd_core _ _ _ G0) F0) as F1.
  rewrite step_setk. change (clear_flag s) with s0. cbv zeta.
  set (t1 := rule_1 n M s0) in *.
  cbn [setk g_k g_red].
  destruct (rule_2_cases n t1) as [[Er Hsc]|(i & Hi & Hs & Er)]; rewrite Er in E1 |- *.
  - change (g_k t1) with (g_k s) in *. change (g_red t1) with false in *. rewrite Z.sub_diag, Z.sub_0_r.
    destruct (g_k s <? 0)%Z eqn:Ek.
    + injection E1 as <-. change (g_k t1) with (g_k s). rewrite Ek. intros [= <-] _ Hk. apply Z.ltb_lt in Ek.
      change (g_k t1) with (g_k s) in Hk. lia.
    + destruct (rule_3_cases n M t1 (gd_core _ _ _ G1) Hno) as [[E3 Hst]|(v & Lv & Hv & Hd & E3)].
      * rewrite E3 in E1. injection E1 as <-. change (g_k t1) with (g_k s). change (g_red t1) with false. rewrite Ek.
        intros [= <-] _ Hk. split; [reflexivity|]. exists ps. split; [exact F1|]. split; [exact G1|]. split; [lia|].
        change (g_k t1) with (g_k s). split; [lia|]. rewrite Z.sub_diag, Z.sub_0_r.
        destruct (k2 <? 0)%Z eqn:E2.
        -- eexists. split; [cbn [g_k setk]; rewrite E2; reflexivity|]. intros. apply Z.ltb_lt in E2. lia.
        -- assert (R3 : rule_3 n (setk t1 k2) = Ok (setk t1 k2)).
           { revert E3. unfold rule_3. cbn [setk g_adj g_ra].
             destruct (find _ _); [|reflexivity]. destruct (map _ _); [discriminate|].
             intros E3. exfalso. apply (f_equal (fun r => match r with Ok s => g_red s | Err _ => false end)) in E3. discriminate. }
           rewrite R3. cbn [setk g_k g_red]. change (g_red t1) with false. rewrite E2.
           eexists. split; [reflexivity|]. auto.
      * rewrite E3 in E1. injection E1 as <-.
        assert (Hmon : forall f s s', reduz_loop f n M s = Some (Ok s') -> g_ra s <> None -> g_ra s' <> None).
        { clear. assert (Hst : forall s s', reduz_step n M s = Ok s' -> g_ra s <> None -> g_ra s' <> None).
          { intros s s'. unfold reduz_step. set (s0 := GS _ _ _ _ _ _ _ _ _ false _).
            assert (E : g_ra (rule_2 n (rule_1 n M s0)) = g_ra s).
            { unfold rule_2. destruct (filter _ _); [reflexivity|]. reflexivity. }
            destruct (_ <? 0)%Z; [intros [= <-]; rewrite E; auto|]. destruct (g_red _); [intros [= <-]; rewrite E; auto|].
            unfold rule_3. destruct (find _ _); [|intros [= <-]; rewrite E; auto]. destruct (map _ _); [discriminate|].
            intros [= <-] _. discriminate. }
          induction f as [|f IH]; intros s s'; [discriminate|]. cbn [reduz_loop].
          destruct (reduz_step n M s) as [s1|] eqn:E; [|discriminate]. intros H Hr.
          pose proof (Hst _ _ E Hr) as H1. destruct (_ <? 0)%Z; [injection H as <-; auto|]. destruct (g_red s1); [eauto|].
          injection H as <-; auto. }
        intros HL Hr' Hk. exfalso. change (g_k (rule_3_state n t1 v)) with (g_k s) in HL. rewrite Ek in HL.
        change (g_red (rule_3_state n t1 v)) with true in HL. cbn match in HL.
        apply (Hmon _ _ _ HL); auto. discriminate.
  - assert (Ks : g_k (rule_2_row n t1 i) = (g_k s - 1)%Z) by reflexivity.
    assert (Rs : g_red (rule_2_row n t1 i) = true) by reflexivity.
    change (g_k t1) with (g_k s). rewrite Ks. replace (k2 - (g_k s - (g_k s - 1)))%Z with (k2 - 1)%Z by lia.
    rewrite Rs in E1 |- *. 
    assert (E1' : s1 = rule_2_row n t1 i) by (destruct (_ <? 0)%Z; injection E1 as <-; reflexivity).
    clear E1. subst s1. rewrite Ks, Rs. destruct (g_k s - 1 <? 0)%Z eqn:Ek.
    + intros [= <-] _. rewrite Ks. apply Z.ltb_lt in Ek. lia.
    + intros HL Hr' Hk.
      destruct (IH _ s' _ (k2 - 1)%Z (rule_2_row_good n M HM HD t1 i G1 Hi Hs)
                 (rule_2_forced t1 ps i (gd_core _ _ _ G1) F1 Hi Hs) Hra HL Hr' Hk) as (Hdel & ps' & F' & G' & HP & HC & t & Ht & HT).
      split; [exact Hdel|]. exists ps'. split; [exact F'|]. split; [exact G'|]. rewrite app_length in HC, HP. cbn [length] in HC, HP.
      rewrite Ks in HC, HT. split; [lia|]. split; [lia|].
      destruct (k2 - 1 <? 0)%Z eqn:E2.
      * eexists. split; [cbn [setk g_k g_red]; rewrite ?E2, ?Rs; reflexivity|].
        apply Z.ltb_lt in E2. intros Hk2.
        destruct (Z.ltb_spec k2 (g_k s - g_k s')) as [C|C]; [cbn [setk g_k]; lia|].
        lia.
      * exists t. split; [cbn [setk g_k g_red]; rewrite ?E2, ?Rs; exact Ht|].
        apply Z.ltb_ge in E2. intros Hk2. specialize (HT ltac:(lia)).
        destruct (Z.ltb_spec k2 (g_k s - g_k s')) as [C|C]; destruct (Z.ltb_spec (k2 - 1) (g_k s - 1 - g_k s')) as [C'|C']; try lia.
        subst t. f_equal. lia.
Qed.

Lemma no_edges_left s : CoreS n M s -> g_ne s = 0 -> forall u v, u <> v -> entry (g_adj s) u v = false.
Proof.
  intros H E u v Hne. destruct (entry (g_adj s) u v) eqn:Euv; auto. exfalso.
  destruct (core_lt n M _ _ _ _ _ H _ _ Euv) as [Lu Lv].
  assert (E' : entry (g_adj s) v u = true) by (destruct (c_und _ _ _ _ _ _ _ H) as [_ ->]; auto).
  rewrite (c_ne _ _ _ _ _ _ _ H) in E.
  destruct (Nat.lt_trichotomy u v) as [L|[L|L]]; [|congruence|].
  - pose proof (cntU_pos n (entry (g_adj s)) u v L Lv Euv). lia.
  - pose proof (cntU_pos n (entry (g_adj s)) v u L Lu E'). lia.
Qed.

Lemma forced_minimum s ps c : Good n M s -> Forced s ps -> g_ne s = 0 -> g_del s = [] -> g_cover s = Some c ->
  minimum_cover n M (add_isolated_verts n c).
Proof.
  intros G F Hne Hdel Hc.
  assert (Hcov : forall u v, u <> v -> entry M u v = true ->
      exists row, In row c /\ nth u row false = true /\ nth v row false = true).
  { intros u v Huv E. destruct (gd_expl _ _ _ G u v Huv E) as [X|[X|X]].
    - rewrite (no_edges_left s (gd_core _ _ _ G) Hne u v Huv) in X. discriminate.
    - destruct X as (rows & row & Er & X). rewrite Hc in Er. injection Er as <-. exists row. auto.
    - rewrite Hdel in X. destruct X as [[]|[]]. }
  assert (HC : CovOK n M (Some c)) by (rewrite <- Hc; apply (gd_cov _ _ _ G)).
  destruct (add_isolated_shape n M c HC) as (iso & E & HS). rewrite E. split.
  - split; [intros row Hr; apply (shape_rows n M c iso HS row Hr)|].
    split; [intros row Hr; apply (shape_rows n M c iso HS row Hr)|]. split.
    + intros u v Lu Lv [Huv Eu]. destruct (Hcov u v Huv Eu) as (row & Hr & X). exists row. split; auto. apply in_or_app; auto.
    + eapply shape_vertices; eauto.
  - intros C' HC'.
    assert (HF : fooling n M (ps ++ map (fun v => (v, v)) iso)).
    { destruct HS as (_ & Hiso & Hsort).
      assert (Hfree : forall v, In v iso -> forall u, u <> v -> entry M v u = false).
      { intros v Hv u Huv. destruct (entry M v u) eqn:Ev; auto. exfalso. apply Hiso in Hv. destruct Hv as [_ Hv].
        destruct (Hcov v u (not_eq_sym Huv) Ev) as (row & Hr & X & _). specialize (Hv row Hr). unfold row_set in Hv. congruence. }
      assert (Hsh : forall v p, In v iso -> (fst p <> v \/ snd p <> v) -> ~ share_clique n M p (v, v)).
      { intros v p Hv Hp (S & [_ Hcl] & S1 & S2 & S3 & _). cbn [fst snd] in *.
        destruct Hp as [Hp|Hp].
        - pose proof (Hcl v (fst p) S3 S1 (not_eq_sym Hp)) as [_ X]. rewrite Hfree in X; auto. discriminate.
        - pose proof (Hcl v (snd p) S3 S2 (not_eq_sym Hp)) as [_ X]. rewrite Hfree in X; auto. discriminate. }
      split.
      - intros p Hp. apply in_app_or in Hp. destruct Hp as [Hp|Hp].
        + destruct (fo_adj _ _ F p Hp) as (L1 & L2 & A). auto.
        + apply in_map_iff in Hp. destruct Hp as (v & <- & Hv). apply Hiso in Hv. cbn [fst snd]. tauto.
      - assert (Hnd : NoDup iso).
        { clear -Hsort. induction Hsort as [|x l Hl IH HF]; constructor; auto. intros Hin. rewrite Forall_forall in HF. apply HF in Hin. lia. }
        assert (HFO : forall l, NoDup l -> incl l iso ->
            ForallOrdPairs (fun p q => ~ share_clique n M p q) (map (fun v => (v, v)) l)).
        { induction l as [|v l IH]; intros Hn Hi; [constructor|]. inversion Hn; subst. cbn [map]. constructor.
          - apply Forall_forall. intros q Hq. apply in_map_iff in Hq. destruct Hq as (w & <- & Hw).
            apply Hsh; [apply Hi; right; auto|]. left. cbn [fst]. congruence.
          - apply IH; auto. intros x Hx. apply Hi. right; auto. }
        assert (HA : forall qs, (forall p, In p qs -> In p ps) -> ForallOrdPairs (fun p q => ~ share_clique n M p q) qs ->
            ForallOrdPairs (fun p q => ~ share_clique n M p q) (qs ++ map (fun v => (v, v)) iso)).
        { induction qs as [|p qs IH]; intros Hi HO; [apply HFO; auto; apply incl_refl|]. inversion HO; subst. cbn [app]. constructor.
          - apply Forall_forall. intros q Hq. apply in_app_or in Hq. destruct Hq as [Hq|Hq].
            + rewrite Forall_forall in *; auto.
            + apply in_map_iff in Hq. destruct Hq as (w & <- & Hw). apply Hsh; auto.
              destruct (fo_adj _ _ F p (Hi p (or_introl eq_refl))) as (_ & _ & Hd & _).
              destruct (Nat.eq_dec (fst p) w); [right; congruence|auto].
          - apply IH; auto. intros; apply Hi; right; auto. }
        apply HA; auto. apply F. }
    pose proof (fooling_bound n M _ _ HF HC') as L. rewrite app_length in *. rewrite map_length in *.
    rewrite (fo_len _ _ F), Hc in L. exact L.
Qed.

(** The reduction of the fresh copy decides the whole search. *)
Lemma forced_search eorc orc a f k s' : 0 < n -> (exists u v, u < n /\ v < n /\ adjacent M u v) ->
  make_aux eorc (udg_init M) = Ok a ->
  reduzieren f n M (reducible_copy (root_state (udg_init M) a) None) k = Some (Ok s') ->
  g_ne s' = 0 -> g_ra s' = None -> (0 <= g_k s')%Z ->
  exists c, g_cover s' = Some c /\ minimum_cover n M (add_isolated_verts n c) /\
    ends_with (fun f => find_clique_min_cover_traced f eorc orc M) (Ok (add_isolated_verts n c, Reduced [])).
Proof.
  intros Hn He Ha Hred Hz Hra Hk. assert (Hl : length M = n) by apply HM.
  destruct (root_good n M eorc a Hn HM HD He Ha) as [G Hne].
  set (root := root_state (udg_init M) a) in *.
  set (st := fun j => GS (g_adj root) (g_nv root) (g_ne root) (g_cn root) (g_cnt root) (g_ext root) None None j true []).
  assert (G0 : forall j, Good n M (st j)).
  { intros j. constructor; [exact (gd_core _ _ _ G)|exact (gd_cov _ _ _ G)|exact (gd_expl _ _ _ G)|exact (gd_fresh _ _ _ G)]. }
  assert (F0 : forall j, Forced (st j) []) by (intros j; constructor; [reflexivity|intros ? []|constructor|intros ? ? ? []]).
  change (reduz_loop f n M (st k) = Some (Ok s')) in Hred.
  destruct (loop_forced f (st k) s' [] 0%Z (G0 k) (F0 k) eq_refl Hred Hra Hk) as (Hdel & ps' & F' & G' & HP & HC & _).
  change (g_del (st k)) with (@nil nat) in Hdel.
  assert (Hc : exists c, g_cover s' = Some c).
  { destruct (g_cover s') as [c|] eqn:E; [eauto|]. exfalso.
    pose proof (gd_expl _ _ _ G') as X. destruct He as (u & v & Lu & Lv & Huv & Eu).
    destruct (X u v Huv Eu) as [Y|[Y|Y]].
    - rewrite (no_edges_left s' (gd_core _ _ _ G') Hz u v Huv) in Y. discriminate.
    - destruct Y as (rows & row & Er & _). rewrite E in Er. discriminate.
    - rewrite Hdel in Y. destruct Y as [[]|[]]. }
  destruct Hc as (c & Hc). exists c. split; auto. split; [apply (forced_minimum s' ps'); auto|].
  assert (Hlen : length ps' = length c) by (rewrite (fo_len _ _ F'), Hc; reflexivity).
  assert (Hpos : 0 < length c).
  { destruct (gd_cov _ _ _ G' c Hc) as [Y _]. destruct c; [congruence|cbn; lia]. }
  change (g_k (st k)) with k in HC. cbn [length] in HC. rewrite Hlen in HC. 
  assert (Hbr : forall j f', f <= f' -> exists t, reduzieren f' n M (reducible_copy root None) (Z.of_nat j) = Some (Ok t) /\
     if (Z.of_nat j <? Z.of_nat (length c))%Z then (g_k t < 0)%Z else t = setk s' (Z.of_nat j - Z.of_nat (length c))).
  { intros j f' Hf.
    destruct (loop_forced f (st k) s' [] (Z.of_nat j) (G0 k) (F0 k) eq_refl Hred Hra Hk) as (_ & _ & _ & _ & _ & _ & t & Ht & HT).
    exists t. split; [apply (reduz_loop_mono f); auto|]. change (g_k (st k)) with k in HT.
    replace (k - g_k s')%Z with (Z.of_nat (length c)) in HT by lia. apply HT. lia. }
  assert (Hsearch : forall d j o f', j + d = length c -> d < o -> f <= f' ->
     search o f' n n M orc root j = Some (Ok (c, Reduced []))).
  { induction d as [|d IH]; intros j [|o] f' Hj Ho Hf; try lia; cbn [search branch].
    - destruct (Hbr j f' Hf) as (t & Ht & HT).
      rewrite (proj2 (Z.ltb_ge _ _)) in HT by lia. replace (Z.of_nat j - Z.of_nat (length c))%Z with 0%Z in HT by lia.
      change (cover_last n (reducible_copy root None)) with (reducible_copy root None).
      change (g_ne (reducible_copy root None)) with (g_ne root). rewrite (proj2 (Nat.eqb_neq _ _)) by lia.
      rewrite Ht, HT. cbn [setk g_k g_ne g_cover g_del]. rewrite Hz, Hc, Hdel. reflexivity.
    - destruct (Hbr j f' Hf) as (t & Ht & HT).
      rewrite (proj2 (Z.ltb_lt _ _)) in HT by lia.
      change (cover_last n (reducible_copy root None)) with (reducible_copy root None).
      change (g_ne (reducible_copy root None)) with (g_ne root). rewrite (proj2 (Nat.eqb_neq _ _)) by lia.
      rewrite Ht, (proj2 (Z.ltb_lt _ _)) by lia. apply IH; lia. }
  apply ends_with_mono; [intros; eapply traced_mono; eauto|].
  exists (f + length c). unfold find_clique_min_cover_traced. rewrite Ha.
  assert (Env : u_nv (udg_init M) = Z.of_nat n) by (apply trace_unit; auto).
  rewrite Env, Nat2Z.id, Hl.
  replace (_ && _) with false.
  - fold root. rewrite (Hsearch (length c - 1)) by lia. reflexivity.
  - symmetry. apply andb_false_iff. right. apply Z.ltb_ge.
    unfold udg_init; cbn [u_ne]. rewrite Hl, n_choose_2_nat, <- length_upper_pairs_choose.
    unfold count_upper. pose proof (filter_length_le (fun e => get M (fst e) (snd e)) (upper_pairs n)). lia.
Qed.
End Forced.
