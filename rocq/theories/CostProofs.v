(** Erasure and bounds of the counted search. *)
From Verif Require Import Base Spec MaxCliquesModel MaxCliquesProofs GraphModel GraphProofs EccModel EccProofs
  CliqueCountProofs CostModel.

Definition erase {X} (r : option (X * nat)) : option X := option_map fst r.

Lemma try_erases nv0 n cov r rc : match r, rc with
    | Some r, Some rc => forall i ra u, erase (rc i ra u) = r i ra u | None, None => True | _, _ => False end ->
  forall Ks i ra, erase (try_cliques_c nv0 n cov rc i ra Ks) = try_cliques nv0 n cov r i ra Ks.
Proof.
  intros H. induction Ks as [|K Ks IH]; intros i ra; cbn [try_cliques_c try_cliques]; [reflexivity|].
  destruct (length K =? 1); [apply IH|]. destruct (union_of nv0 n cov K) as [u|]; [|reflexivity].
  destruct r as [r|], rc as [rc|]; try contradiction; [|reflexivity].
  rewrite <- (H i ra u). destruct (rc i ra u) as [[[[[[c|] ra'] h]|e] k]|]; cbn [erase option_map fst]; try reflexivity.
  rewrite <- IH. destruct (try_cliques_c nv0 n cov (Some rc) (S i) ra' Ks) as [[x y]|]; reflexivity.
Qed.

Lemma branch_erases : forall rem fuel nv0 n A orc path s k cov,
  erase (branch_c rem fuel nv0 n A orc path s k cov) = branch rem fuel nv0 n A orc path s k cov.
Proof.
  induction rem as [|rem IH]; intros; cbn [branch_c branch]; set (b1 := cover_last n (reducible_copy s cov));
  (destruct (g_ne b1 =? 0); [destruct (reconstruct_cover n (g_ra b1) cov); reflexivity|]);
  destruct (reduzieren fuel n A b1 k) as [[b2|]|]; try reflexivity;
  (destruct (g_k b2 <? 0)%Z; [reflexivity|]); (destruct (g_ne b2 =? 0); [reflexivity|]);
  (destruct (choose_nbrhood n b2) as [nb|]; [|reflexivity]);
  destruct (max_cliques fuel (orc path) nb) as [[Ks|]|]; try reflexivity; cbv zeta;
  match goal with |- erase (match try_cliques_c _ _ _ ?rc _ _ _ with _ => _ end) = match try_cliques _ _ _ ?r _ _ _ with _ => _ end =>
    rewrite <- (try_erases nv0 n (g_cover b2) r rc) end; cbn beta iota; auto;
  match goal with |- context [try_cliques_c ?a ?b ?c ?d ?e ?f ?g] => destruct (try_cliques_c a b c d e f g) as [[[[[? ?] ?]|?] ?]|] end; reflexivity.
Qed.

Lemma search_erases : forall o fuel nv0 n A orc s j,
  erase (search_c o fuel nv0 n A orc s j) = search o fuel nv0 n A orc s j.
Proof.
  induction o as [|o IH]; intros; cbn [search_c search]; [reflexivity|].
  rewrite <- branch_erases. destruct (branch_c 3 fuel nv0 n A orc [j] s (Z.of_nat j) None) as [[[[[[c|] ra] h]|e] k]|]; try reflexivity.
  cbn [erase option_map fst]. rewrite <- IH. destruct (search_c o fuel nv0 n A orc s (S j)) as [[x y]|]; reflexivity.
Qed.

Theorem counted_erases fuel eorc orc M :
  option_map fst (find_clique_min_cover_c fuel fuel eorc orc M) = find_clique_min_cover fuel eorc orc M.
Proof.
  unfold find_clique_min_cover, find_clique_min_cover_traced, find_clique_min_cover_c.
  destruct (make_aux eorc (udg_init M)) as [a|]; [|reflexivity]. destruct (_ && _); [reflexivity|].
  rewrite <- search_erases. destruct (search_c fuel fuel _ _ _ _ _ _) as [[[[x h]|e] y]|]; reflexivity.
Qed.

(** Number of calls. *)
Fixpoint nodes (t r : nat) : nat := match r with 0 => 1 | S r => 1 + t * nodes t r end.

Lemma try_calls nv0 n cov rc B : match rc with Some rc => forall i ra u r c, rc i ra u = Some (r, c) -> c <= B | None => True end ->
  forall Ks i ra r c, try_cliques_c nv0 n cov rc i ra Ks = Some (r, c) -> c <= length Ks * B.
Proof.
  intros H. induction Ks as [|K Ks IH]; intros i ra r c; cbn [try_cliques_c length].
  { intros [= <- <-]. lia. }
  destruct (length K =? 1). { intros E. apply IH in E. lia. }
  destruct (union_of nv0 n cov K) as [u|]; [|intros [= <- <-]; lia].
  destruct rc as [rc|]; [|intros [= <- <-]; lia].
  destruct (rc i ra u) as [[x y]|] eqn:E; [|discriminate]. apply H in E.
  destruct x as [[[[c0|] ra'] h]|e]; try (intros [= <- <-]; nia).
  destruct (try_cliques_c nv0 n cov (Some rc) (S i) ra' Ks) as [[x' y']|] eqn:E'; [|discriminate].
  apply IH in E'. intros [= <- <-]. nia.
Qed.

Lemma try_calls0 nv0 n cov Ks : forall i ra r c, try_cliques_c nv0 n cov None i ra Ks = Some (r, c) -> c = 0.
Proof.
  intros i ra r c H. pose proof (try_calls nv0 n cov None 0 I Ks i ra r c H). lia.
Qed.

Lemma choose_length n s nb : choose_nbrhood n s = Ok nb -> length nb = n.
Proof.
  unfold choose_nbrhood. destruct (g_ext s) as [|i l]; [discriminate|]. cbv zeta.
  destruct (_ <=? _)%Z; [discriminate|]. intros [= <-]. unfold mk. rewrite map_length, seq_length. reflexivity.
Qed.

Lemma clique_number f orc M Ks : max_cliques f orc M = Some (Ok Ks) -> length Ks <= moon (length M).
Proof.
  intros H. destruct (max_cliques_time orc M) as (o & H' & L).
  pose proof (max_cliques_det _ _ _ _ _ _ H H') as E. injection E as <-. exact L.
Qed.

Lemma branch_calls : forall rem fuel nv0 n A orc path s k cov r c,
  branch_c rem fuel nv0 n A orc path s k cov = Some (r, c) -> c <= nodes (moon n) rem.
Proof.
  induction rem as [|rem IH]; intros fuel nv0 n A orc path s k cov r c; cbn [branch_c nodes]; set (b1 := cover_last n (reducible_copy s cov));
  (destruct (g_ne b1 =? 0); [destruct (reconstruct_cover n (g_ra b1) cov); intros [= <- <-]; lia|]);
  destruct (reduzieren fuel n A b1 k) as [[b2|]|]; try discriminate; try (intros [= <- <-]; lia);
  (destruct (g_k b2 <? 0)%Z; [intros [= <- <-]; lia|]); (destruct (g_ne b2 =? 0); [intros [= <- <-]; lia|]);
  (destruct (choose_nbrhood n b2) as [nb|] eqn:Ec; [|intros [= <- <-]; lia]); apply choose_length in Ec;
  destruct (max_cliques fuel (orc path) nb) as [[Ks|]|] eqn:Em; try discriminate; try (intros [= <- <-]; lia);
  apply clique_number in Em; rewrite Ec in Em; cbv zeta.
  - destruct (try_cliques_c nv0 n (g_cover b2) None 0 (g_ra b2) Ks) as [[x y]|] eqn:E; [|discriminate].
    apply try_calls0 in E. destruct x as [[[? ?] ?]|?]; intros [= <- <-]; lia.
  - match goal with |- context [try_cliques_c nv0 n (g_cover b2) (Some ?a) 0 (g_ra b2) Ks] => set (rc := a) end.
    destruct (try_cliques_c nv0 n (g_cover b2) (Some rc) 0 (g_ra b2) Ks) as [[x y]|] eqn:E; [|discriminate].
    apply (try_calls nv0 n _ (Some rc) (nodes (moon n) rem)) in E.
    + assert (y <= moon n * nodes (moon n) rem) by (eapply Nat.le_trans; [exact E|]; apply Nat.mul_le_mono_r; exact Em).
      destruct x as [[[? ?] ?]|?]; intros [= <- <-]; lia.
    + intros i ra u x' c' Hx. unfold rc in Hx. apply IH in Hx. exact Hx.
Qed.

Lemma search_calls : forall o fuel nv0 n A orc s j r c,
  search_c o fuel nv0 n A orc s j = Some (r, c) -> c <= o * nodes (moon n) 3.
Proof.
  induction o as [|o IH]; intros fuel nv0 n A orc s j r c; [discriminate|]. cbn [search_c].
  destruct (branch_c 3 fuel nv0 n A orc [j] s (Z.of_nat j) None) as [[x y]|] eqn:E; [|discriminate].
  apply branch_calls in E. remember (nodes (moon n) 3) as N.
  destruct x as [[[[c0|] ra] h]|e]; try (intros [= <- <-]; lia).
  destruct (search_c o fuel nv0 n A orc s (S j)) as [[x' y']|] eqn:E'; [|discriminate].
  apply IH in E'. intros [= <- <-]. lia.
Qed.

(** Fuel that is enough for every loop. *)
Section Enough.
Variables (n : nat) (A : matrix).
Hypothesis Hn : 0 < n.
Hypothesis HA : undirected n A.
Hypothesis HD : unit_diagonal n A.
Variable F0 : nat.
Hypothesis HF : 5 * moon n <= F0.

Lemma try_enough nv0 cov r r' : forall Ks,
  (forall K i ra u x, In K Ks -> length K <> 1 -> union_of nv0 n cov K = Ok u -> r i ra u = Some x -> r' i ra u = Some x) ->
  forall i ra x, try_cliques nv0 n cov (Some r) i ra Ks = Some x -> try_cliques nv0 n cov (Some r') i ra Ks = Some x.
Proof.
  induction Ks as [|K Ks IH]; intros Hr i ra x; cbn [try_cliques]; auto.
  assert (Hr' : forall K i ra u x, In K Ks -> length K <> 1 -> union_of nv0 n cov K = Ok u -> r i ra u = Some x -> r' i ra u = Some x).
  { intros K'; intros. eapply (Hr K'); eauto. right; auto. }
  destruct (Nat.eqb_spec (length K) 1); [apply IH; auto|]. destruct (union_of nv0 n cov K) as [u|] eqn:Eu; auto.
  destruct (r i ra u) as [y|] eqn:E; [|discriminate]. rewrite (Hr K i ra u y (or_introl eq_refl) n0 Eu E).
  destruct y as [[[[c|] ra'] h]|e]; auto.
Qed.

Lemma branch_enough orc f : forall rem path s k cov r,
  let b1 := cover_last n (reducible_copy s cov) in
  Good n A b1 -> g_ne b1 < F0 ->
  branch rem f n n A orc path s k cov = Some r -> branch rem F0 n n A orc path s k cov = Some r.
Proof.
  induction rem as [|rem IH]; intros path s k cov r b1 G L H; revert H; cbn [branch]; fold b1;
  destruct (g_ne b1 =? 0); auto.
  all: destruct (reduzieren f n A b1 k) as [y|] eqn:E; [|discriminate].
  all: assert (E0 : exists b2, y = Ok b2 /\ reduzieren F0 n A b1 k = Some (Ok b2) /\ Good n A b2 /\ g_ne b2 <= g_ne b1).
  1,3: unfold reduzieren in *;
    match goal with |- context [reduz_loop F0 n A ?z] => set (s0 := z) in * end;
    assert (G0 : Good n A s0) by (constructor; [exact (gd_core _ _ _ G)|exact (gd_cov _ _ _ G)|exact (gd_expl _ _ _ G)|exact (gd_fresh _ _ _ G)]);
    destruct (reduz_loop_spec n A HA HD (g_ne s0) s0 (le_n _) G0) as (b2 & E1 & G2 & N2 & _);
    exists b2; change (g_ne s0) with (g_ne b1) in *;
    (split; [pose proof (reduz_loop_mono _ (f + F0) _ _ _ _ E ltac:(lia)) as X1;
       pose proof (reduz_loop_mono _ (f + F0) _ _ _ _ E1 ltac:(lia)) as X2; congruence
     |split; [apply (reduz_loop_mono _ F0 _ _ _ _ E1); lia|auto]]).
  all: destruct E0 as (b2 & -> & -> & G2 & N2).
  all: destruct (g_k b2 <? 0)%Z; auto; destruct (Nat.eqb_spec (g_ne b2) 0); auto.
  all: destruct (choose_spec n A HD b2 (gd_core _ _ _ G2)) as (nb & i & Ech & Hund & Hi & Hnb); [lia|]; rewrite Ech; apply choose_length in Ech as Lnb.
  all: destruct (max_cliques f (orc path) nb) as [y|] eqn:Em; [|discriminate].
  all: destruct (max_cliques_time (orc path) nb) as (Ks & Em0 & _); rewrite Lnb in Em0.
  all: pose proof (max_cliques_det _ _ _ _ _ _ Em Em0) as ->.
  all: rewrite (max_cliques_mono _ _ _ _ Em0 F0 HF); auto.
  destruct (nb_cliques n A HD b2 nb i (orc path) Hn (gd_core _ _ _ G2) Hi Hund Hnb) as (Ks' & [F2 HF2] & HK & Hrow & _).
  pose proof (max_cliques_mono _ _ _ _ Em0 (5 * moon n + F2) ltac:(lia)) as X. rewrite HF2 in X by lia. injection X as ->.
  cbv zeta.
  match goal with |- context [try_cliques n n (g_cover b2) (Some ?a) 0 (g_ra b2) Ks] => set (r1 := a) end.
  destruct (try_cliques n n (g_cover b2) (Some r1) 0 (g_ra b2) Ks) as [y|] eqn:Et; [|discriminate].
  match goal with |- context [try_cliques n n (g_cover b2) (Some ?a) 0 (g_ra b2) Ks] => set (r2 := a) end.
  rewrite (try_enough n (g_cover b2) r1 r2 Ks) with (x := y); auto.
  intros K j ra u x HKin HKl Hu Hx. unfold r1 in Hx. unfold r2.
  rewrite union_of_ok in Hu by (apply HK; auto). injection Hu as <-.
  destruct (Hrow K HKin HKl) as [Hgr _].
  destruct (child_spec n A b2 ra (K_row n K) G2 Hgr) as (Gc & Hnc & _).
  apply IH; auto; unfold child in *; auto. lia.
Qed.

Lemma search_enough orc s : Good n A (reducible_copy s None) -> 0 < g_ne s -> g_ne s < F0 ->
  forall d j, g_ne s + 3 <= j + d -> exists r, search (S d) F0 n n A orc s j = Some (Ok r).
Proof.
  intros G Hne HL. induction d as [|d IH]; intros j Hj; cbn [search];
  destruct (branch_spec n A HA HD orc Hn 3 [j] s (Z.of_nat j) None) as (c & ra & h & [F Hb] & HR & HP); [exact G|exact Hne|lia| |exact G|exact Hne|lia|];
  cbn [cover_last reducible_copy g_cover g_ne] in HP;
  rewrite (branch_enough orc F 3 [j] s (Z.of_nat j) None (Ok (c, ra, h))); try exact G; try exact HL; try (apply Hb; lia).
  - destruct c as [c|]; [|exfalso; apply HP; [lia|auto]]. eauto.
  - destruct c as [c|]; [eauto|]. apply (IH (S j)). lia.
Qed.
End Enough.

Theorem search_cost n M eorc orc : 0 < n -> undirected n M -> unit_diagonal n M ->
  let E := edges_among n M (fun _ => true) in
  exists C calls, find_clique_min_cover_c (E + 3) (E + 5 * moon n) eorc orc M = Some (Ok C, calls) /\
    calls <= (E + 3) * nodes (moon n) 3 /\
    ends_with (fun fuel => find_clique_min_cover fuel eorc orc M) (Ok C).
Proof.
  intros Hn HM HD E. assert (Hl : length M = n) by apply HM.
  assert (X : exists C calls, find_clique_min_cover_c (E + 3) (E + 5 * moon n) eorc orc M = Some (Ok C, calls) /\ calls <= (E + 3) * nodes (moon n) 3 /\
    find_clique_min_cover (E + 5 * moon n) eorc orc M = Some (Ok C)).
  { unfold find_clique_min_cover, find_clique_min_cover_traced, find_clique_min_cover_c.
    destruct (make_aux eorc (udg_init M)) as [a|] eqn:Ha; [|exists M, 0; split; [reflexivity|]; split; [lia|reflexivity]].
    assert (Env : u_nv (udg_init M) = Z.of_nat n) by (apply trace_unit; auto). rewrite Env, Nat2Z.id, Hl.
    replace (_ && _) with false.
    2:{ symmetry. apply andb_false_iff. right. apply Z.ltb_ge.
        unfold udg_init; cbn [u_ne]. rewrite Hl, n_choose_2_nat, <- length_upper_pairs_choose.
        unfold count_upper. pose proof (filter_length_le (fun e => get M (fst e) (snd e)) (upper_pairs n)). lia. }
    assert (He : exists u v, u < n /\ v < n /\ adjacent M u v).
    { unfold make_aux, udg_init in Ha. cbn [u_max u_adj] in Ha. rewrite Hl in Ha.
      destruct (edge_indices n M) as [|i l] eqn:Ei; [destruct n; [lia|discriminate]|].
      assert (I : In i (edge_indices n M)) by (rewrite Ei; left; reflexivity).
      apply edge_indices_In in I. destruct I as [Li Ee]. pose proof (get_edge_lt n i Li) as [L1 L2].
      exists (fst (get_edge n i)), (snd (get_edge n i)). split; [lia|]. split; [lia|]. split; [lia|exact Ee]. }
    destruct (root_good n M eorc a Hn HM HD He Ha) as [G Hne].
    assert (EE : g_ne (root_state (udg_init M) a) = E).
    { unfold root_state, udg_init. cbn [g_ne u_ne]. rewrite Hl, count_upper_cntU. unfold E. rewrite edges_among_cntU. apply cntU_ext. auto. }
    pose proof (moon_pos n) as MP.
    destruct (search_enough n M Hn HM HD (E + 5 * moon n) ltac:(lia) orc (root_state (udg_init M) a) G Hne ltac:(lia) (E + 2) 1 ltac:(lia)) as ([c h] & HS).
    replace (S (E + 2)) with (E + 3) in HS by lia.
    rewrite (search_mono _ (E + 5 * moon n) _ (E + 5 * moon n) _ _ _ _ _ _ _ HS) by lia.
    rewrite <- search_erases in HS.
    destruct (search_c (E + 3) (E + 5 * moon n) n n M orc (root_state (udg_init M) a) 1) as [[x y]|] eqn:Es; [|discriminate].
    injection HS as ->. exists (add_isolated_verts n c), y. split; [reflexivity|]. split; [|reflexivity]. apply search_calls in Es. exact Es. }
  destruct X as (C & calls & H & L & H2). exists C, calls. split; [exact H|]. split; [exact L|].
  apply ends_with_mono; [|eauto]. intros f f' r Hr L'. rewrite fcmc_forget in *.
  destruct (find_clique_min_cover_traced f eorc orc M) as [y|] eqn:Ey; [|discriminate]. rewrite (traced_mono _ f' _ _ _ _ Ey); auto.
Qed.
