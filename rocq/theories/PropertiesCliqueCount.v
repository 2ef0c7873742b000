(** C131: how long max_cliques takes and how much it yields. *)
From Verif Require Import Base Spec MaxCliquesModel MaxCliquesProofs CliqueCountSpec CliqueCountProofs.

(** For every graph on [n] vertices and every order of the sets, the generator is
    exhausted after at most 5 * 3^(n/3) passes through its loop, and has yielded at
    most 3^(n/3) cliques. *)
Theorem C131_max_cliques_bound : forall (n : nat) (M : matrix) (orc : nat -> nat), length M = n ->
  exists t cliques, t ^ 3 <= 3 ^ n /\ max_cliques (5 * t) orc M = Some (Ok cliques) /\ length cliques <= t.
Proof.
  intros n M orc <-. destruct (max_cliques_time orc M) as (outs & H & L).
  exists (moon (length M)), outs. split; [apply moon_cube|]. auto.
Qed.
Print Assumptions C131_max_cliques_bound.

(** So no graph on [n] vertices has more than 3^(n/3) maximal cliques. *)
Theorem C131_maximal_cliques_bound : forall (n : nat) (M : matrix) (sets : list vset), 0 < n -> undirected n M ->
  (forall S, In S sets -> maximal_clique n M S) -> ForallOrdPairs (fun S T => ~ same_set S T) sets ->
  length sets ^ 3 <= 3 ^ n.
Proof.
  intros n M sets P U HM HD. assert (LM : length M = n) by apply U.
  destruct (max_cliques_time (fun _ => 0) M) as (outs & H & L).
  destruct (max_cliques_spec n M (fun _ => 0) P U) as (f & o & H2 & _ & B & _).
  pose proof (max_cliques_det _ _ _ _ _ _ H H2) as E. injection E as <-.
  assert (LE : length sets <= length outs).
  { clear - HM HD B. revert outs B. induction HD as [|S l F HD IH]; intros outs B; [cbn; lia|].
    destruct (B S (HM S (or_introl eq_refl))) as (K & I & EK). apply in_split in I. destruct I as (a & b & ->).
    assert (G : length l <= length (a ++ b)); [|rewrite app_length in *; cbn; lia].
    assert (Q : forall T, In T l -> exists K', In K' (a ++ b) /\ same_set (set_of K') T).
    { intros T HT. destruct (B T (HM T (or_intror HT))) as (K' & I' & E'). exists K'. split; [|exact E'].
      rewrite in_app_iff in *. cbn in I'. destruct I' as [?|[<-|?]]; auto. exfalso.
      rewrite Forall_forall in F. apply (F T HT). intro v. rewrite <- (EK v). apply E'. }
    clear - HD Q. revert Q. generalize (a ++ b). clear a b. induction HD as [|S l F HD IH]; intros outs Q; [cbn; lia|].
    destruct (Q S (or_introl eq_refl)) as (K & I & EK). apply in_split in I. destruct I as (a & b & ->).
    assert (G : length l <= length (a ++ b)); [|rewrite app_length in *; cbn; lia].
    apply IH. intros T HT. destruct (Q T (or_intror HT)) as (K' & I' & E'). exists K'. split; [|exact E'].
    rewrite in_app_iff in *. cbn in I'. destruct I' as [?|[<-|?]]; auto. exfalso.
    rewrite Forall_forall in F. apply (F T HT). intro v. rewrite <- (EK v). apply E'. }
  pose proof (moon_cube n) as MC. rewrite LM in L.
  apply (Nat.le_trans _ (moon n ^ 3)); [|exact MC]. apply Nat.pow_le_mono_l. lia.
Qed.
Print Assumptions C131_maximal_cliques_bound.

(** The bound is attained: k groups of three vertices have exactly 3^k maximal
    cliques, and every run yields 3^k cliques, so in at least 3^k passes. *)
Theorem C131_bound_is_attained : forall (k : nat) (orc : nat -> nat), 0 < k ->
  undirected (3 * k) (triples k) /\
  exists cliques, ends_with (fun fuel => max_cliques fuel orc (triples k)) (Ok cliques) /\ length cliques = 3 ^ k.
Proof.
  intros k orc K. split; [apply triples_undirected|]. destruct (max_cliques_ends orc (triples k)) as (outs & E).
  exists outs. split; [exact E|]. destruct E as [[f H] _]. exact (triples_count orc k outs f K H).
Qed.
Print Assumptions C131_bound_is_attained.

(** One group: three isolated vertices, three cliques, within 15 passes. *)
Example C131_instance : max_cliques 15 (fun _ => 0) (triples 1) = Some (Ok [[0]; [1]; [2]]).
Proof. vm_compute. reflexivity. Qed.
