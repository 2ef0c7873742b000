(** C120: p-values computed in parallel (medil/independence_testing.py 61-75). *)
From Coq Require Import QArith Qcanon String.
From Verif Require Import Base GraphModel GraphProofs IndepModel PoolModel PoolProofs.
Local Open Scope nat_scope.

Lemma map_chunk_ok {X Y} (test : X -> res Y) xs ys : map_chunk test xs = Ok ys -> Forall2 (fun x y => test x = Ok y) xs ys.
Proof.
  revert ys. induction xs as [|x xs IH]; intros ys H; cbn in H; [injection H as <-; constructor|].
  destruct (test x) as [y|] eqn:E; [|discriminate]. destruct (map_chunk test xs) as [zs|]; [|discriminate]. injection H as <-. constructor; auto.
Qed.
Lemma map_chunk_err {X Y} (test : X -> res Y) xs e : map_chunk test xs = Err e ->
  exists a x b, xs = a ++ x :: b /\ test x = Err e /\ forall z, In z a -> exists y, test z = Ok y.
Proof.
  induction xs as [|x xs IH]; intros H; cbn in H; [discriminate|]. destruct (test x) as [y|e'] eqn:E.
  - destruct (map_chunk test xs) as [zs|e']; [discriminate|]. injection H as ->. destruct (IH eq_refl) as (a & x' & b & -> & H1 & H2).
    exists (x :: a), x', b. split; [reflexivity|]. split; [auto|]. intros z [<-|Hz]; eauto.
  - injection H as ->. exists [], x, xs. split; [reflexivity|]. split; [auto|]. intros z [].
Qed.
Lemma chunks_le {X} k : forall fuel (l : list X), length (chunks_from fuel k l) <= fuel.
Proof. induction fuel as [|f IH]; intros l; [reflexivity|]. destruct l; cbn [chunks_from length]; [lia|]. specialize (IH (skipn k (x :: l))). lia. Qed.

(** Whatever the number of processors, the order in which the processes run and
    the processes that die: if the computation ends with values, they are the
    values of the tests in the order of the inputs; if it ends with an exception
    it is that of the first test that raises, as in a sequential loop. *)
Theorem C120_same_as_sequential {X Y} (test : X -> res Y) cpus schedule xs a :
  parallel_map test cpus schedule xs = Some a ->
  match a with
  | Ok ys => Forall2 (fun x y => test x = Ok y) xs ys
  | Err e => exists before x after, xs = before ++ x :: after /\ test x = Err e /\ forall z, In z before -> exists y, test z = Ok y
  end.
Proof.
  intros H. unfold parallel_map in H. set (T := chunked 100 xs) in *.
  destruct (run_safe test (num_workers cpus) T schedule 0 (pool_start 100 xs) (start_safe test (num_workers cpus) T)) as (k & _ & S).
  apply (s_ans _ _ _ _ _ S) in H. unfold T in H. rewrite chunked_concat in H by lia. subst a.
  destruct (map_chunk test xs) as [ys|e] eqn:E; [apply map_chunk_ok|apply map_chunk_err]; auto.
Qed.

(** Two runs never disagree. *)
Theorem C120_schedule_independent {X Y} (test : X -> res Y) cpus cpus' schedule schedule' xs a a' :
  parallel_map test cpus schedule xs = Some a -> parallel_map test cpus' schedule' xs = Some a' -> a = a'.
Proof.
  intros H H'. unfold parallel_map in *. set (T := chunked 100 xs) in *.
  destruct (run_safe test (num_workers cpus) T schedule 0 (pool_start 100 xs) (start_safe test (num_workers cpus) T)) as (k & _ & S).
  destruct (run_safe test (num_workers cpus') T schedule' 0 (pool_start 100 xs) (start_safe test (num_workers cpus') T)) as (k' & _ & S').
  apply (s_ans _ _ _ _ _ S) in H. apply (s_ans _ _ _ _ _ S') in H'. congruence.
Qed.

(** If no process dies and the schedule is fair (it consists of rounds in each of
    which every process gets a turn), the computation ends. *)
Theorem C120_fair_schedules_end_partial {X Y} (test : X -> res Y) cpus (rounds : list (list event)) xs :
  (forall r, In r rounds -> In Next r /\ (forall w, w < num_workers cpus -> In (Work w) r) /\ forall w, ~ In (Kill w) r) ->
  3 * length xs + 1 <= length rounds ->
  exists a, parallel_map test cpus (concat rounds) xs = Some a.
Proof.
  intros F L. unfold parallel_map. set (T := chunked 100 xs) in *. set (W := num_workers cpus).
  assert (HW : 0 < W) by (unfold W, num_workers; lia).
  assert (M0 : measure W (@pool_start X Y 100 xs) <= length rounds).
  { unfold measure, pool_start. cbn [queue unsorted items answer length]. rewrite combine_length, seq_length, Nat.min_id.
    match goal with |- context [length (filter ?f ?s)] => replace (length (filter f s)) with 0 end.
    - unfold chunked. pose proof (chunks_le 100 (length xs) xs). lia.
    - symmetry. generalize (seq 0 W). intros l. induction l; [reflexivity|auto]. }
  assert (G : forall p k, safe test W T k p -> accounted k p -> measure W p <= length rounds ->
    exists a, answer (pool_run test W (concat rounds) p) = Some a).
  { clear L M0. induction rounds as [|r rs IH]; intros p k S A M.
    - destruct (answer p) as [a|] eqn:An; [exists a; exact An|]. unfold measure in M. rewrite An in M. cbn in M. lia.
    - cbn [concat]. unfold pool_run. rewrite fold_left_app. fold (pool_run test W r p). fold (pool_run test W (concat rs) (pool_run test W r p)).
      destruct (F r (or_introl eq_refl)) as (H1 & H2 & H3).
      destruct (answer p) as [a|] eqn:An; [exists a; apply answered_stays, answered_stays; auto|].
      assert (NK : Forall no_kill r). { apply Forall_forall. intros [w| |w] Hin; cbn; auto. apply (H3 w); auto. }
      destruct (run_accounted test W T r NK k p S A) as (k' & S' & A').
      pose proof (round_progress test W T r k p HW NK H1 H2 S A An) as P. cbn [length] in M.
      apply (IH (fun q Hq => F q (or_intror Hq)) _ k'); auto. lia. }
  exact (G _ 0 (start_safe test W T) (start_accounted T) M0).
Qed.

Lemma find_none {Z} (f : Z -> bool) l : (forall x, In x l -> f x = false) -> find f l = None.
Proof. induction l as [|x l IH]; intros H; cbn; [reflexivity|]. rewrite (H x) by (left; auto). apply IH. intros; apply H; right; auto. Qed.
Lemma mk_ext_in {Z} n k (f g : nat -> nat -> Z) : (forall i j, i < n -> j < k -> f i j = g i j) -> mk n k f = mk n k g.
Proof.
  intros H. unfold mk. apply map_ext_in. intros i Hi. apply map_ext_in. intros j Hj. apply in_seq in Hi, Hj. apply H; lia.
Qed.

(** Hence estimate_UDG with a pairwise test: what a parallel run returns is what
    the other theorems say about estimate_UDG. *)
Lemma find_pairs {Y} (f : nat * nat -> Y) L i j : NoDup L -> (forall e, In e L -> fst e < snd e) -> In (i, j) L ->
  forall z, from_pairs z L (map f L) i j = f (i, j) /\ from_pairs z L (map f L) j i = f (i, j).
Proof.
  intros ND HL Hin z. assert (Lij := HL _ Hin). cbn in Lij. unfold from_pairs.
  induction L as [|[a b] L IH]; [destruct Hin|]. inversion ND as [|? ? Na NL]; subst. cbn [map combine find fst snd].
  assert (La := HL (a, b) (or_introl eq_refl)). cbn in La.
  destruct Hin as [E|Hin].
  - injection E as -> ->. rewrite !Nat.eqb_refl. cbn. rewrite orb_true_r. auto.
  - assert (N : ~ (a = i /\ b = j)) by (intros [-> ->]; auto).
    assert (E1 : ((a =? i) && (b =? j) || (a =? j) && (b =? i))%bool = false).
    { destruct (Nat.eqb_spec a i), (Nat.eqb_spec b j), (Nat.eqb_spec a j), (Nat.eqb_spec b i); cbn; auto; lia. }
    assert (E2 : ((a =? j) && (b =? i) || (a =? i) && (b =? j))%bool = false) by (rewrite orb_comm; auto).
    rewrite E1, E2. apply IH; auto. intros e He. apply HL. right; auto.
Qed.

Theorem C120_estimate_UDG crit dcor_test xi_test name test cpus schedule n p X level r :
  (name = "dcov_big"%string /\ test = dcor_test) \/ (name = "xicor"%string /\ test = xi_test) ->
  estimate_parallel test cpus schedule n p X level = Some r ->
  r = estimate_UDG crit dcor_test xi_test n p X (Named name) level.
Proof.
  intros Hn. unfold estimate_parallel. destruct (parallel_map _ cpus schedule (upper_pairs p)) as [a|] eqn:E; [|discriminate].
  apply C120_same_as_sequential in E. destruct a as [ys|x].
  2:{ destruct E as (? & ? & ? & _ & [=] & _). }
  intros [= <-].
  assert (EU : estimate_UDG crit dcor_test xi_test n p X (Named name) level =
     Ok (fill_diag p (fun i j => flt (pairwise_pvals test n X i j) level), Some (mk p p (pairwise_pvals test n X)))).
  { destruct Hn as [[-> ->]|[-> ->]]; reflexivity. }
  rewrite EU. clear EU Hn.
  assert (Ey : ys = map (fun q => test (column n X (fst q)) (column n X (snd q))) (upper_pairs p)).
  { clear -E. induction E as [|x y xs ys H _ IH]; [reflexivity|]. cbn [map]. f_equal; [congruence|auto]. }
  assert (P : forall i j, i < p -> j < p -> from_pairs (Fin 0) (upper_pairs p) ys i j = pairwise_pvals test n X i j).
  { intros i j Hi Hj. rewrite Ey. unfold pairwise_pvals. destruct (Nat.eqb_spec i j) as [->|N].
    - unfold from_pairs. rewrite find_none; [reflexivity|]. intros [[a b] y] Hin. apply in_combine_l, In_upper_pairs in Hin.
      cbn. destruct (Nat.eqb_spec a j), (Nat.eqb_spec b j); cbn; auto; lia.
    - assert (ND : NoDup (upper_pairs p)) by (apply NoDup_filter, NoDup_list_prod; apply seq_NoDup).
      assert (HL : forall e, In e (upper_pairs p) -> fst e < snd e) by (intros [a b] He; apply In_upper_pairs in He; cbn; lia).
      destruct (le_lt_dec i j).
      + rewrite Nat.min_l, Nat.max_r by lia. apply (find_pairs (fun q => test (column n X (fst q)) (column n X (snd q))) (upper_pairs p) i j); auto.
        apply In_upper_pairs. lia.
      + rewrite Nat.min_r, Nat.max_l by lia. apply (find_pairs (fun q => test (column n X (fst q)) (column n X (snd q))) (upper_pairs p) j i); auto.
        apply In_upper_pairs. lia. }
  f_equal. f_equal; [|f_equal].
  - apply mk_ext_in. intros i j Hi Hj. destruct (i =? j); [reflexivity|]. rewrite P by auto. reflexivity.
  - apply mk_ext_in. intros i j Hi Hj. apply P; auto.
Qed.

(** A process that dies while it holds a task takes the task with it: with tests
    that do not raise, estimate_UDG waits for ever, whatever happens later. *)
Theorem C120_killed_process_hangs_refuted {X Y} (test : X -> res Y) cpus before w after xs :
  (forall x, exists y, test x = Ok y) ->
  (forall v, ~ In (Kill v) before) ->
  parallel_map test cpus before xs = None ->
  busy (pool_run test (num_workers cpus) before (@pool_start X Y 100 xs)) w <> None ->
  parallel_map test cpus (before ++ Kill w :: after) xs = None.
Proof.
  intros Ht _ An B. unfold parallel_map in *. set (T := chunked 100 xs) in *. set (W := num_workers cpus) in *.
  unfold pool_run. rewrite fold_left_app. fold (pool_run test W before (pool_start 100 xs)).
  destruct (run_safe test W T before 0 (pool_start 100 xs) (start_safe test W T)) as (k & _ & S).
  set (p := pool_run test W before (pool_start 100 xs)) in *. cbn [fold_left]. fold (pool_run test W after (pool_step test W (Kill w) p)).
  destruct (busy p w) as [[i c]|] eqn:Bw; [|congruence].
  pose proof (kill_loses test W T k p w i c S An Bw) as Lo.
  destruct (step_safe test W T k p (Kill w) S) as (k' & Lk & S').
  assert (Lo' : lost i k' (pool_step test W (Kill w) p)) by (destruct Lo as (? & ? & ? & ?); repeat split; auto; lia).
  destruct (answer (pool_run test W after (pool_step test W (Kill w) p))) as [a|] eqn:E; [|reflexivity]. exfalso.
  destruct (run_safe test W T after k' _ S') as (k2 & _ & S2). pose proof (s_ans _ _ _ _ _ S2 a E) as Ea.
  destruct (run_lost test W T i after k' _ S' Lo') with (a := a) as (x & ->); [|exact E|].
  - intros a' Ha'. unfold pool_step in Ha'. rewrite An in Ha'. destruct (negb (w <? W)); cbn in Ha'; congruence.
  - symmetry in Ea. apply map_chunk_err in Ea. destruct Ea as (_ & y & _ & _ & Hy & _). destruct (Ht y) as (z & Hz). congruence.
Qed.

(** * Non-vacuity *)
Definition parity (x : nat) : res bool := Ok (Nat.even x).
Definition round3 : list event := [Work 2; Next; Work 0; Work 1].
Example two_hundred_and_fifty : 
  num_workers 4 = 3 /\ length (chunked 100 (seq 0 250)) = 3 /\
  parallel_map parity 4 (concat (repeat round3 6)) (seq 0 250) = Some (Ok (map Nat.even (seq 0 250))).
Proof. split; [reflexivity|]. split; [reflexivity|]. vm_compute. reflexivity. Qed.
(** The last chunk finishes first. *)
Example out_of_order :
  parallel_map parity 4 [Work 0; Work 1; Work 2; Work 2; Next; Work 1; Next; Work 0; Next; Next; Next; Next] (seq 0 250)
  = Some (Ok (map Nat.even (seq 0 250))).
Proof. vm_compute. reflexivity. Qed.
Example first_exception :
  parallel_map (fun x => if x =? 120 then Err ValueError else if x =? 240 then Err TypeError else Ok x) 4
    [Work 0; Work 1; Work 2; Work 2; Next; Work 1; Next; Work 0; Next; Next; Next; Next] (seq 0 250) = Some (Err ValueError).
Proof. vm_compute. reflexivity. Qed.
Example killed : let before := [Work 0; Work 1] in
  parallel_map parity 4 before (seq 0 250) = None /\ busy (pool_run parity 3 before (@pool_start nat bool 100 (seq 0 250))) 1 <> None.
Proof. split; [reflexivity|]. vm_compute. discriminate. Qed.

Print Assumptions C120_same_as_sequential.
Print Assumptions C120_schedule_independent.
Print Assumptions C120_fair_schedules_end_partial.
Print Assumptions C120_estimate_UDG.
Print Assumptions C120_killed_process_hangs_refuted.
