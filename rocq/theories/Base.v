(** Shared vocabulary of the model: Python exceptions as values, numpy matrices
    as lists of rows.  No property is stated here. *)
From Coq Require Export List Arith ZArith Bool Lia Permutation.
Export ListNotations.

(** The Python exceptions the modelled code can raise. *)
Inductive exn :=
| ValueError | TypeError | IndexError | KeyError | StopIteration
| UnboundLocalError | NameError | AttributeError | ZeroDivisionError
| NotImplementedError | RuntimeError | GenericException.

Inductive res (A : Type) := Ok (a : A) | Err (e : exn).
Arguments Ok {A} a.
Arguments Err {A} e.

(** A numpy 2d array is the list of its rows. *)
Definition mat (A : Type) := list (list A).
Definition bmat := mat bool.

Definition getd {A} (d : A) (M : mat A) (i j : nat) : A := nth j (nth i M []) d.
Definition get (M : bmat) (i j : nat) : bool := getd false M i j.

(** [mk r c f] is the r-by-c array whose (i,j) entry is [f i j]. *)
Definition mk {A} (r c : nat) (f : nat -> nat -> A) : mat A :=
  map (fun i => map (f i) (seq 0 c)) (seq 0 r).

(** Number of indices below [n] satisfying [f]: what [.sum()] computes on a
    boolean vector. *)
Definition count (n : nat) (f : nat -> bool) : nat := length (filter f (seq 0 n)).

(** np.flatnonzero / np.where(...)[0] on a vector of length [n]. *)
Definition flatnonzero (n : nat) (f : nat -> bool) : list nat := filter f (seq 0 n).

(** Python sets of integers as lists. *)
Definition mem (x : nat) (s : list nat) : bool := existsb (Nat.eqb x) s.
Definition inter (s t : list nat) : list nat := filter (fun x => mem x t) s.
Definition diff (s t : list nat) : list nat := filter (fun x => negb (mem x t)) s.
Definition discard (q : nat) (s : list nat) : list nat := filter (fun x => negb (x =? q)) s.

(** An order the language leaves open (set.pop, iteration over a set) is
    resolved by a choice number: [pick o s] is the element of [s] chosen. *)
Definition pick (o : nat) (s : list nat) : nat := nth (o mod length s) s 0.

(** np.fromiter(a_set): the elements in an order fixed by the oracle. *)
Fixpoint shuffle_aux (fuel : nat) (o : nat -> nat) (t : nat) (l : list nat) : list nat :=
  match fuel with
  | 0 => []
  | S f => match l with
           | [] => []
           | _ => let x := pick (o t) l in x :: shuffle_aux f o (S t) (discard x l)
           end
  end.
Definition shuffle (o : nat -> nat) (l : list nat) : list nat :=
  shuffle_aux (length l) o 0 l.

(** Replace entry [k] of a vector. *)
Fixpoint upd {A} (l : list A) (k : nat) (x : A) : list A :=
  match l, k with
  | [], _ => []
  | _ :: t, 0 => x :: t
  | y :: t, S k' => y :: upd t k' x
  end.

(* ------------------------------------------------------------------ *)
(** ** Lemmas *)

Lemma mem_In x s : mem x s = true <-> In x s.
Proof.
  unfold mem; rewrite existsb_exists; split.
  - intros [y [Hy E]]. apply Nat.eqb_eq in E; subst; auto.
  - intros H; exists x; split; auto. apply Nat.eqb_refl.
Qed.

Lemma mem_false x s : mem x s = false <-> ~ In x s.
Proof.
  rewrite <- mem_In. destruct (mem x s); split; congruence.
Qed.

Lemma In_inter x s t : In x (inter s t) <-> In x s /\ In x t.
Proof. unfold inter. rewrite filter_In, mem_In. tauto. Qed.

Lemma In_diff x s t : In x (diff s t) <-> In x s /\ ~ In x t.
Proof. unfold diff. rewrite filter_In, negb_true_iff, mem_false. tauto. Qed.

Lemma In_discard x q s : In x (discard q s) <-> In x s /\ x <> q.
Proof. unfold discard. rewrite filter_In, negb_true_iff, Nat.eqb_neq. tauto. Qed.

Lemma filter_length_le {A} (f : A -> bool) l : length (filter f l) <= length l.
Proof. induction l; cbn; auto. destruct (f a); cbn; lia. Qed.

Lemma discard_length q s : In q s -> length (discard q s) < length s.
Proof.
  unfold discard. induction s as [|a s IH]; cbn; [tauto|].
  intros [->|H].
  - rewrite Nat.eqb_refl; cbn. pose proof (filter_length_le (fun x => negb (x =? q)) s). lia.
  - destruct (negb (a =? q)); cbn; specialize (IH H); lia.
Qed.

Lemma pick_In o s : s <> [] -> In (pick o s) s.
Proof.
  intros H. unfold pick. apply nth_In. apply Nat.mod_upper_bound.
  destruct s; cbn; congruence.
Qed.

Lemma NoDup_filter' {A} (f : A -> bool) l : NoDup l -> NoDup (filter f l).
Proof. apply NoDup_filter. Qed.

Lemma length_discard_NoDup q s : NoDup s -> In q s -> S (length (discard q s)) = length s.
Proof.
  unfold discard. induction 1 as [|a s Ha Hs IH]; cbn; [tauto|].
  intros [->|H].
  - rewrite Nat.eqb_refl; cbn. f_equal.
    assert (E : filter (fun x => negb (x =? q)) s = s).
    { clear IH Hs. induction s as [|b s IHs]; cbn; auto.
      destruct (Nat.eqb_spec b q) as [->|Hn]; cbn.
      - exfalso; apply Ha; left; auto.
      - f_equal. apply IHs. intros H; apply Ha; right; auto. }
    rewrite E; reflexivity.
  - destruct (Nat.eqb_spec a q) as [->|Hn]; cbn.
    + contradiction.
    + specialize (IH H). lia.
Qed.

Lemma shuffle_aux_perm f o t l : length l = f -> NoDup l -> Permutation (shuffle_aux f o t l) l.
Proof.
  revert t l; induction f as [|f IH]; intros t l Hl Hn.
  - destruct l; [constructor|discriminate].
  - destruct l as [|a l]; [discriminate|].
    cbn [shuffle_aux].
    set (x := pick (o t) (a :: l)).
    assert (Hx : In x (a :: l)) by (apply pick_In; congruence).
    pose proof (length_discard_NoDup x (a :: l) Hn Hx) as HL.
    etransitivity.
    + apply perm_skip. apply IH; [lia|]. apply NoDup_filter; auto.
    + apply NoDup_Permutation.
      * constructor; [rewrite In_discard; tauto|apply NoDup_filter; auto].
      * auto.
      * intros y. cbn [In]. rewrite In_discard. split.
        -- intros [<-|[H _]]; [exact Hx|exact H].
        -- intros H. destruct (Nat.eq_dec x y); auto.
Qed.

Lemma shuffle_perm o l : NoDup l -> Permutation (shuffle o l) l.
Proof. intros; apply shuffle_aux_perm; auto. Qed.

Lemma nth_map_seq {A} (f : nat -> A) n i d : i < n -> nth i (map f (seq 0 n)) d = f i.
Proof.
  intros H. rewrite nth_indep with (d' := f 0) by (rewrite map_length, seq_length; auto).
  rewrite map_nth, seq_nth; auto.
Qed.

Lemma nth_map_seq_over {A} (f : nat -> A) n i d : n <= i -> nth i (map f (seq 0 n)) d = d.
Proof. intros H. apply nth_overflow. rewrite map_length, seq_length; auto. Qed.

Lemma getd_mk {A} (d : A) r c f i j : i < r -> j < c -> getd d (mk r c f) i j = f i j.
Proof.
  intros Hi Hj. unfold getd, mk. rewrite nth_map_seq by auto.
  rewrite nth_map_seq; auto.
Qed.

Lemma get_mk r c f i j : i < r -> j < c -> get (mk r c f) i j = f i j.
Proof. apply getd_mk. Qed.

Lemma getd_mk_row_over {A} (d : A) r c f i j : r <= i -> getd d (mk r c f) i j = d.
Proof.
  intros Hi. unfold getd, mk. rewrite nth_map_seq_over by auto. destruct j; reflexivity.
Qed.

Lemma getd_mk_col_over {A} (d : A) r c f i j : c <= j -> getd d (mk r c f) i j = d.
Proof.
  intros Hj. destruct (le_lt_dec r i); [apply getd_mk_row_over; auto|].
  unfold getd, mk. rewrite nth_map_seq by auto. apply nth_map_seq_over; auto.
Qed.

Lemma get_mk_eq r c f i j :
  get (mk r c f) i j = (i <? r) && (j <? c) && f i j.
Proof.
  destruct (Nat.ltb_spec i r); cbn [andb].
  - destruct (Nat.ltb_spec j c); cbn [andb].
    + apply get_mk; auto.
    + apply getd_mk_col_over; auto.
  - apply getd_mk_row_over; auto.
Qed.

Lemma length_mk {A} r c (f : nat -> nat -> A) : length (mk r c f) = r.
Proof. unfold mk. rewrite map_length, seq_length; auto. Qed.

Lemma row_length_mk {A} r c (f : nat -> nat -> A) row : In row (mk r c f) -> length row = c.
Proof.
  unfold mk. rewrite in_map_iff. intros [i [<- _]]. rewrite map_length, seq_length; auto.
Qed.

Lemma In_flatnonzero n f x : In x (flatnonzero n f) <-> x < n /\ f x = true.
Proof. unfold flatnonzero. rewrite filter_In, in_seq. intuition lia. Qed.

Lemma NoDup_flatnonzero n f : NoDup (flatnonzero n f).
Proof. apply NoDup_filter, seq_NoDup. Qed.

Lemma upd_length {A} (l : list A) k x : length (upd l k x) = length l.
Proof. revert k; induction l; intros [|k]; cbn; auto. Qed.

Lemma nth_upd {A} (l : list A) k x i d :
  nth i (upd l k x) d = if (i =? k) && (k <? length l) then x else nth i l d.
Proof.
  revert k i; induction l as [|a l IH]; intros [|k] [|i]; cbn; auto.
  - destruct (i =? k); auto.
  - rewrite IH. replace (S k <? S (length l)) with (k <? length l); auto.
Qed.

(** ** Runs with fuel *)
(** [ends_with run a]: the run finishes, and whatever amount of fuel lets it
    finish, the answer is [a]. *)
Definition ends_with {A} (run : nat -> option A) (a : A) : Prop :=
  (exists fuel, run fuel = Some a) /\ (forall fuel r, run fuel = Some r -> r = a).

Lemma ends_with_unique {A} (run : nat -> option A) a b :
  ends_with run a -> ends_with run b -> a = b.
Proof. intros [[f H] _] [_ H']. eauto. Qed.

Lemma ends_with_mono {A} (run : nat -> option A) a :
  (forall f f' r, run f = Some r -> f <= f' -> run f' = Some r) ->
  (exists f, run f = Some a) -> ends_with run a.
Proof.
  intros Hm [f Hf]. split; [eauto|]. intros f' r Hr.
  destruct (le_ge_dec f f') as [H|H].
  - rewrite (Hm f f' a Hf H) in Hr. congruence.
  - rewrite (Hm f' f r Hr H) in Hf. congruence.
Qed.
