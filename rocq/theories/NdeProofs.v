From Coq Require Import String Ascii Decimal DecimalString DecimalFacts DecimalNat.
From Verif Require Import Base Spec SpecDec NdeModel NdeSpec.

(** No separator occurs in a decimal number. *)
Fixpoint free (c : ascii) (s : string) : Prop :=
  match s with EmptyString => True | String a s => Ascii.eqb a c = false /\ free c s end.

Lemma free_uint c d : (c = nl \/ c = sp) -> free c (NilEmpty.string_of_uint d).
Proof. intros [->| ->]; induction d; cbn; auto. Qed.

Lemma free_app c s t : free c s -> free c t -> free c (append s t).
Proof. induction s; cbn; tauto. Qed.

Lemma split_sep c w s : free c w -> split c (append w (String c s)) = w :: split c s.
Proof.
  induction w as [|a w IH]; cbn.
  - rewrite Ascii.eqb_refl. auto.
  - intros [E F]. rewrite E, IH by auto. reflexivity.
Qed.

Lemma split_word c w : free c w -> split c w = [w].
Proof.
  induction w as [|a w IH]; cbn; auto. intros [E F]. rewrite E, IH by auto. reflexivity.
Qed.

Lemma str_number n : number (str n) = Some n.
Proof.
  unfold number, str.
  assert (H : Nat.to_uint n <> Decimal.Nil).
  { intros E. pose proof (DecimalNat.Unsigned.of_to n) as F. rewrite E in F. cbn in F. subst n. discriminate. }
  destruct (NilEmpty.string_of_uint (Nat.to_uint n)) eqn:E.
  - destruct (Nat.to_uint n); cbn in E; discriminate || contradiction.
  - rewrite <- E, NilEmpty.usu. cbn. rewrite DecimalNat.Unsigned.of_to. reflexivity.
Qed.

Lemma app_assoc_s (a b c : string) : append (append a b) c = append a (append b c).
Proof. induction a; cbn; congruence. Qed.

Lemma split_line1 n s : split nl (append (line1 n) s) = str n :: split nl s.
Proof.
  unfold line1. rewrite app_assoc_s. cbn [append]. apply split_sep. apply free_uint; auto.
Qed.

Definition body2 (a b : nat) : string := append (str a) (String sp (str b)).

Lemma split_line2 a b s : split nl (append (line2 a b) s) = body2 a b :: split nl s.
Proof.
  assert (E : append (line2 a b) s = append (body2 a b) (String nl s)).
  { unfold line2, body2. rewrite !app_assoc_s. cbn [append]. rewrite app_assoc_s. reflexivity. }
  rewrite E. apply split_sep. apply free_app; [apply free_uint; auto|].
  cbn. split; [reflexivity|apply free_uint; auto].
Qed.

Lemma numbers_body2 a b : numbers (split " "%char (body2 a b)) = Some [a; b].
Proof.
  unfold body2. change " "%char with sp. rewrite split_sep by (apply free_uint; auto).
  rewrite split_word by (apply free_uint; auto). cbn. rewrite !str_number. reflexivity.
Qed.

Lemma numbers_str n : numbers (split " "%char (str n)) = Some [n].
Proof.
  change " "%char with sp. rewrite split_word by (apply free_uint; auto). cbn. rewrite str_number. reflexivity.
Qed.

Lemma split_ne c s : split c s <> [].
Proof. destruct s; cbn; [discriminate|]. destruct (Ascii.eqb a c); [discriminate|]. destruct (split c s); discriminate. Qed.

Lemma lines_cons l ls x xs : ls <> [] -> numbers (split " "%char l) = Some x -> lines ls = Some xs ->
  lines (l :: ls) = Some (x :: xs).
Proof. intros H E1 E2. destruct ls; [contradiction|]. cbn [lines] in *. rewrite E1, E2. reflexivity. Qed.

Lemma lines_block (ps : list (nat * nat)) s xs : lines (split nl s) = Some xs ->
  lines (split nl (append (concat_all (map (fun p => line2 (fst p) (snd p)) ps)) s))
  = Some (map (fun p => [fst p; snd p]) ps ++ xs).
Proof.
  intros H. induction ps as [|[a b] ps IH]; cbn [map concat_all append fst snd app]; auto.
  rewrite app_assoc_s, split_line2. apply lines_cons; auto using split_ne, numbers_body2.
Qed.

Lemma pairs_map ps : pairs (map (fun p => [fst p; snd p]) ps) = Some ps.
Proof. induction ps as [|[a b] ps IH]; cbn; auto. rewrite IH. reflexivity. Qed.

Definition degrees (M : matrix) : list (nat * nat) :=
  map (fun i => (i, length (filter (fun b => b) (nth i M [])))) (seq 0 (length M)).

Lemma append_nil s : append s EmptyString = s.
Proof. induction s; cbn; congruence. Qed.

Lemma read_written M : read_nde (convert_to_nde M) = Some (NDE (length M) (degrees M) (argwhere_triu M)).
Proof.
  assert (E : read_lines (convert_to_nde M) =
     Some ([length M] :: map (fun p => [fst p; snd p]) (degrees M)
                      ++ map (fun p => [fst p; snd p]) (argwhere_triu M))).
  { unfold read_lines, convert_to_nde. fold nl. rewrite split_line1.
    apply lines_cons; [apply split_ne|apply numbers_str|].
    replace (map (fun i => line2 i _) (seq 0 (length M)))
      with (map (fun p => line2 (fst p) (snd p)) (degrees M))
      by (unfold degrees; rewrite map_map; reflexivity).
    apply lines_block. rewrite <- (append_nil (concat_all _)).
    rewrite (lines_block _ EmptyString []) by reflexivity. rewrite app_nil_r. reflexivity. }
  unfold read_nde. rewrite E.
  assert (L : length (map (fun p : nat * nat => [fst p; snd p]) (degrees M)) = length M).
  { unfold degrees. rewrite !map_length, seq_length. reflexivity. }
  rewrite firstn_app, skipn_app, <- L, firstn_all, skipn_all, Nat.sub_diag, app_nil_r. cbn [app firstn skipn].
  rewrite !pairs_map.
  rewrite map_length. rewrite Nat.eqb_refl. reflexivity.
Qed.

Lemma In_argwhere M i j : In (i, j) (argwhere_triu M) <->
  i <= j /\ i < length M /\ j < length M /\ entry M i j = true.
Proof.
  unfold argwhere_triu. rewrite filter_In, in_prod_iff, !in_seq. cbn [fst snd].
  change (get M i j) with (entry M i j). rewrite andb_true_iff, Nat.leb_le. intuition lia.
Qed.

Theorem nde_roundtrip n M : undirected n M ->
  exists t, read_nde (convert_to_nde M) = Some t /\
    nde_size t = n /\
    (forall i j, i < n -> j < n -> (entry M i j = true <-> names (nde_edges t) i j)) /\
    (forall e, In e (nde_edges t) -> fst e <= snd e < n) /\ NoDup (nde_edges t) /\
    nde_degrees t = map (fun i => (i, length (filter (entry M i) (seq 0 n)))) (seq 0 n).
Proof.
  intros [[HL HR] HS]. exists (NDE (length M) (degrees M) (argwhere_triu M)).
  split; [apply read_written|]. cbn [nde_size nde_edges nde_degrees].
  split; [auto|]. split; [|split; [|split]].
  - intros i j Hi Hj. unfold names. rewrite !In_argwhere, HL, (HS j i).
    destruct (le_lt_dec i j); intuition lia.
  - intros [i j]. rewrite In_argwhere. cbn. lia.
  - apply NoDup_filter.
    assert (X : forall (l1 l2 : list nat), NoDup l1 -> NoDup l2 -> NoDup (list_prod l1 l2)).
    { induction l1 as [|a l1 IH]; intros l2 H1 H2; [constructor|]. cbn.
      inversion_clear H1 as [|? ? Ha H1'].
      assert (Y : forall l3 : list nat, NoDup l3 -> NoDup (map (fun y => (a, y)) l3)).
      { induction l3 as [|b l3 IH3]; intros H3; [constructor|]. inversion_clear H3 as [|? ? Hb H3']. cbn [map]. constructor; [|apply IH3; auto].
        intros Hx. apply in_map_iff in Hx. destruct Hx as (y & [= ->] & Hy). contradiction. }
      specialize (Y l2 H2). specialize (IH l2 H1' H2). clear - Y IH Ha.
      assert (Z : forall p, In p (map (fun y => (a, y)) l2) -> ~ In p (list_prod l1 l2)).
      { intros p Hp Hq. apply in_map_iff in Hp. destruct Hp as (y & <- & _). apply in_prod_iff in Hq. tauto. }
      revert Y Z. generalize (map (fun y => (a, y)) l2). intros l. induction l as [|p l IHl]; intros Y Z; auto.
      inversion_clear Y. cbn. constructor.
      - rewrite in_app_iff. intros [|]; [contradiction|]. apply (Z p); [left; auto|auto].
      - apply IHl; auto. intros q Hq. apply Z. right; auto. }
    apply X; apply seq_NoDup.
  - unfold degrees. rewrite HL. apply map_ext_in. intros i Hi. apply in_seq in Hi. f_equal.
    assert (Hlen : length (nth i M []) = n) by (apply HR, nth_In; lia).
    unfold entry. clear - Hlen. revert n Hlen. generalize (nth i M []). intros row n <-.
    assert (G : forall (row : list bool) k (f : nat -> bool), (forall j, j < length row -> f (k + j) = nth j row false) ->
       length (filter (fun b => b) row) = length (filter f (seq k (length row)))).
    { induction row0 as [|b row0 IH]; intros k f Hf; cbn; auto.
      pose proof (Hf 0) as H0. cbn in H0. rewrite Nat.add_0_r in H0. rewrite H0 by lia.
      assert (IH' : length (filter (fun b => b) row0) = length (filter f (seq (S k) (length row0)))).
      { apply IH. intros j Hj. specialize (Hf (S j)). cbn in Hf. rewrite <- Hf by lia. f_equal. lia. }
      destruct b; cbn; rewrite IH'; auto. }
    apply G. intros j _. f_equal.
Qed.

Theorem nde_determines n M n' M' : undirected n M -> undirected n' M' ->
  convert_to_nde M = convert_to_nde M' -> n = n' /\ M = M'.
Proof.
  intros H H' E. destruct (nde_roundtrip n M H) as (t & Ht & H1 & H2 & _).
  destruct (nde_roundtrip n' M' H') as (t' & Ht' & H1' & H2' & _).
  rewrite E in Ht. assert (t = t') as <- by congruence. assert (n = n') as <- by congruence. split; auto.
  destruct H as [[L R] _], H' as [[L' R'] _].
  apply (nth_ext _ _ [] []); [congruence|]. intros i Hi.
  apply (nth_ext _ _ false false).
  - rewrite R, R' by (apply nth_In; lia). reflexivity.
  - intros j Hj. rewrite R in Hj by (apply nth_In; lia).
    change (entry M i j = entry M' i j). specialize (H2 i j). specialize (H2' i j).
    destruct (entry M i j), (entry M' i j); auto.
    + symmetry. apply H2'; [lia|lia|]. apply H2; [lia|lia|auto].
    + apply H2; [lia|lia|]. apply H2'; [lia|lia|auto].
Qed.
