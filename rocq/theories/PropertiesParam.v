(** C134: printing the parameters of a model. *)
From Coq Require Import List String Ascii.
From Verif Require Import Base ParamModel ParamSpec.
Import ListNotations.
Local Open Scope string_scope.

Section Proofs.
Context {V : Type}.
Implicit Types (d l : list (string * V)).

Lemma latest_out (x : V) l name : ~ In name (map fst l) -> latest x l name = x.
Proof.
  revert x. induction l as [|[a v] l IH]; intros x H; cbn in *; [reflexivity|].
  destruct (String.eqb_spec a name); [exfalso; auto|]. apply IH. auto.
Qed.

Lemma set_names d a v : map fst (set_attr d a v) = if in_dec string_dec a (map fst d) then map fst d else (map fst d ++ [a])%list.
Proof.
  induction d as [|[b w] d IH]; [reflexivity|]. cbn [set_attr map fst].
  destruct (String.eqb_spec b a) as [->|N].
  - cbn [map fst]. destruct (in_dec string_dec a (a :: map fst d)) as [|X]; [reflexivity|]. exfalso. apply X. left; auto.
  - cbn [map fst]. rewrite IH. destruct (in_dec string_dec a (map fst d)) as [I|I], (in_dec string_dec a (b :: map fst d)) as [J|J]; auto.
    + exfalso. apply J. right; auto.
    + exfalso. destruct J; auto.
Qed.

Lemma set_in d a v : NoDup (map fst d) -> forall b x, In (b, x) (set_attr d a v) <-> (b = a /\ x = v) \/ (b <> a /\ In (b, x) d).
Proof.
  induction d as [|[c w] d IH]; intros ND b x; cbn [set_attr].
  - cbn. split; [intros [[= <- <-]|[]]; auto|intros [[-> ->]|[_ []]]; auto].
  - inversion ND as [|? ? H1 H2]; subst. destruct (String.eqb_spec c a) as [->|N].
    + cbn. split.
      * intros [[= <- <-]|I]; auto. right. split; [|auto]. intros ->. apply H1. change a with (fst (a, x)). apply in_map; auto.
      * intros [[-> ->]|[X [[= -> ->]|I]]]; auto. congruence.
    + cbn [In]. rewrite (IH H2 b x). split.
      * intros [[= <- <-]|[?|[? ?]]]; auto.
      * intros [?|[? [?|?]]]; auto.
Qed.

Lemma set_nodup d a v : NoDup (map fst d) -> NoDup (map fst (set_attr d a v)).
Proof.
  intros H. rewrite set_names. destruct (in_dec string_dec a (map fst d)) as [|N]; [exact H|].
  apply NoDup_rev in H. rewrite <- (rev_involutive (map fst d ++ [a])%list), rev_app_distr. apply NoDup_rev. cbn. constructor; [|exact H]. rewrite <- in_rev. exact N.
Qed.
End Proofs.

Lemma in_unique {V} (d : list (string * V)) a v w : NoDup (map fst d) -> In (a, v) d -> In (a, w) d -> v = w.
Proof.
  induction d as [|[b x] d IH]; intros N I J; [destruct I|]. inversion N as [|? ? H1 H2]; subst. cbn in *.
  assert (X : forall y, In (a, y) d -> b <> a) by (intros y K ->; apply H1; change a with (fst (a, y)); apply in_map; exact K).
  destruct I as [I|I], J as [J|J].
  - congruence.
  - injection I as -> ->. destruct (X _ J eq_refl).
  - injection J as -> ->. destruct (X _ I eq_refl).
  - auto.
Qed.

Lemma latest_any {V} (x y : V) l name : In name (map fst l) -> latest x l name = latest y l name.
Proof.
  revert x y. induction l as [|[b z] l IH]; intros x y J; [destruct J|]. cbn [latest].
  destruct (String.eqb_spec b name); [reflexivity|]. apply IH. destruct J; [contradiction|auto].
Qed.

Lemma assign_spec {V} (l : list (string * V)) : forall d0, NoDup (map fst d0) ->
  let d := assign d0 l in
  NoDup (map fst d) /\
  (forall name, In name (map fst d) <-> In name (map fst d0) \/ In name (map fst l)) /\
  (forall name v x, In (name, x) d0 \/ In name (map fst l) -> In (name, v) d -> v = latest x l name).
Proof.
  induction l as [|[a v] l IH]; intros d0 N0; cbn zeta; cbn [assign fold_left].
  - split; [exact N0|]. split; [cbn; tauto|]. intros name v x [I|[]] J. cbn [latest]. exact (in_unique d0 name v x N0 J I).
  - destruct (IH (set_attr d0 a v) (set_nodup d0 a v N0)) as (H1 & H2 & H3). cbn zeta in *.
    split; [exact H1|]. split.
    + intros name. fold (assign (set_attr d0 a v) l). cbn [fst snd]. rewrite (H2 name), set_names. cbn [map fst In].
      destruct (in_dec string_dec a (map fst d0)) as [I|I]; [|rewrite in_app_iff; cbn; tauto].
      split; [tauto|]. intros [H|[H|H]]; subst; tauto.
    + intros name w x Hx Hw. cbn [latest]. cbn [map fst In] in Hx. destruct (String.eqb_spec a name) as [->|N].
      * apply H3; [left; apply set_in; auto|exact Hw].
      * apply H3; [|exact Hw]. destruct Hx as [Hx|[?|?]]; [left; apply set_in; auto|congruence|auto].
Qed.

(** For every parameterisation and history of assignments: every attribute is shown
    once, with the value assigned last. *)
Theorem C134_attributes : forall (V : Type) (text : string -> V) (empty untrained : V) (p : string) (history : list (string * V)),
  let first := init text empty untrained p in
  let d := assign first history in
  NoDup (map fst d) /\
  (forall name, In name (map fst d) <-> In name (map fst first) \/ In name (map fst history)) /\
  (forall name v x, In (name, x) first \/ In name (map fst history) -> In (name, v) d -> v = latest x history name).
Proof.
  intros V text empty untrained p history. apply assign_spec.
  unfold init, assign. destruct (p =? "Gaussian"); [|destruct (p =? "VAE")]; cbn;
    repeat (constructor; [cbn; intuition discriminate|]); constructor.
Qed.
Print Assumptions C134_attributes.

Lemma assign_keys {V} (l : list (string * V)) : forall d0, (forall a, In a (map fst l) -> In a (map fst d0)) -> map fst (assign d0 l) = map fst d0.
Proof.
  induction l as [|[a v] l IH]; intros d0 H; [reflexivity|]. cbn [assign fold_left fst snd]. fold (assign (set_attr d0 a v) l).
  assert (X : map fst (set_attr d0 a v) = map fst d0).
  { rewrite set_names. destruct (in_dec string_dec a (map fst d0)) as [|N]; [reflexivity|]. exfalso. apply N. apply H. left; auto. }
  rewrite IH; [exact X|]. intros b I. rewrite X. apply H. right; auto.
Qed.

(** What print(model.parameters) shows after any number of fits, complete or not, of a
    Gaussian model ... *)
Theorem C134_gaussian_text : forall (V : Type) (text : string -> V) (empty untrained : V) (show : V -> string)
  (fits : list (nat * V * V * V)),
  let history := flat_map (fun f => match f with (steps, m, v, w) => gaussian_fit steps m v w end) fits in
  to_str show (assign (init text empty untrained "Gaussian") history) =
    "parameters.parameterization: " ++ show (text "Gaussian") ++ newline ++
    "parameters.error_means: " ++ show (latest empty history "error_means") ++ newline ++
    "parameters.error_variances: " ++ show (latest empty history "error_variances") ++ newline ++
    "parameters.biadj_weights: " ++ show (latest empty history "biadj_weights").
Proof.
  intros V text empty untrained show fits history.
  set (d0 := init text empty untrained "Gaussian").
  assert (HN : forall a, In a (map fst history) -> a = "error_means" \/ a = "error_variances" \/ a = "biadj_weights").
  { intros a I. apply in_map_iff in I. destruct I as ([b x] & <- & I). apply in_flat_map in I. destruct I as ([[[st m] v] w] & _ & I).
    unfold gaussian_fit in I. destruct st as [|[|[|st]]]; cbn in I; try rewrite firstn_nil in I; cbn in I;
    repeat (destruct I as [[= <- <-]|I]; [tauto|]); destruct I. }
  assert (K : map fst (assign d0 history) = map fst d0).
  { apply assign_keys. intros a I. destruct (HN a I) as [->|[->| ->]]; cbn; auto. }
  destruct (C134_attributes V text empty untrained "Gaussian" history) as (N & _ & L). cbn zeta in *. fold d0 in N, L.
  destruct (assign d0 history) as [|[a1 v1] [|[a2 v2] [|[a3 v3] [|[a4 v4] [|]]]]] eqn:E; try discriminate K.
  injection K as -> -> -> ->.
  assert (E1 : v1 = text "Gaussian").
  { rewrite (L "parameterization" v1 (text "Gaussian")); [|left; cbn; auto|cbn; auto].
    apply latest_out. intros I. destruct (HN _ I) as [?|[?|?]]; discriminate. }
  assert (E2 : v2 = latest empty history "error_means") by (apply L; cbn; auto 10).
  assert (E3 : v3 = latest empty history "error_variances") by (apply L; cbn; auto 10).
  assert (E4 : v4 = latest empty history "biadj_weights") by (apply L; cbn; auto 10).
  rewrite E1, E2, E3, E4. reflexivity.
Qed.
Print Assumptions C134_gaussian_text.
(** ... and of a neural model. *)
Theorem C134_neural_text : forall (V : Type) (text : string -> V) (empty untrained : V) (show : V -> string)
  (fits : list (nat * V * V)),
  let history := flat_map (fun f => match f with (steps, w, v) => neural_fit steps w v end) fits in
  to_str show (assign (init text empty untrained "VAE") history) =
    "parameters.parameterization: " ++ show (text "VAE") ++ newline ++
    "parameters.weights: " ++ show (latest empty history "weights") ++ newline ++
    "parameters.vae: " ++ show (latest untrained history "vae").
Proof.
  intros V text empty untrained show fits history.
  set (d0 := init text empty untrained "VAE").
  assert (HN : forall a, In a (map fst history) -> a = "weights" \/ a = "vae").
  { intros a I. apply in_map_iff in I. destruct I as ([b x] & <- & I). apply in_flat_map in I. destruct I as ([[st v] w] & _ & I).
    unfold neural_fit in I. destruct st as [|[|st]]; cbn in I; try rewrite firstn_nil in I; cbn in I;
    repeat (destruct I as [[= <- <-]|I]; [tauto|]); destruct I. }
  assert (K : map fst (assign d0 history) = map fst d0).
  { apply assign_keys. intros a I. destruct (HN a I) as [->| ->]; cbn; auto. }
  destruct (C134_attributes V text empty untrained "VAE" history) as (N & _ & L). cbn zeta in *. fold d0 in N, L.
  destruct (assign d0 history) as [|[a1 v1] [|[a2 v2] [|[a3 v3] [|]]]] eqn:E; try discriminate K.
  injection K as -> -> ->.
  assert (E1 : v1 = text "VAE").
  { rewrite (L "parameterization" v1 (text "VAE")); [|left; cbn; auto|cbn; auto].
    apply latest_out. intros I. destruct (HN _ I) as [?|?]; discriminate. }
  assert (E2 : v2 = latest empty history "weights") by (apply L; cbn; auto 10).
  assert (E3 : v3 = latest untrained history "vae") by (apply L; cbn; auto 10).
  rewrite E1, E2, E3. reflexivity.
Qed.
Print Assumptions C134_neural_text.

Lemma app_cancel a b c : a ++ b = a ++ c -> b = c.
Proof. induction a as [|x a IH]; cbn; [auto|]. intros [= H]. auto. Qed.
Lemma one_line_cons c s : one_line (String c s) -> c <> ascii_of_nat 10 /\ one_line s.
Proof. intros H. split; [intros ->; apply (H 0); reflexivity|intros i; apply (H (S i))]. Qed.
Lemma line_split x : forall y r q, one_line x -> one_line y -> x ++ newline ++ r = y ++ newline ++ q -> x = y /\ r = q.
Proof.
  induction x as [|c x IH]; intros [|c' y] r q Hx Hy; cbn.
  - intros [= H]. auto.
  - intros [= <- _]. apply one_line_cons in Hy. destruct Hy as [Hy _]. exfalso. apply Hy. reflexivity.
  - intros [= -> _]. apply one_line_cons in Hx. destruct Hx as [Hx _]. exfalso. apply Hx. reflexivity.
  - intros [= -> H]. apply one_line_cons in Hx, Hy. destruct (IH y r q) as [-> ->]; tauto.
Qed.
Lemma one_line_app a b : one_line a -> one_line b -> one_line (a ++ b).
Proof.
  intros Ha Hb. revert Ha. induction a as [|c a IH]; intros Ha; [exact Hb|].
  apply one_line_cons in Ha. destruct Ha as [H1 H2]. intros [|i] E; [apply H1; cbn in E; injection E as ->; reflexivity|exact (IH H2 i E)].
Qed.
Lemma join_inj l : forall m, length l = length m -> (forall x, In x l \/ In x m -> one_line x) -> join newline l = join newline m -> l = m.
Proof.
  induction l as [|x l IH]; intros [|y m] L H; try discriminate L; [auto|]. injection L as L.
  destruct l as [|x' l], m as [|y' m]; try discriminate L; [cbn; congruence|].
  intros E. change (x ++ newline ++ join newline (x' :: l) = y ++ newline ++ join newline (y' :: m)) in E.
  apply line_split in E; [|apply H; left; left; auto|apply H; right; left; auto]. destruct E as [-> E].
  f_equal. apply IH; [exact L| |exact E]. intros z [I|I]; apply H; [left|right]; right; exact I.
Qed.

(** Nothing is lost in print: two objects with the same attributes print the same only
    if every attribute prints the same, provided that values print in one line ... *)
Theorem C134_text_determines_values : forall (V : Type) (show : V -> string) (d d' : attrs (V := V)),
  map fst d = map fst d' -> (forall a v, In (a, v) d \/ In (a, v) d' -> one_line a /\ one_line (show v)) ->
  to_str show d = to_str show d' -> map (fun av => show (snd av)) d = map (fun av => show (snd av)) d'.
Proof.
  intros V show d d' K H E. unfold to_str in E. apply join_inj in E.
  - revert d' K H E. induction d as [|[a v] d IH]; intros [|[b w] d'] K H E; try discriminate K; [reflexivity|].
    cbn [map fst snd] in *. injection K as -> K.
    assert (X : "parameters." ++ b ++ ": " ++ show v = "parameters." ++ b ++ ": " ++ show w /\
      map (fun av => "parameters." ++ fst av ++ ": " ++ show (snd av)) d = map (fun av => "parameters." ++ fst av ++ ": " ++ show (snd av)) d').
    { split; [exact (f_equal (hd "") E)|exact (f_equal (@tl string) E)]. }
    destruct X as [X1 X2]. do 3 apply app_cancel in X1. rewrite X1. f_equal. apply IH; auto.
    intros a0 v0 [I|I]; apply (H a0 v0); [left|right]; right; exact I.
  - rewrite !map_length. rewrite <- (map_length fst d), K, map_length. reflexivity.
  - intros x I. assert (Y : exists a v, (In (a, v) d \/ In (a, v) d') /\ x = "parameters." ++ a ++ ": " ++ show v).
    { destruct I as [I|I]; apply in_map_iff in I; destruct I as ([a v] & <- & I); exists a, v; auto. }
    destruct Y as (a & v & J & ->). destruct (H a v J) as [H1 H2].
    apply one_line_app; [intros i; do 12 (destruct i as [|i]; [discriminate|]); destruct i; discriminate|].
    apply one_line_app; [exact H1|]. apply one_line_app; [intros [|[|i]]; try discriminate; destruct i; discriminate|exact H2].
Qed.
Print Assumptions C134_text_determines_values.
(** ... as numpy prints vectors of few entries, but not matrices; a value whose text
    has several lines can be confused with two attributes. *)
Theorem C134_one_line_is_needed : exists (d d' : attrs (V := string)),
  map fst d = map fst d' /\ to_str (fun s => s) d = to_str (fun s => s) d' /\
  map snd d <> map snd d'.
Proof.
  exists [("a", "x" ++ newline ++ "parameters.b: y"); ("b", "z")], [("a", "x"); ("b", "y" ++ newline ++ "parameters.b: z")].
  split; [reflexivity|]. split; [reflexivity|discriminate].
Qed.
Print Assumptions C134_one_line_is_needed.

(** A complete fit after an interrupted one. *)
Example C134_instance :
  to_str (fun s => s) (assign (init (fun s => s) "[]" "VAE()" "Gaussian")
    (flat_map (fun f => match f with (steps, m, v, w) => gaussian_fit steps m v w end)
       [(3, "[1. 2.]", "[3. 4.]", "[[5. 6.]]"); (1, "[7. 8.]", "[0. 0.]", "[[0. 0.]]")])) =
  "parameters.parameterization: Gaussian
parameters.error_means: [7. 8.]
parameters.error_variances: [3. 4.]
parameters.biadj_weights: [[5. 6.]]".
Proof. reflexivity. Qed.
