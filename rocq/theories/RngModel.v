(** Model of which random generator a model object draws from:
    medil/models.py 29-39 (the default argument [rng=default_rng(0)] is one
    object, created when the class is defined and shared by all instances that
    are not given a generator), 130-143 (sample), medil/sample.py 20 (mcm
    creates its GaussianMCM without passing a generator). *)
From Verif Require Import Base RSum GaussModel.
Local Open Scope R_scope.

(** numpy's Generator: the state decides what multivariate_normal(mean,
    diag(variances), n) returns, and the call advances the state. *)
Record generator := Generator {
  gstate : Type;
  mvn : gstate -> nat -> list R -> list R -> (nat -> nat -> R) * gstate
}.

(** models.py 130-143 with the draws made explicit: the state left behind and
    the result.  multivariate_normal refuses a mean and a covariance of different
    sizes before drawing. *)
Definition sample_from (G : generator) (s : gstate G) (n : nat) (m : gauss) : gstate G * res (mat R) :=
  let k := length (g_biadj m) in
  let '(L, s1) := mvn G s n (repeat 0 k) (repeat 1 k) in
  if negb (length (g_variances m) =? length (g_means m))%nat then (s1, Err ValueError)
  else let '(E, s2) := mvn G s1 n (g_means m) (g_variances m) in
       (s2, sample n L E m).

(** The interpreter's state: the generators by address, the model objects by
    name with the address of the generator they hold. *)
Record world (G : generator) := World {
  w_gens : nat -> gstate G;
  w_objs : nat -> option (gauss * nat)
}.
Arguments World {G}. Arguments w_gens {G}. Arguments w_objs {G}.

(** Address of the default generator of MedilCausalModel.__init__. *)
Definition default_rng : nat := 0%nat.

Inductive action :=
| Make (o : nat) (B M : bmat) (rng : option nat)   (* o = GaussianMCM(biadj=B, udg=M[, rng=...]) *)
| MakeMcm (o : nat) (m : gauss)                    (* o = sample.mcm(...): structure and parameters of [m] *)
| FitOf (o : nat) (e : env) (d : dataset)          (* o.fit(d) *)
| SampleOf (o : nat) (n : nat).                    (* o.sample(n) *)
Definition subject (a : action) : nat :=
  match a with Make o _ _ _ => o | MakeMcm o _ => o | FitOf o _ _ => o | SampleOf o _ => o end.

Definition set_obj {G} (w : world G) (o : nat) (x : gauss * nat) : world G :=
  World (w_gens w) (fun o' => if (o' =? o)%nat then Some x else w_objs w o').
Definition set_gen {G} (w : world G) (r : nat) (s : gstate G) : world G :=
  World (fun r' => if (r' =? r)%nat then s else w_gens w r') (w_objs w).

(** What a call shows to its caller. *)
Inductive output := Done | NoObject | Unfinished | Fitted (r : res unit) | Sampled (r : res (mat R)).

(** One call.  A fit whose structure search has not ended leaves the object as
    it was. *)
Definition act {G} (a : action) (w : world G) : world G * output :=
  match a with
  | Make o B M rng => (set_obj w o (new_gauss B M, match rng with None => default_rng | Some r => r end), Done)
  | MakeMcm o m => (set_obj w o (m, default_rng), Done)
  | FitOf o e d =>
      match w_objs w o with
      | None => (w, NoObject)
      | Some (m, r) => match fit e d m with
                       | None => (w, Unfinished)
                       | Some (m', x) => (set_obj w o (m', r), Fitted x)
                       end
      end
  | SampleOf o n =>
      match w_objs w o with
      | None => (w, NoObject)
      | Some (m, r) => let '(s', x) := sample_from G (w_gens w r) n m in (set_gen w r s', Sampled x)
      end
  end.

(** A program: the outputs of its calls, in order. *)
Fixpoint outputs {G} (h : list action) (w : world G) : list output :=
  match h with
  | [] => []
  | a :: h => let '(w', x) := act a w in x :: outputs h w'
  end.
