(** Specification vocabulary for sharing of random generators. *)
From Verif Require Import Base RSum GaussModel RngModel.

(** Calls on object [o], and what those calls return when the program [h] is
    run from [w]. *)
Definition about (o : nat) (a : action) : bool := (subject a =? o)%nat.
Definition outputs_of {G} (o : nat) (h : list action) (w : world G) : list output :=
  map snd (filter (fun ax => about o (fst ax)) (combine h (outputs h w))).

(** Object [o] alone holds generator [r]. *)
Definition owns {G} (w : world G) (o r : nat) : Prop :=
  (forall m q, w_objs w o = Some (m, q) -> q = r) /\
  (forall o' m q, o' <> o -> w_objs w o' = Some (m, q) -> q <> r).
(** ... and stays the only one: a call that creates an object gives [r] to [o]
    and something else to the others. *)
Definition respects (o r : nat) (a : action) : Prop :=
  match a with
  | Make o' _ _ rng => let q := match rng with None => default_rng | Some q => q end in
                       if (o' =? o)%nat then q = r else q <> r
  | MakeMcm o' _ => if (o' =? o)%nat then default_rng = r else default_rng <> r
  | _ => True
  end.

