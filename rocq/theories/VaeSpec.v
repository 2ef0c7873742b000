(** Specification vocabulary for the network. *)
From Verif Require Import Base RSum VaeModel.
Local Open Scope R_scope.

(** Hidden unit [u] belongs to measurement [j]: units come in consecutive
    blocks of [width] per measurement. *)
Definition unit_of (a : arch) (j u : nat) : Prop := (j * width a <= u < (j + 1) * width a)%nat.
(** Two latent vectors that agree except at [k]. *)
Definition differ_only_at (k : nat) (z z' : nat -> R) : Prop := forall i, i <> k -> z i = z' i.
(** Latent [k] has no influence on a function of the latents. *)
Definition ignores (k : nat) (f : (nat -> R) -> R) : Prop :=
  forall z z', differ_only_at k z z' -> f z = f z'.
(** Two networks with the same parameters in the layers listed. *)
Definition agree_on (ls : list lid) (s s' : store) : Prop := forall l, In l ls -> s l = s' l.
