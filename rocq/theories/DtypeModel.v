(** Model of what the dtype of an explicitly given structure does to
    GaussianMCM.fit (medil/models.py 83-110) and to sample.mcm (medil/sample.py
    20-33): the structure is used as a numpy index, and indexing with an integer
    array selects rows instead of masking entries.  The structures of
    medil/examples.py are integer arrays (examples.py 13-17); learned structures
    are always boolean. *)
From Coq Require Import QArith.
From Verif Require Import Base RSum MaxCliquesModel HeuristicModel GaussModel SampleModel DagModel.
Local Open Scope R_scope.

(** a = np.zeros_like(B, float); a[B] = w for an integer array B with entries 0
    and 1, l rows and p columns: a[B] has shape (l, p, p), its (i, j) row is row
    B[i, j] of a; every such row receives w, which must have p entries or one.
    With one row the index 1 is out of range.  (If both go wrong numpy may
    report the shapes first, as ValueError.) *)
Definition int_assign {A} (z : A) (B : bmat) (w : list A) : res (mat A) :=
  let l := length B in let p := num_cols B in
  if existsb (fun b => b) (concat B) && (l <=? 1)%nat then Err IndexError
  else if negb ((length w =? p)%nat || (length w =? 1)%nat) then Err ValueError
  else Ok (mk l p (fun i j =>
         if ((i =? 0)%nat && existsb negb (concat B)) || ((i =? 1)%nat && existsb (fun b => b) (concat B))
         then (if (length w =? p)%nat then nth j w z else nth 0 w z)
         else z)).

(** models.py 94-95 and 107-108, sample.py 26-27. *)
Definition index_assign (t : dtype) (B : bmat) (w : list R) : res (mat R) :=
  match t with
  | Bool => Ok (GaussModel.scatter B w)
  | Int => int_assign 0 B w
  | Float => Err IndexError
  end.

(** models.py 90-99.  Whether line 95 raises depends on shapes only.  [p] is the
    number of measurements of the data; if it differs from the width of the
    structure, numpy broadcasts (see GaussModel.objective_broadcast). *)
Definition objective_dt (t : dtype) (B : bmat) (p : nat) (cov : nat -> nat -> R) (x : list R) : R :=
  let k := num_weights B in
  let w := num_cols B in
  let q := if (w =? 1)%nat then p else w in
  match index_assign t B (firstn k x) with
  | Ok W =>
      if (w =? p)%nat
      then rs (seq 0 w) (fun i => rs (seq 0 w) (fun j => (cov i j - gram W i j - diagflat (skipn k x) i j) ^ 2))
      else rs (seq 0 q) (fun i => rs (seq 0 q) (fun j =>
             (cov (broadcast_at p i) (broadcast_at p j) - gram W (broadcast_at w i) (broadcast_at w j)
              - diagflat (skipn k x) (broadcast_at w i) (broadcast_at w j)) ^ 2))
  | Err _ => 0
  end.

(** models.py 83-110.  A float structure has a float sum, which line 101 refuses
    as a size.  minimize evaluates the objective at the starting point before
    anything else. *)
Definition fit_parameters_dt (t : dtype) (e : env) (d : dataset) (m : gauss) : gauss * res unit :=
  let m := set_means (map (np_mean d) (seq 0 (n_feat d))) m in
  let B := g_biadj m in
  let k := num_weights B in
  match t with
  | Float => (m, Err TypeError)
  | _ =>
      match index_assign t B (repeat 1 k) with
      | Err x => (m, Err x)
      | Ok _ =>
          if negb (widths_fit (num_cols B) (n_feat d)) then (m, Err ValueError)
          else match e_minimize e (objective_dt t B (n_feat d) (np_cov d)) (repeat 1 (k + num_cols B)) with
               | Err x => (m, Err x)
               | Ok x => match index_assign t B (firstn k x) with
                         | Err y => (set_params (skipn k x) (mk (length B) (num_cols B) (fun _ _ => 0)) m, Err y)
                         | Ok W => (set_params (skipn k x) W m, Ok tt)
                         end
               end
      end
  end.

(** models.py 76-110; [t] is the dtype of the biadj given to the constructor. *)
Definition fit_dt (t : dtype) (e : env) (d : dataset) (m : gauss) : option (gauss * res unit) :=
  if (size (g_biadj m) =? 0)%nat then fit e d m
  else Some (fit_parameters_dt t e d (set_data d m)).

(** sample.py 11-40 for parameterization "Gaussian" and a given structure. *)
Definition mcm_dt (t : dtype) (n : nat) (B : bmat) (r : pgen) : res gparams :=
  let g := gaussian_params n B r in
  let w := map (fun k => let w := (pg_weights r k * (3#2) + (1#2))%Q in
                         if pg_weight_signs r k then (w * (-1))%Q else w) (seq 0 (num_weights B)) in
  match t with
  | Bool => Ok g
  | Int => match int_assign 0%Q B w with
           | Err x => Err x
           | Ok W => Ok (GParams W (gp_means g) (gp_variances g))
           end
  | Float => Err TypeError
  end.
