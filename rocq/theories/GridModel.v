(** Model of scripts/developing.py 20-43 (metrics), 47-197 (grid_search) and
    201-332 (grid_search_kfold).  Printing and warnings are left out. *)
From Coq Require Import String.
From Verif Require Import Base RSum GaussModel DevModel.
Local Open Scope R_scope.
Local Open Scope string_scope.

(** developing.py 21-35.  [metrics] stands for lines 28-33, a function of the
    estimated weights: squared distance and sfd (medil/evaluate.py). *)
Definition calculate_metrics (metrics : mat R -> res (R * R)) (method : string) (m : dev) : res (R * R) :=
  match getattr (d_attrs m) (if String.eqb method "mle" then "W_hat_mle" else "W_hat_lse") with
  | Some (AMat W) => metrics W
  | Some AOther => Err TypeError
  | None => Err AttributeError
  end.

(** What one method contributes to the variables of grid_search (53-75, 82-84):
    the two result arrays, the best pair, the least distance (None is inf) and
    the number of failures. *)
Record grid_state := Grid {
  gr_dist : nat -> nat -> R;
  gr_sfd : nat -> nat -> R;
  gr_best : option (R * R);
  gr_min : option R;
  gr_failures : nat
}.
Definition grid_init : grid_state := Grid (fun _ _ => 0) (fun _ _ => 0) None None 0.
Definition set2 (a : nat -> nat -> R) (i j : nat) (x : R) : nat -> nat -> R :=
  fun i' j' => if ((i' =? i) && (j' =? j))%nat then x else a i' j'.
Definition less (x : R) (m : option R) : bool :=
  match m with None => true | Some y => if Rlt_dec x y then true else false end.
(** developing.py 92-131 (mle) and 133-172 (lse): one cell; [r] is what fitting
    and calculate_metrics give. *)
Definition grid_cell (r : res (R * R)) (i j : nat) (lam mu : R) (g : grid_state) : grid_state :=
  match r with
  | Err _ => Grid (gr_dist g) (gr_sfd g) (gr_best g) (gr_min g) (S (gr_failures g))
  | Ok (dist, sfd) =>
      let improves := less dist (gr_min g) in
      Grid (set2 (gr_dist g) i j dist) (set2 (gr_sfd g) i j sfd)
           (if improves then Some (lam, mu) else gr_best g)
           (if improves then Some dist else gr_min g) (gr_failures g)
  end.
(** developing.py 86-172: the two loops, lambda outside. *)
Definition cells (lams mus : list R) : list (nat * nat) :=
  list_prod (seq 0 (List.length lams)) (seq 0 (List.length mus)).
Definition grid_loop (lams mus : list R) (r : nat -> nat -> res (R * R)) : grid_state :=
  fold_left (fun g ij => grid_cell (r (fst ij) (snd ij)) (fst ij) (snd ij)
                           (nth (fst ij) lams 0) (nth (snd ij) mus 0) g) (cells lams mus) grid_init.
(** One cell of grid_search: a new model, fit, calculate_metrics. *)
Definition fit_and_measure (la : linalg) (e : denv) (opc : bool) (d : dataset) (metrics : mat R -> res (R * R))
    (method : string) (lam mu : R) : res (R * R) :=
  match dev_fit la e d method lam mu (new_dev opc) with
  | (_, Err x) => Err x
  | (m, Ok _) => calculate_metrics metrics method m
  end.
(** developing.py 47-197, the results for one method. *)
Definition grid_search (la : linalg) (e : nat -> nat -> denv) (opc : bool) (d : dataset)
    (metrics : mat R -> res (R * R)) (method : string) (lams mus : list R) : grid_state :=
  grid_loop lams mus (fun i j => fit_and_measure la (e i j) opc d metrics method (nth i lams 0) (nth j mus 0)).

(** ** K-fold cross-validation *)
(** sklearn.model_selection.KFold(n_splits=k, shuffle=True, random_state=3).split:
    [perm] is the shuffled range(n), the same in every call.  The first n % k
    folds get one row more; both index arrays are ascending. *)
Definition fold_size (n k i : nat) : nat := (n / k + (if i <? n mod k then 1 else 0))%nat.
Fixpoint fold_start (n k i : nat) : nat :=
  match i with O => O | S i => (fold_start n k i + fold_size n k i)%nat end.
Definition fold_test (n k : nat) (perm : list nat) (i : nat) : list nat :=
  let picked := firstn (fold_size n k i) (skipn (fold_start n k i) perm) in
  filter (fun s => mem s picked) (seq 0 n).
Definition fold_train (n k : nat) (perm : list nat) (i : nat) : list nat :=
  let picked := firstn (fold_size n k i) (skipn (fold_start n k i) perm) in
  filter (fun s => negb (mem s picked)) (seq 0 n).
Definition kfold (n k : nat) (perm : list nat) : res (list (list nat * list nat)) :=
  if (k <=? 1)%nat || (n <? k)%nat then Err ValueError
  else Ok (map (fun i => (fold_train n k perm i, fold_test n k perm i)) (seq 0 k)).
(** dataset[idcs] *)
Definition rows (d : dataset) (idcs : list nat) : dataset :=
  Data (List.length idcs) (n_feat d) (fun s j => value d (nth s idcs O) j).

(** developing.py 39-43; any other method name gives Python's None, which is
    never passed here. *)
Definition calculate_validation_error (la : linalg) (method : string) (held_out : dataset) (lam mu : R) (m : dev)
  : res (option R) :=
  if String.eqb method "lse" then validation_lse la lam mu held_out m else validation_mle la lam mu held_out m.

(** developing.py 219-286: the lists of one cell and one method: validation
    errors (None is inf) and true errors with sfd. *)
Definition kfold_cell (la : linalg) (e : nat -> denv) (opc : bool) (d : dataset) (metrics : mat R -> res (R * R))
    (method : string) (lam mu : R) (splits : list (list nat * list nat)) : list (option R) * list (R * R) :=
  fold_left (fun acc f =>
    let '(i, (tr, te)) := f in
    match dev_fit la (e i) (rows d tr) method lam mu (new_dev opc) with
    | (_, Err _) => acc
    | (m, Ok _) =>
        match calculate_validation_error la method (rows d te) lam mu m with
        | Err _ => acc
        | Ok v =>
            match calculate_metrics metrics method m with
            | Err _ => ((fst acc ++ [v])%list, snd acc)
            | Ok q => ((fst acc ++ [v])%list, (snd acc ++ [q])%list)
            end
        end
    end) (combine (seq 0 (List.length splits)) splits) ([], []).

(** np.mean of a list of floats. *)
Inductive average := Nan | Infinite | Finite (x : R).
Definition np_average (l : list (option R)) : average :=
  match l with
  | [] => Nan
  | _ => match fold_right (fun x acc => match x, acc with Some x, Some s => Some (x + s) | _, _ => None end) (Some 0) l with
         | None => Infinite
         | Some s => Finite (s / INR (List.length l))
         end
  end.
(** developing.py 201-332, one method: the average validation error, the
    average true error and the average sfd of every cell. *)
Definition grid_search_kfold (la : linalg) (e : nat -> nat -> nat -> denv) (opc : bool) (d : dataset)
    (metrics : mat R -> res (R * R)) (method : string) (lams mus : list R) (k : nat) (perm : list nat)
  : res (list (list (average * average * average))) :=
  match kfold (n_obs d) k perm with
  | Err x => Err x
  | Ok splits =>
      Ok (mk (List.length lams) (List.length mus) (fun i j =>
        let '(errs, trues) := kfold_cell la (e i j) opc d metrics method (nth i lams 0) (nth j mus 0) splits in
        (np_average errs, np_average (map (fun q => Some (fst q)) trues), np_average (map (fun q => Some (snd q)) trues))))
  end.
