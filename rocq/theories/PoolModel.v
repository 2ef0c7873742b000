(** Model of how estimate_UDG computes p-values in parallel
    (medil/independence_testing.py 61-73): multiprocessing.Pool.imap with chunks
    of 100, from the source of the Python library (multiprocessing/pool.py,
    classes Pool and IMapIterator).  The task queue, the workers, the result
    handler and the consuming generator take steps in an arbitrary order. *)
From Coq Require Import QArith Qcanon.
From Verif Require Import Base GraphModel IndepModel.
Local Open Scope nat_scope.

(** Pool._get_tasks: consecutive chunks of [k] inputs. *)
Fixpoint chunks_from {X} (fuel k : nat) (l : list X) : list (list X) :=
  match fuel, l with
  | S f, _ :: _ => firstn k l :: chunks_from f k (skipn k l)
  | _, _ => []
  end.
Definition chunked {X} (k : nat) (l : list X) : list (list X) := chunks_from (length l) k l.

(** mapstar: list(map(test, chunk)) in a worker; an exception is the result of
    the whole chunk. *)
Fixpoint map_chunk {X Y} (test : X -> res Y) (l : list X) : res (list Y) :=
  match l with
  | [] => Ok []
  | x :: t => match test x with
              | Err e => Err e
              | Ok y => match map_chunk test t with Err e => Err e | Ok ys => Ok (y :: ys) end
              end
  end.

(** The state: tasks not yet taken, what each worker holds, and the iterator
    (_index, _items, _unsorted, and _length, the number of tasks); what the
    consumer has received so far, and how its loop ended, if it has. *)
Record pool (X Y : Type) := Pool {
  queue : list (nat * list X);
  busy : nat -> option (nat * list X);
  index : nat;
  items : list (res (list Y));
  unsorted : list (nat * res (list Y));
  tasks : nat;
  received : list Y;
  answer : option (res (list Y))
}.
Arguments Pool {X Y}. Arguments queue {X Y}. Arguments busy {X Y}. Arguments index {X Y}. Arguments items {X Y}.
Arguments unsorted {X Y}. Arguments tasks {X Y}. Arguments received {X Y}. Arguments answer {X Y}.

(** IMapIterator._set, the loop: results that are next in line move to _items. *)
Definition take_out {R} (i : nat) (l : list (nat * R)) : list (nat * R) := filter (fun q => negb (fst q =? i)) l.
Fixpoint flush {R} (fuel i : nat) (its : list R) (uns : list (nat * R)) : nat * list R * list (nat * R) :=
  match fuel with
  | 0 => (i, its, uns)
  | S f => match find (fun q => fst q =? i) uns with
           | Some (_, r) => flush f (S i) (its ++ [r]) (take_out i uns)
           | None => (i, its, uns)
           end
  end.
Definition deliver {X Y} (i : nat) (r : res (list Y)) (p : pool X Y) : pool X Y :=
  if (i =? index p) then
    let '(i', its, uns) := flush (length (unsorted p)) (S i) (items p ++ [r]) (unsorted p) in
    Pool (queue p) (busy p) i' its uns (tasks p) (received p) (answer p)
  else Pool (queue p) (busy p) (index p) (items p) (unsorted p ++ [(i, r)]) (tasks p) (received p) (answer p).

Definition set_busy {X Y} (w : nat) (t : option (nat * list X)) (q : list (nat * list X)) (p : pool X Y) : pool X Y :=
  Pool q (fun v => if v =? w then t else busy p v) (index p) (items p) (unsorted p) (tasks p) (received p) (answer p).

(** [Work w]: worker [w] takes the next task, or finishes the one it has.
    [Next]: the loop of np.fromiter (line 70) asks for the next chunk; while
    there is none it waits.  [Kill w]: the worker process dies; the pool starts
    another one in its place, and the task it held is gone. *)
Inductive event := Work (w : nat) | Next | Kill (w : nat).
Definition pool_step {X Y} (test : X -> res Y) (workers : nat) (e : event) (p : pool X Y) : pool X Y :=
  match answer p with
  | Some _ => p (* leaving the with block terminates the pool *)
  | None =>
      match e with
      | Work w =>
          if negb (w <? workers) then p
          else match busy p w with
               | Some (i, c) => deliver i (map_chunk test c) (set_busy w None (queue p) p)
               | None => match queue p with
                         | [] => p
                         | t :: q => set_busy w (Some t) q p
                         end
               end
      | Next =>
          match items p with
          | Ok ys :: its => Pool (queue p) (busy p) (index p) its (unsorted p) (tasks p) (received p ++ ys) None
          | Err e :: its => Pool (queue p) (busy p) (index p) its (unsorted p) (tasks p) (received p) (Some (Err e))
          | [] => if index p =? tasks p
                  then Pool (queue p) (busy p) (index p) [] (unsorted p) (tasks p) (received p) (Some (Ok (received p)))
                  else p
          end
      | Kill w => if negb (w <? workers) then p else set_busy w None (queue p) p
      end
  end.
Definition pool_run {X Y} (test : X -> res Y) (workers : nat) (schedule : list event) (p : pool X Y) : pool X Y :=
  fold_left (fun p e => pool_step test workers e p) schedule p.
Definition pool_start {X Y} (size : nat) (inputs : list X) : pool X Y :=
  let ch := chunked size inputs in
  Pool (combine (seq 0 (length ch)) ch) (fun _ => None) 0 [] [] (length ch) [] None.

(** Line 69: Pool(max(1, int(0.75 * cpu_count()))). *)
Definition num_workers (cpus : nat) : nat := Nat.max 1 (3 * cpus / 4).

(** p.imap(test, sample_iter, 100) consumed by np.fromiter, lines 69-72; None
    while it is still running. *)
Definition parallel_map {X Y} (test : X -> res Y) (cpus : nat) (schedule : list event) (inputs : list X) : option (res (list Y)) :=
  answer (pool_run test (num_workers cpus) schedule (pool_start 100 inputs)).

(** Lines 61-75 with an explicit schedule: the p-values of the pairs of
    np.triu_indices are written at (i, j) and (j, i) of a zero matrix. *)
Definition from_pairs {Y} (z : Y) (pairs : list (nat * nat)) (ys : list Y) (i j : nat) : Y :=
  match find (fun q => ((fst (fst q) =? i) && (snd (fst q) =? j)) || ((fst (fst q) =? j) && (snd (fst q) =? i)))%bool (combine pairs ys) with
  | Some (_, y) => y
  | None => z
  end.
Definition estimate_parallel (test : list Qc -> list Qc -> fl) (cpus : nat) (schedule : list event)
    (n p : nat) (X : sample) (level : Qc) : option (res (bmat * option (mat fl))) :=
  match parallel_map (fun q => Ok (test (column n X (fst q)) (column n X (snd q)))) cpus schedule (upper_pairs p) with
  | None => None
  | Some (Err e) => Some (Err e)
  | Some (Ok ys) => let P := from_pairs (Fin 0) (upper_pairs p) ys in
                    Some (Ok (fill_diag p (fun i j => flt (P i j) level), Some (mk p p P)))
  end.
