(** UndirectedDependenceGraph objects over a heap of arrays (medil/graph.py 32-52,
    54-122, 128-129, 141-165): several objects may hold the same array, which the
    caller may hold and change, too. *)
From Verif Require Import Base GraphModel EccModel HeapModel.

(** The attributes make_aux creates; they are rebound, never written to, as long as
    no method of the reducible copy runs (it has its own copies).  A make_aux that
    raises has already assigned common_neighbors and extant_edges_idx, but not
    nbrhood_edge_counts: [None] is a missing attribute. *)
Record uaux := UA { ua_cn : bmat; ua_cnt : option (list Z); ua_ext : list nat }.

(** graph.py 32-38: [ug_arr] is the address of the caller's array.  [ug_aux] is
    [None] as long as get_idx does not exist. *)
Record ugraph := UG { ug_arr : nat; ug_nv : Z; ug_max : nat; ug_ne : nat; ug_aux : option uaux }.
Definition new_graph (h : heap) (arr : nat) : ugraph :=
  let g := udg_init (hb h arr) in UG arr (u_nv g) (u_max g) (u_ne g) None.

(** graph.py 40-52: writes to the array, then recounts. *)
Definition edit_edges (b : bool) (h : heap) (g : ugraph) (es : list (nat * nat)) : heap * ugraph :=
  let h1 := write h (ug_arr g) (set_edges (ug_max g) b (hb h (ug_arr g)) es) in
  (h1, UG (ug_arr g) (ug_nv g) (ug_max g) (count_upper (ug_max g) (hb h1 (ug_arr g))) (ug_aux g)).

(** graph.py 54-122. *)
Definition make_auxG (orc : nat -> nat) (h : heap) (g : ugraph) : ugraph * res unit :=
  let n := ug_max g in
  let M := hb h (ug_arr g) in
  match edge_indices n M, n with
  | [], S _ =>
      (UG (ug_arr g) (ug_nv g) n (ug_ne g)
          (Some (UA (mk (length (upper_pairs n)) n (fun _ _ => false))
                    (match ug_aux g with None => None | Some u => ua_cnt u end) [])),
       Err ValueError)
  | is_, _ =>
      let cn := common_neighbors n M in
      (UG (ug_arr g) (ug_nv g) n (ug_ne g)
          (Some (UA cn (Some (map (fun i => nbrhood_count n M (get cn i)) (seq 0 (length (upper_pairs n)))))
                    (shuffle orc is_))), Ok tt)
  end.

(** graph.py 128-129 and 141-165; [orc] is for the call of make_aux at line 152.
    The copy's arrays are new (C122), so it is given as a value. *)
Definition reducible_copyG (orc : nat -> nat) (h : heap) (g : ugraph) : ugraph * res gstate :=
  let '(g, r) := match ug_aux g with None => make_auxG orc h g | Some _ => (g, Ok tt) end in
  match r, ug_aux g with
  | Err e, _ => (g, Err e)
  | Ok _, None => (g, Err AttributeError)
  | Ok _, Some u =>
      match ua_cnt u with
      | None => (g, Err AttributeError)
      | Some cnt => (g, Ok (GS (hb h (ug_arr g)) (ug_nv g) (ug_ne g) (ua_cn u) cnt (ua_ext u) None None 0%Z false []))
      end
  end.

(** A program using graph objects.  [g] numbers the objects in order of creation;
    exceptions are caught by the caller; calls on objects that do not exist do
    nothing. *)
Inductive uop :=
| ONew (arr : nat)                                     (* UndirectedDependenceGraph(a) *)
| OEdges (b : bool) (g : nat) (es : list (nat * nat))  (* add_edges / rm_edges *)
| OAux (g : nat) (orc : nat -> nat)                    (* make_aux *)
| OCopy (g : nat) (orc : nat -> nat)                   (* reducible_copy, result dropped *)
| OWrite (arr : nat) (M : bmat).                       (* a[...] = ... by the caller *)

Definition ustate := (heap * list ugraph)%type.
Definition ustep (s : ustate) (o : uop) : ustate :=
  let '(h, gs) := s in
  match o with
  | ONew arr => (h, gs ++ [new_graph h arr])
  | OEdges b g es =>
      match nth_error gs g with
      | None => s
      | Some x => let '(h', x') := edit_edges b h x es in (h', upd gs g x')
      end
  | OAux g orc =>
      match nth_error gs g with None => s | Some x => (h, upd gs g (fst (make_auxG orc h x))) end
  | OCopy g orc =>
      match nth_error gs g with None => s | Some x => (h, upd gs g (fst (reducible_copyG orc h x))) end
  | OWrite arr M => (write h arr M, gs)
  end.
Definition urun (s : ustate) (os : list uop) : ustate := fold_left ustep os s.
