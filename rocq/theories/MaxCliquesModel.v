(** Model of [max_cliques], medil/ecc_algorithms.py lines 152-212. *)
From Verif Require Import Base.

(** ecc_algorithms.py 176-178: the adjacency sets, without self loops. *)
Definition nbr_set (M : bmat) (n u : nat) : list nat :=
  flatnonzero n (fun v => get M u v && negb (v =? u)).

(** ecc_algorithms.py 183, 204: [max(subg, key=lambda u: len(cand & adj[u]))]
    returns the first maximal element in the (unspecified) iteration order of
    the set, i.e. some maximal element. *)
Definition maximizers (f : nat -> nat) (s : list nat) : list nat :=
  filter (fun u => f u =? list_max (map f s)) s.
Definition max_key (o : nat) (adj : nat -> list nat) (subg cand : list nat) : nat :=
  pick o (maximizers (fun u => length (inter cand (adj u))) subg).

(** Local variables of the generator.  [mc_Q] is the Python list [Q] reversed
    (its last element first); [None] is the Python placeholder. *)
Record mc_state := MC {
  mc_Q : list (option nat);
  mc_subg : list nat;
  mc_cand : list nat;
  mc_ext : list nat;
  mc_stack : list (list nat * list nat * list nat)
}.

Fixpoint all_some (Q : list (option nat)) : option (list nat) :=
  match Q with
  | [] => Some []
  | None :: _ => None
  | Some x :: t => match all_some t with Some l => Some (x :: l) | None => None end
  end.

Inductive mc_event :=
| Continue (s : mc_state)                   (* next iteration *)
| Yield (K : list nat) (s : mc_state)       (* yield Q[:], then next iteration *)
| Stop                                      (* IndexError, caught: generator ends *)
| Escape (e : exn).                         (* any other exception *)

(** One iteration of [while True], ecc_algorithms.py 188-208.
    A yielded list still holding the placeholder is reported as [TypeError]. *)
Definition mc_step (adj : nat -> list nat) (o1 o2 : nat) (s : mc_state) : mc_event :=
  match mc_ext s with
  | _ :: _ =>
      let q := pick o1 (mc_ext s) in                       (* q = ext_u.pop() *)
      let ext' := discard q (mc_ext s) in
      if negb (mem q (mc_cand s)) then Escape KeyError else
      let cand' := discard q (mc_cand s) in                (* cand.remove(q) *)
      match mc_Q s with
      | [] => Stop                                         (* Q[-1] = q on empty Q *)
      | _ :: Q' =>
          let Q1 := Some q :: Q' in                        (* Q[-1] = q *)
          let subg_q := inter (mc_subg s) (adj q) in
          match subg_q with
          | [] =>
              match all_some (rev Q1) with
              | Some K => Yield K (MC Q1 (mc_subg s) cand' ext' (mc_stack s))
              | None => Escape TypeError
              end
          | _ :: _ =>
              let cand_q := inter cand' (adj q) in
              match cand_q with
              | [] => Continue (MC Q1 (mc_subg s) cand' ext' (mc_stack s))
              | _ :: _ =>
                  let u := max_key o2 adj subg_q cand_q in
                  Continue (MC (None :: Q1) subg_q cand_q (diff cand_q (adj u))
                               ((mc_subg s, cand', ext') :: mc_stack s))
              end
          end
      end
  | [] =>
      match mc_Q s with
      | [] => Stop                                         (* Q.pop() *)
      | _ :: Q' =>
          match mc_stack s with
          | [] => Stop                                     (* stack.pop() *)
          | (subg, cand, ext) :: st => Continue (MC Q' subg cand ext st)
          end
      end
  end.

(** The loop.  [orc] resolves the set orders, two choices per iteration;
    [t] counts iterations; [None] means out of fuel. *)
Fixpoint mc_run (fuel : nat) (adj : nat -> list nat) (orc : nat -> nat) (t : nat)
         (s : mc_state) (acc : list (list nat)) : option (res (list (list nat))) :=
  match fuel with
  | 0 => None
  | S f =>
      match mc_step adj (orc (2 * t)) (orc (2 * t + 1)) s with
      | Continue s' => mc_run f adj orc (S t) s' acc
      | Yield K s' => mc_run f adj orc (S t) s' (acc ++ [K])
      | Stop => Some (Ok acc)
      | Escape e => Some (Err e)
      end
  end.

(** ecc_algorithms.py 172-185: initialisation.  The result is the list of all
    values the generator yields, in order. *)
Definition max_cliques (fuel : nat) (orc : nat -> nat) (M : bmat)
  : option (res (list (list nat))) :=
  let n := length M in
  match n with
  | 0 => Some (Ok [])
  | _ =>
      let adj := nbr_set M n in
      let V := seq 0 n in
      let u := max_key (orc 0) adj V V in
      mc_run fuel adj orc 1 (MC [None] V V (diff V (adj u)) []) []
  end.
