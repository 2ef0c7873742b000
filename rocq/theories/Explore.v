(** All results that the search of EccModel.v can have on a given graph, over all
    orders of Python's sets.  Not a model of code: a tool that explores the model.
    [None] means that the exploration was not completed. *)
From Verif Require Import Base Spec SpecDec MaxCliquesModel GraphModel EccModel EccTests.
Local Open Scope Z_scope.

Definition row_dec : forall a b : list bool, {a = b} + {a <> b} := list_eq_dec bool_dec.
Definition mat_dec : forall a b : bmat, {a = b} + {a <> b} := list_eq_dec row_dec.
Definition omat_dec : forall a b : option bmat, {a = b} + {a <> b}.
Proof. decide equality. apply mat_dec. Defined.
Definition exn_dec : forall a b : exn, {a = b} + {a <> b}.
Proof. decide equality. Defined.
Definition resm_dec : forall a b : res bmat, {a = b} + {a <> b}.
Proof. decide equality; [apply mat_dec|apply exn_dec]. Defined.
Definition outcome := res (option bmat * option bmat).
Definition outcome_dec : forall a b : outcome, {a = b} + {a <> b}.
Proof. decide equality; [decide equality; apply omat_dec|apply exn_dec]. Defined.

Fixpoint bindl {A B} (f : A -> option (list B)) (l : list A) : option (list B) :=
  match l with
  | [] => Some []
  | a :: t => match f a with
              | None => None
              | Some x => match bindl f t with None => None | Some y => Some (x ++ y) end
              end
  end.

(** Rule 2 with the clique given. *)
Definition push (n : nat) (s : gstate) (row : list bool) : gstate :=
  let s1 := GS (g_adj s) (g_nv s) (g_ne s) (g_cn s) (g_cnt s) (g_ext s)
               (Some (vstack (g_cover s) row)) (g_ra s) (g_k s) (g_red s) (g_del s) in
  let s2 := cover_last n s1 in
  GS (g_adj s2) (g_nv s2) (g_ne s2) (g_cn s2) (g_cnt s2) (g_ext s2)
     (g_cover s2) (g_ra s2) (g_k s2 - 1) true (g_del s2).
Definition rule_2_all (n : nat) (s : gstate) : list gstate :=
  match filter (fun i => Z.eqb (score n s i) 0) (g_ext s) with
  | [] => [s]
  | l => map (push n s) (nodup row_dec (map (row_of n (g_cn s)) l))
  end.
Definition reduz_step_all (n : nat) (A : bmat) (s : gstate) : list (res gstate) :=
  let s0 := GS (g_adj s) (g_nv s) (g_ne s) (g_cn s) (g_cnt s) (g_ext s) (g_cover s) (g_ra s)
               (g_k s) false (g_del s) in
  map (fun s2 => if g_k s2 <? 0 then Ok s2 else if g_red s2 then Ok s2 else rule_3 n s2)
      (rule_2_all n (rule_1 n A s0)).
Fixpoint reduz_all (fuel : nat) (n : nat) (A : bmat) (s : gstate) : option (list (res gstate)) :=
  match fuel with
  | O => None
  | S f => bindl (fun o => match o with
                  | Err e => Some [Err e]
                  | Ok s' => if g_k s' <? 0 then Some [Ok s'] else if g_red s' then reduz_all f n A s' else Some [Ok s']
                  end) (reduz_step_all n A s)
  end.

Definition nb_of (n : nat) (s : gstate) (j : nat) : res bmat :=
  let mask := get (g_cn s) j in
  let nb := mk n n (fun a b => get (g_adj s) a b && mask a && mask b) in
  if Z.of_nat (length (filter (fun p => get nb (fst p) (snd p)) (list_prod (seq 0 n) (seq 0 n))))
       <=? bcount n mask
  then Err ValueError else Ok nb.
Definition choose_all (n : nat) (s : gstate) : list (res bmat) :=
  match g_ext s with
  | [] => [Err ValueError]
  | l => nodup resm_dec (map (nb_of n s) (filter (fun j => forallb (fun i => score n s j <=? score n s i) l) l))
  end.

Definition rowK (n : nat) (K : list nat) : list bool := map (fun v => mem v K) (seq 0 n).
Definition big (K : list nat) : bool := negb (Nat.eqb (length K) 1).
Fixpoint splits {A} (l : list A) : list (A * list A) :=
  match l with [] => [] | x :: t => (x, t) :: map (fun p => (fst p, x :: snd p)) (splits t) end.

Fixpoint try_all (cov : option bmat) (rec : option (option bmat -> bmat -> option (list outcome)))
    (m : nat) (ra : option bmat) (L : list (list bool)) : option (list outcome) :=
  match L with
  | [] => Some [Ok (None, ra)]
  | _ =>
      match rec with
      | None => Some [Ok (cov, ra)]
      | Some r =>
          match m with
          | O => None
          | S m' =>
              bindl (fun p =>
                match r ra (vstack cov (fst p)) with
                | None => None
                | Some outs =>
                    bindl (fun o => match o with
                           | Err e => Some [Err e]
                           | Ok (Some c, ra') => Some [Ok (Some c, ra')]
                           | Ok (None, ra') => try_all cov rec m' ra' (snd p)
                           end) outs
                end) (splits L)
          end
      end
  end.

Definition after (before : option bmat) (o : outcome) : outcome :=
  match o with Err e => Err e | Ok (c, ra) => Ok (c, shared before ra) end.
Definition tidy (o : option (list outcome)) : option (list outcome) :=
  match o with None => None | Some l => Some (nodup outcome_dec l) end.
Fixpoint branch_all (rem fuel : nat) (n : nat) (A : bmat) (s : gstate) (k : Z) (cov : option bmat) {struct rem}
  : option (list outcome) :=
  let b1 := cover_last n (reducible_copy s cov) in
  if Nat.eqb (g_ne b1) 0 then
    match reconstruct_cover n (g_ra b1) cov with
    | Err e => Some [Err e]
    | Ok c => Some [Ok (c, g_ra s)]
    end
  else
  match reduz_all fuel n A
    (GS (g_adj b1) (g_nv b1) (g_ne b1) (g_cn b1) (g_cnt b1) (g_ext b1) (g_cover b1) (g_ra b1) k true (g_del b1)) with
  | None => None
  | Some l => tidy (bindl (fun o => match o with
      | Err e => Some [Err e]
      | Ok b2 =>
          if g_k b2 <? 0 then Some [Ok (None, shared (g_ra s) (g_ra b2))]
          else if Nat.eqb (g_ne b2) 0 then Some [Ok (g_cover b2, shared (g_ra s) (g_ra b2))]
          else bindl (fun c => match c with
            | Err e => Some [Err e]
            | Ok nb =>
                if undirectedb n nb then
                  match max_cliques fuel asc nb with
                  | Some (Ok Ks) =>
                      let rec :=
                        match rem with
                        | O => None
                        | S rem' => Some (fun ra union =>
                            branch_all rem' fuel n A
                              (GS (g_adj b2) (g_nv b2) (g_ne b2) (g_cn b2) (g_cnt b2) (g_ext b2)
                                  (g_cover b2) ra (g_k b2) (g_red b2) (g_del b2))
                              (g_k b2 - 1) (Some union))
                        end in
                      match try_all (g_cover b2) rec (length Ks) (g_ra b2) (map (rowK n) (filter big Ks)) with
                      | None => None
                      | Some outs => Some (map (after (g_ra s)) outs)
                      end
                  | _ => None
                  end
                else None
            end) (choose_all n b2)
      end) l)
  end.

Fixpoint search_all (outer fuel : nat) (n : nat) (A : bmat) (s : gstate) (num_cliques : nat) : option (list (res bmat)) :=
  match outer with
  | O => None
  | S o =>
      match branch_all 3 fuel n A s (Z.of_nat num_cliques) None with
      | None => None
      | Some outs => bindl (fun x => match x with
                       | Err e => Some [Err e]
                       | Ok (Some c, _) => Some [Ok c]
                       | Ok (None, _) => search_all o fuel n A s (S num_cliques)
                       end) outs
      end
  end.
Definition all_results (fuel : nat) (M : bmat) : option (list (res bmat)) :=
  let g := udg_init M in
  match make_aux asc g with
  | Err _ => Some [Ok M]
  | Ok a =>
      if (u_nv g * u_nv g / 4 <? Z.of_nat (u_ne g)) && (n_choose_2 (u_nv g) - Z.of_nat (u_ne g) <? 0)
      then Some [Err ValueError]
      else match search_all fuel fuel (length M) M (root_state g a) 1 with
           | None => None
           | Some l => Some (nodup resm_dec (map (fun r => match r with Err e => Err e | Ok c => Ok (add_isolated_verts (length M) c) end) l))
           end
  end.
