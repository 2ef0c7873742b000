(** Model of medil/sample.py: [biadj] (43-105) and [mcm] (10-40).  Exact
    rationals instead of floats. *)
From Coq Require Import QArith Qround.
From Verif Require Import Base MaxCliquesModel GraphModel EccModel.
Local Open Scope Z_scope.

(** What the random generator returns to the calls biadj makes, in the order of
    the code.  A permutation is the list of source positions. *)
Record gen := Gen {
  gen_integers : Z;              (* line 54: rng.integers(1, num_meas) *)
  gen_random : Q;                (* line 56: rng.random() *)
  gen_edges : nat -> list nat;   (* lines 73, 98: rng.permutation of a vector *)
  gen_column : nat -> list nat;  (* line 78: rng.permuted(.., axis=0), by column *)
  gen_order : list nat           (* line 81: rng.permutation(biadj, axis=1) *)
}.

(** The calls themselves, to record what was asked of the generator. *)
Inductive draw := DIntegers | DRandom | DPermutation (k : nat) | DPermuted | DOrder.

(** np.round: half to even. *)
Definition np_round (q : Q) : Z :=
  let f := Qfloor q in
  let r := (q - inject_Z f)%Q in
  if Qlt_le_dec r (1#2) then f
  else if Qlt_le_dec (1#2) r then f + 1
  else if Z.even f then f else f + 1.

(** Number of positions selected by [:k] in a vector of length [len]. *)
Definition slice_len (k : Z) (len : nat) : nat :=
  if k <? 0 then Z.to_nat (Z.of_nat len + k) else Nat.min (Z.to_nat k) len.

(** rng.permutation of the vector that is True on [:k]. *)
Definition permuted_edges (k : Z) (len : nat) (p : list nat) (i : nat) : bool :=
  Nat.ltb (nth i p 0%nat) (slice_len k len).

(** Lines 59-81 for 1 <= l <= m and the number of edges computed in line 68;
    each step is one assignment of the code. *)
Definition opc_matrix_of (l m : nat) (num_edges : Z) (g : gen) : bmat :=
  let w := (m - l)%nat in
  let max_num_edges := (w * (l - 1))%nat in
  (* 59-64: eye, then every other child below L_0 *)
  let b0 (i j : nat) := if Nat.ltb j l then Nat.eqb i j else Nat.eqb i 0 in
  (* 71-75 *)
  let e := permuted_edges num_edges max_num_edges (gen_edges g max_num_edges) in
  let b1 (i j : nat) := if Nat.ltb j l then b0 i j
                        else match i with O => b0 i j | S a => e (a * w + (j - l))%nat end in
  (* 77-78: each non-pure column is permuted on its own *)
  let b2 (i j : nat) := if Nat.ltb j l then b1 i j else b1 (nth i (gen_column g (j - l)) 0%nat) j in
  (* 81 *)
  mk l m (fun i j => b2 i (nth j (gen_order g) 0%nat)).
(** Lines 67-68. *)
Definition opc_num_edges_of (l m : nat) (density : Q) : Z :=
  np_round (inject_Z (Z.of_nat ((m - l) * (l - 1))) * density)%Q.
Definition opc_matrix (l m : nat) (density : Q) (g : gen) : bmat :=
  opc_matrix_of l m (opc_num_edges_of l m density) g.

(** Lines 51-81.  Outside 1 <= num_latent <= num_meas: rng.integers needs
    1 < num_meas; np.zeros refuses negative sizes; the assignment of np.eye
    (or, for one latent and no measurement, the reshape of line 73) raises. *)
Definition biadj_opc (num_meas : Z) (density : option Q) (num_latent : Z) (g : gen)
  : list draw * res bmat :=
  if (num_latent =? 0) && (num_meas <=? 1) then ([DIntegers], Err ValueError)
  else
    let '(t1, l) := if num_latent =? 0 then ([DIntegers], gen_integers g) else ([], num_latent) in
    let '(t2, d) := match density with None => ([DRandom], gen_random g) | Some d => ([], d) end in
    if (l <? 1) || (num_meas <? l) then (t1 ++ t2, Err ValueError)
    else
      let l' := Z.to_nat l in let m := Z.to_nat num_meas in
      (t1 ++ t2 ++ [DPermutation ((m - l') * (l' - 1)); DPermuted; DOrder], Ok (opc_matrix l' m d g)).

(** Lines 95-100 and 90: the random graph with the number of edges computed in
    line 93. *)
Definition er_graph_of (m : nat) (num_edges : Z) (g : gen) : bmat :=
  let max_edges := (m * (m - 1) / 2)%nat in
  let e := permuted_edges num_edges max_edges (gen_edges g max_edges) in
  mk m m (fun i j => if Nat.eqb i j then true
                     else e (get_idx m (Nat.min i j, Nat.max i j))).
(** Lines 92-93. *)
Definition er_graph (m : nat) (density : Q) (g : gen) : bmat :=
  er_graph_of m (np_round (density * inject_Z (Z.of_nat (m * (m - 1) / 2)))%Q) g.

(** Lines 83-103.  None is a run that does not end within the fuel.
    density=None times a number raises TypeError. *)
Definition biadj_er (fuel : nat) (eorc : nat -> nat) (orc : list nat -> nat -> nat)
    (num_meas : Z) (density : option Q) (num_latent : Z) (g : gen)
  : list draw * option (res bmat) :=
  if negb (num_latent =? 0) then ([], Some (Err ValueError))
  else if num_meas <? 0 then ([], Some (Err ValueError))
  else match density with
       | None => ([], Some (Err TypeError))
       | Some d =>
           let m := Z.to_nat num_meas in
           ([DPermutation (m * (m - 1) / 2)],
            find_clique_min_cover fuel eorc orc (er_graph m d g))
       end.

(** Lines 43-105. *)
Definition biadj (fuel : nat) (eorc : nat -> nat) (orc : list nat -> nat -> nat)
    (num_meas : Z) (density : option Q) (one_pure_child : bool) (num_latent : Z) (g : gen)
  : list draw * option (res bmat) :=
  if one_pure_child
  then let '(t, r) := biadj_opc num_meas density num_latent g in (t, Some r)
  else biadj_er fuel eorc orc num_meas density num_latent g.

(** ** mcm *)
Record gparams := GParams {
  gp_weights : list (list Q);
  gp_means : list Q;
  gp_variances : list Q
}.

(** What the generator given to mcm returns: lines 23, 24, 29, 30, 32. *)
Record pgen := PGen {
  pg_weights : nat -> Q;
  pg_weight_signs : nat -> bool;
  pg_means : nat -> Q;
  pg_mean_signs : nat -> bool;
  pg_variances : nat -> Q
}.

(** a[mask] = values for a boolean mask: row by row, left to right.  Returns
    the remaining position in [values] too. *)
Fixpoint scatter_row (row : list bool) (values : nat -> Q) (k : nat) : list Q * nat :=
  match row with
  | [] => ([], k)
  | true :: t => let '(r, k') := scatter_row t values (S k) in (values k :: r, k')
  | false :: t => let '(r, k') := scatter_row t values k in (0%Q :: r, k')
  end.
Fixpoint scatter (B : bmat) (values : nat -> Q) (k : nat) : list (list Q) :=
  match B with
  | [] => []
  | row :: B => let '(r, k') := scatter_row row values k in r :: scatter B values k'
  end.

(** Lines 22-32; n = biadj.shape[1]. *)
Definition gaussian_params (n : nat) (B : bmat) (r : pgen) : gparams :=
  let weights k := let w := (pg_weights r k * (3#2) + (1#2))%Q in
                   if pg_weight_signs r k then (w * (-1))%Q else w in
  let means j := let e := (pg_means r j * 2)%Q in
                 if pg_mean_signs r j then (e * (-1))%Q else e in
  GParams (scatter B weights 0) (map means (seq 0 n))
          (map (fun j => pg_variances r j * (3#2) + (1#2))%Q (seq 0 n)).

(** The parameterization argument, up to equality with the two names. *)
Inductive parameterization := PGaussian | PVAE | POther.

(** Lines 18-40 once the structure is known. *)
Definition mcm_given (p : parameterization) (n : nat) (B : bmat) (r : pgen) : res gparams :=
  match p with
  | PGaussian => Ok (gaussian_params n B r)
  | PVAE => Err NotImplementedError
  | POther => Err ValueError
  end.

(** A pseudo-random generator: its state decides all outcomes; [spend] is the
    state after some draws. *)
Record prng := PRNG {
  state : Type;
  outcome : state -> gen;
  param_outcome : state -> pgen;
  spend : state -> list draw -> state;
  spend_params : state -> nat -> nat -> state
}.

(** mcm(rng=r, num_meas=n, num_latent=l, density=d) with a Gaussian
    parameterization, lines 10-40: line 17 does not pass [rng] on, so the
    structure comes from the default generator of [biadj], one object shared by
    all calls; [shared] is its state.  Only the one-pure-child branch. *)
Definition mcm_call (G : prng) (r shared : state G) (num_meas : Z) (density : option Q) (num_latent : Z)
  : state G * state G * res (bmat * gparams) :=
  let '(t, B) := biadj_opc num_meas density num_latent (outcome G shared) in
  let shared' := spend G shared t in
  match B with
  | Err e => (r, shared', Err e)
  | Ok B => (spend_params G r (length B) (Z.to_nat num_meas), shared',
             Ok (B, gaussian_params (Z.to_nat num_meas) B (param_outcome G r)))
  end.
