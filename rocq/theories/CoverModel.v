(** Model of medil/examples.py and of the bounds computed in
    medil/ecc_algorithms.py 47-53 (printed) and medil/models.py 491, 553. *)
From Verif Require Import Base GraphModel.

(** A 0/1 integer array used as a graph or structure. *)
Definition bits01 (l : list (list nat)) : bmat := map (map (fun x => Nat.eqb x 1)) l.

(** examples.py 5-18: UDG and MCM; the description is left out. *)
Record example := Example_ { ex_udg : bmat; ex_mcm : bmat }.

(** examples.py 20-22. *)
Definition simple_M : example := Example_
  (bits01 [[1;1;0];
   [1;1;1];
   [0;1;1]])
  (bits01 [[0;1;1];
   [1;1;0]]).

(** examples.py 24-37. *)
Definition triangle : example := Example_
  (bits01 [[1;1;1;0;0;0];
   [1;1;1;1;1;0];
   [1;1;1;0;1;1];
   [0;1;0;1;1;0];
   [0;1;1;1;1;1];
   [0;0;1;0;1;1]])
  (bits01 [[0;0;1;0;1;1];
   [0;1;0;1;1;0];
   [1;1;1;0;0;0]]).

(** examples.py 39-63. *)
Definition more_latents : example := Example_
  (bits01 [[1;1;0;1;0;1];
   [1;1;1;0;1;0];
   [0;1;1;1;0;0];
   [1;0;1;1;1;0];
   [0;1;0;1;1;1];
   [1;0;0;0;1;1]])
  (bits01 [[1;1;0;0;0;0];
   [0;1;1;0;0;0];
   [0;0;1;1;0;0];
   [0;0;0;1;1;0];
   [0;0;0;0;1;1];
   [1;0;0;0;0;1];
   [1;0;0;1;0;0];
   [0;1;0;0;1;0]]).

(** examples.py 65-88. *)
Definition am_cm_diff : example := Example_
  (bits01 [[1;1;1;1;1;0;1;0];
   [1;1;1;0;1;1;1;1];
   [1;1;1;0;1;1;1;1];
   [1;0;0;1;0;1;1;1];
   [1;1;1;0;1;1;0;1];
   [0;1;1;1;1;1;0;1];
   [1;1;1;1;0;0;1;1];
   [0;1;1;1;1;1;1;1]])
  (bits01 [[1;1;1;0;1;0;0;0];
   [1;0;0;1;0;0;1;0];
   [0;1;1;0;1;1;0;1];
   [0;0;0;1;0;1;0;1];
   [0;1;1;0;0;0;1;1]]).

(** examples.py 90-114. *)
Definition max_assignment_num : example := Example_
  (bits01 [[1;1;1;1;1;1;1;1];
   [1;1;1;1;1;1;1;1];
   [1;1;1;0;0;0;0;0];
   [1;1;0;1;0;0;0;0];
   [1;1;0;0;1;0;0;0];
   [1;1;0;0;0;1;0;0];
   [1;1;0;0;0;0;1;0];
   [1;1;0;0;0;0;0;1]])
  (bits01 [[1;1;1;0;0;0;0;0];
   [1;1;0;1;0;0;0;0];
   [1;1;0;0;1;0;0;0];
   [1;1;0;0;0;1;0;0];
   [1;1;0;0;0;0;1;0];
   [1;1;0;0;0;0;0;1]]).

(** examples.py 116. *)
Definition examples : list example := [simple_M; triangle; more_latents; am_cm_diff; max_assignment_num].

(** ecc_algorithms.py 49-53: the bound printed before the search; int(np.sqrt(p))
    is the integer square root (exact below 2^52). *)
Definition max_intersect_num (num_vertices num_edges : Z) : Z :=
  let b := (num_vertices * num_vertices / 4)%Z in
  if (b <? num_edges)%Z then
    let p := (n_choose_2 num_vertices - num_edges)%Z in
    if (0 <? p)%Z then (p + Z.sqrt p)%Z else 1%Z
  else b.
