(** Model of the plots in medil/visualize.py.  A plot is the list of the
    artists put into the figure (what matplotlib then does with them, sizes,
    fonts and colour maps, is not modelled).  Coordinates and values are reals. *)
From Coq Require Import String DecimalString.
From Flocq Require Import Core.
From Verif Require Import Base RSum GaussModel DagModel.
Local Open Scope R_scope.

Definition point : Type := (R * R)%type.
(** Python dictionaries with integer keys: [update] as in dict.update, the keys
    of the second dictionary win. *)
Definition dict := list (nat * point).
Fixpoint lookup (d : dict) (k : nat) : option point :=
  match d with
  | [] => None
  | (k', p) :: t => if (k =? k')%nat then Some p else lookup t k
  end.
Definition update (d d' : dict) : dict := (d' ++ d)%list.
(** str(int) *)
Definition show (k : nat) : string := NilZero.string_of_uint (Nat.to_uint k).

(** np.linspace(0, 1, k): equally spaced, [0.] if k = 1 (visualize.py 63-64). *)
Definition linspace01 (k : nat) : list R :=
  map (fun i => if (k =? 1)%nat then 0 else INR i / INR (k - 1)) (seq 0 k).
(** {idx + offset: (val, y) for idx, val in enumerate(vals)} (visualize.py 63-64) *)
Definition enumerate_pos (offset : nat) (y : R) (vals : list R) : dict :=
  map (fun iv => (fst iv + offset, (snd iv, y))%nat) (combine (seq 0 (List.length vals)) vals).

(** Colours of the letters and of the nodes. *)
Inductive ink := White | Black.
Record drawing := {
  marks : list (point * option nat);          (* node symbols; None: the default colour *)
  arrows : list (point * point);
  texts : list (point * string * ink);
  window : point * point                      (* xlim, ylim *)
}.

Fixpoint all_some {A} (l : list (option A)) : option (list A) :=
  match l with
  | [] => Some []
  | None :: _ => None
  | Some a :: t => match all_some t with Some t' => Some (a :: t') | None => None end
  end.
Definition lookup2 (d : dict) (uv : nat * nat) : option (point * point) :=
  match lookup d (fst uv), lookup d (snd uv) with Some p, Some q => Some (p, q) | _, _ => None end.
(** nx.DiGraph(adj): the arcs, row by row (visualize.py 77). *)
Definition digraph_arcs (D : bmat) : list (nat * nat) :=
  flat_map (fun u => map (fun v => (u, v)) (flatnonzero (num_cols D) (fun v => get D u v))) (seq 0 (List.length D)).
(** nx.draw_networkx_labels: one text per entry of the label dictionary, at the
    position of that node; None: no position for it (visualize.py 80-81). *)
Definition draw_labels (pos : dict) (labels : list (nat * string)) (c : ink) : option (list (point * string * ink)) :=
  all_some (map (fun ks => option_map (fun p => (p, snd ks, c)) (lookup pos (fst ks))) labels).
(** '$L_{{{}}}$'.format(idx) and '$M_{{{}}}$'.format(idx) (visualize.py 80-81) *)
Definition latent_label (i : nat) : string := ("$L_{" ++ show i ++ "}$")%string.
Definition meas_label (j : nat) : string := ("$M_{" ++ show j ++ "}$")%string.

(** visualize.py 52-86.  The structure is given by its nonzero entries. *)
Definition show_dag (B : bmat) : option drawing :=
  let num_latent := List.length B in let num_obs := num_cols B in
  let latent_pos := enumerate_pos 0 1 (linspace01 num_latent) in
  let obs_pos := enumerate_pos num_latent 0 (linspace01 num_obs) in
  let pos_dict := update (update [] latent_pos) obs_pos in
  let node_color := (repeat 0 num_latent ++ repeat 1 num_obs)%nat%list in
  let G := get_dag_from_biadj B in
  let nodes := seq 0 (List.length G) in
  match all_some (map (lookup pos_dict) nodes), all_some (map (lookup2 pos_dict) (digraph_arcs G)),
        draw_labels latent_pos (map (fun i => (i, latent_label i)) (seq 0 num_latent)) White,
        draw_labels obs_pos (map (fun j => (j + num_latent, meas_label j)%nat) (seq 0 num_obs)) Black with
  | Some ps, Some es, Some ls, Some ms =>
      Some {| marks := (map (fun p => (p, None)) ps ++ combine ps (map Some node_color))%list;
              arrows := es; texts := (ls ++ ms)%list; window := ((- (1 / 10), 11 / 10), (- (1 / 2), 3 / 2)) |}
  | _, _, _, _ => None
  end.

(** ** show_obs_dcor_mat, visualize.py 27-48 *)
Record heatmap := {
  pixels : list (nat * nat * R);              (* x, y, shade between vmin = 0 and vmax = 1 *)
  values : list (nat * nat * R);              (* x, y, the number printed there *)
  xticks : list (nat * string);
  yticks : list (nat * string)
}.
(** imshow(M, vmin=0, vmax=1): values outside get the colour of the bound. *)
Definition shade (x : R) : R := Rmin 1 (Rmax 0 x).
(** round(x, 2) of numpy numbers: rint(100 x) / 100, ties to even. *)
Definition round2 (x : R) : R := IZR (ZnearestE (100 * x)) / 100.
(** np.ndenumerate of a matrix: ((j, i), M[j, i]) row by row. *)
Definition ndenumerate (M : mat R) : list (nat * nat * R) :=
  flat_map (fun jr => map (fun ix => (fst jr, fst ix, snd ix)) (combine (seq 0 (List.length (snd jr))) (snd jr)))
           (combine (seq 0 (List.length M)) M).
(** (dcor_mat > thresh).astype(int) *)
Definition above (t : R) (M : mat R) : mat R := map (map (fun x => if Rlt_dec t x then 1 else 0)) M.
(** f'X{idx}' for idx in np.arange(1, dim + 1) *)
Definition obs_label (k : nat) : string := ("X" ++ show k)%string.
Definition ticks (dim : nat) : list (nat * string) := combine (seq 0 dim) (map obs_label (seq 1 dim)).
Definition show_obs_dcor_mat (M : mat R) (thresh : option R) (print_val : bool) : heatmap :=
  let M := match thresh with Some t => above t M | None => M end in
  {| pixels := map (fun jix => (snd (fst jix), fst (fst jix), shade (snd jix))) (ndenumerate M);
     values := if print_val then map (fun jix => (snd (fst jix), fst (fst jix), round2 (snd jix))) (ndenumerate M) else [];
     xticks := ticks (List.length M); yticks := ticks (List.length M) |}.

(** ** Names.  A statement of a function body: the global names evaluated, in
    order, before its effect takes place. *)
Inductive event := OpenFigure | Draw | Print (rows : nat) | ShowFigure.
Inductive outcome := Returns | NameError (name : string).
Definition stmt : Type := (list string * list event)%type.
Fixpoint first_undefined (globals : list string) (l : list string) : option string :=
  match l with
  | [] => None
  | x :: t => if existsb (String.eqb x) globals then first_undefined globals t else Some x
  end.
Fixpoint run (globals : list string) (body : list stmt) : list event * outcome :=
  match body with
  | [] => ([], Returns)
  | (names, es) :: t =>
      match first_undefined globals names with
      | Some x => ([], NameError x)
      | None => let (tr, o) := run globals t in ((es ++ tr)%list, o)
      end
  end.
Local Open Scope string_scope.
(** visualize.py 2-5 and its definitions, and the builtins used. *)
Definition builtin_names : list string := ["str"; "print"; "range"; "enumerate"; "round"; "dict"; "int"].
Definition visualize_globals : list string :=
  (["np"; "plt"; "sns"; "nx"; "show_obs_adj_mat"; "show_obs_dcor_mat"; "show_dag"; "get_dag_from_biadj";
    "show_pairwise_plot"] ++ builtin_names)%list.
(** visualize.py 8-23 *)
Definition show_obs_adj_mat_body : list stmt :=
  [ (["plt"], [OpenFigure]);
    (["get_adj_from_incidence"], []);
    (["plt"], [Draw]);
    ([], []);
    (["np"], [Draw]); (["np"; "str"], [Draw]); (["np"], [Draw]); (["np"; "str"], [Draw]);
    (["plt"], [ShowFigure]) ].
(** visualize.py 27-48 *)
Definition show_obs_dcor_mat_body (thresh print_val : bool) : list stmt :=
  ([ (["plt"], [OpenFigure]) ]
   ++ (if thresh then [ (["int"], []) ] else [])
   ++ [ (["plt"], [Draw]) ]
   ++ (if print_val then [ (["np"], []); (["round"], [Draw]) ] else [])
   ++ [ (["np"], [Draw]); (["np"], [Draw]); (["np"], [Draw]); (["np"], [Draw]);
        (["plt"], [Draw]); (["plt"], [ShowFigure]) ])%list.
(** visualize.py 52-86 with 90-98; plt's current figure is opened by the first drawing *)
Definition show_dag_body : list stmt :=
  [ (["enumerate"; "np"], []); (["enumerate"; "np"], []); (["get_dag_from_biadj"; "np"], []); (["nx"], []);
    (["nx"], [OpenFigure; Draw]); (["nx"; "range"], [Draw]); (["nx"; "range"], [Draw]); (["nx"], [Draw]);
    (["plt"], [Draw]); (["plt"], [Draw]); (["plt"], [ShowFigure]) ].
(** visualize.py 102-116, for a sample with [rows] rows *)
Definition show_pairwise_plot_body (rows : nat) : list stmt :=
  ((if (1000 <? rows)%nat then [ (["print"], [Print rows]); ([], []) ] else [])
   ++ [ (["pd"; "np"], []); (["sns"; "dict"; "dict"], [OpenFigure; Draw]); (["plt"], [ShowFigure]) ])%list.
