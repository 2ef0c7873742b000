(** Model of ReducibleUndDepGraph.reset, medil/graph.py 167-168. *)
From Verif Require Import Base GraphModel EccModel.

(** [self.__init__(self.unreduced)] (graph.py 141-165) on an object in state
    [s] whose unreduced graph is [root]: every attribute __init__ assigns is
    assigned; reduced_away is assigned only if unreduced has one, and
    k_num_cliques and reducing are not touched.  The ghost [g_del] starts
    afresh. *)
Definition reset (root s : gstate) : gstate :=
  GS (g_adj root) (g_nv root) (g_ne root) (g_cn root) (g_cnt root) (g_ext root) None
     (match g_ra root with Some r => Some r | None => g_ra s end)
     (g_k s) (g_red s) [].
