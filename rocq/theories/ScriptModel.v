(** Model of what running scripts/developing.py and scripts/pgm_demo.py does with
    names: which statements are reached and which exception ends the run.
    Statements are listed in order; what they compute is left to [world]. *)
From Coq Require Import String List Arith Bool.
Import ListNotations.
Local Open Scope string_scope.

(** Top-level statements with their line numbers.  [Import l m x]: import m as x.
    [From l m xs]: from m import a as x, ...  [Def l f names]: def f, evaluating
    the names in its default values, decorators and annotations (Python before
    3.14).  [Exec l used bound]: any other statement. *)
Inductive statement :=
| Import (line : nat) (m x : string)
| From (line : nat) (m : string) (xs : list (string * string))
| Def (line : nat) (f : string) (names : list string)
| Exec (line : nat) (used bound : list string).
Inductive failure := NameErr (x : string) | ImportErr (m : string) | Fails.
Inductive ending := Finished | Raised (line : nat) (x : failure).

(** The rest of the world: what the other packages provide (None: not installed),
    whether a module of medil can be loaded, and which lines raise by themselves. *)
Record world := World {
  provides : string -> option (list string);
  loads : string -> bool;
  raises : nat -> bool
}.
(** The modules of the package and the names they define (medil/*.py, top level). *)
Definition medil_names : list (string * list string) :=
  [ ("medil",
      ["GaussianMCM"; "NeuroCausalFactorAnalysis"]);
    ("medil.ecc_algorithms",
      ["UndirectedDependenceGraph"; "add_isolated_verts"; "branch"; "deque"; "find_clique_min_cover";
       "find_heuristic_1pc"; "max_cliques"; "np"; "os"; "shutil"; "subprocess"]);
    ("medil.evaluate",
      ["itertools"; "min_perm_squared_l2_dist"; "min_perm_squared_l2_dist_abs"; "np"; "npt"; "recover_ug";
       "sfd"]);
    ("medil.examples",
      ["ExampleUDGAndMCM"; "am_cm_diff"; "examples"; "max_assignment_num"; "more_latents"; "np";
       "simple_M"; "triangle"]);
    ("medil.graph",
      ["ReducibleUndDepGraph"; "UndirectedDependenceGraph"; "default_rng"; "np"]);
    ("medil.independence_testing",
      ["NamedTuple"; "Optional"; "Pool"; "XiCorrResult"; "_XiCorr"; "_xicorr"; "chi2"; "cpu_count";
       "dcor_test"; "dcov"; "distance_correlation_t_test"; "estimate_UDG"; "norm"; "np"; "npt"; "pdist";
       "rankdata"; "squareform"; "xicor_test"; "xicorr"]);
    ("medil.models",
      ["DataLoader"; "DevMedil"; "GaussianMCM"; "MedilCausalModel"; "NeuroCausalFactorAnalysis";
       "Parameters"; "Path"; "TensorDataset"; "VariationalAutoencoder"; "datetime"; "default_rng";
       "estimate_UDG"; "find_heuristic_1pc"; "minimize"; "norm"; "np"; "npt"; "os"; "pickle"; "sc";
       "torch"; "train_test_split"; "warnings"]);
    ("medil.sample",
      ["GaussianMCM"; "_biadj"; "biadj"; "default_rng"; "find_clique_min_cover"; "mcm"; "np"; "npt"]);
    ("medil.vae",
      ["Block"; "Decoder"; "Encoder"; "Parameter"; "SparseLinear"; "VariationalAutoencoder"; "math"; "nn";
       "torch"]);
    ("medil.visualize",
      ["get_dag_from_biadj"; "np"; "nx"; "plt"; "show_dag"; "show_obs_adj_mat"; "show_obs_dcor_mat";
       "show_pairwise_plot"; "sns"]) ].
Fixpoint assoc {A} (l : list (string * A)) (k : string) : option A :=
  match l with [] => None | (k', a) :: t => if String.eqb k k' then Some a else assoc t k end.
Definition member (x : string) (l : list string) : bool := existsb (String.eqb x) l.
Definition of_medil (m : string) : bool := String.prefix "medil." m || String.eqb m "medil".
(** The names of a module, None if it cannot be imported. *)
Definition exports (w : world) (m : string) : option (list string) :=
  if of_medil m then (if loads w m then assoc medil_names m else None) else provides w m.

(** Effect of one statement on the namespace. *)
Fixpoint missing (ns names : list string) : option string :=
  match names with [] => None | x :: t => if member x ns then missing ns t else Some x end.
Definition step (w : world) (s : statement) (ns : list string) : list string + failure :=
  match s with
  | Import _ m x => match exports w m with None => inr (ImportErr m) | Some _ => inl (x :: ns) end
  | From _ m xs =>
      match exports w m with
      | None => inr (ImportErr m)
      | Some provided => match missing provided (map fst xs) with
                         | Some _ => inr (ImportErr m)
                         | None => inl (map snd xs ++ ns)%list
                         end
      end
  | Def _ f names => match missing ns names with Some x => inr (NameErr x) | None => inl (f :: ns) end
  | Exec l used bound =>
      match missing ns used with
      | Some x => inr (NameErr x)
      | None => if raises w l then inr Fails else inl (bound ++ ns)%list
      end
  end.
Definition line_of (s : statement) : nat :=
  match s with Import l _ _ => l | From l _ _ => l | Def l _ _ => l | Exec l _ _ => l end.
(** Lines completed, final namespace, how the run ended. *)
Fixpoint run_script (w : world) (p : list statement) (ns : list string) : list nat * list string * ending :=
  match p with
  | [] => ([], ns, Finished)
  | s :: t =>
      match step w s ns with
      | inr x => ([], ns, Raised (line_of s) x)
      | inl ns' => let '(done, final, e) := run_script w t ns' in (line_of s :: done, final, e)
      end
  end.

(** Python's builtins used at top level. *)
Definition builtins : list string := ["bool"; "float"; "int"; "str"; "print"].
(** scripts/developing.py *)
Definition developing : list statement :=
  [ Import 1 "warnings" "warnings";
    Import 3 "matplotlib.pyplot" "plt";
    Import 4 "matplotlib.ticker" "ticker";
    Import 5 "numpy" "np";
    Import 6 "seaborn" "sns";
    From 8 "medil.models" [("DevMedil", "DevMedil"); ("GaussianMCM", "GaussianMCM")];
    From 9 "medil.evaluate" [("sfd", "sfd"); ("min_perm_squared_l2_dist_abs", "min_perm_squared_l2_dist_abs")];
    From 10 "medil.sample" [("mcm", "mcm"); ("biadj", "biadj")];
    From 12 "sklearn.model_selection" [("KFold", "KFold")];
    Def 16 "rng" [];
    Def 21 "calculate_metrics" [];
    Def 39 "calculate_validation_error" [];
    Def 47 "grid_search" [];
    Def 201 "grid_search_kfold" [];
    Exec 336 ["np"; "bool"] ["fixed_biadj_mat_list"];
    Def 380 "benchmark_graphs_deep_dive" [];
    Def 525 "benchmark_graphs_deep_dive_kfold" [];
    Def 563 "plot_heatmaps" [];
    Exec 613 ["benchmark_graphs_deep_dive_kfold"; "fixed_biadj_mat_list"] [];
    From 617 "scipy.spatial.distance" [("pdist", "pdist"); ("squareform", "squareform")];
    From 618 "scipy.stats" [("multivariate_normal", "multivariate_normal")];
    From 619 "medil.independence_testing" [("estimate_UDG", "estimate_UDG")];
    Def 621 "compute_gauss_kernel" [];
    Def 629 "compute_caus_order" [];
    Def 645 "random_B" [];
    Def 656 "sample_data_from_G" [];
    Def 675 "sample_data_from_GAM_GP" [];
    Def 702 "biadj_to_adj" [];
    Def 709 "generate_dataset" [];
    Def 730 "verify_independence_pattern" [];
    Def 756 "verify_independence_pattern_GP" ["np"; "int"; "str"; "Tuple"; "float"];
    Exec 840 ["np"; "float"] ["biadj"];
    Exec 846 [] ["n_samples"];
    Exec 847 [] ["noise_scale"];
    Exec 850 ["generate_dataset"; "biadj"; "n_samples"; "noise_scale"] ["X"];
    Exec 853 ["print"; "X"] [];
    Exec 856 ["verify_independence_pattern"; "biadj"] ["udg"; "expected_dep"; "match_rate"; "p_vals"] ].
(** scripts/pgm_demo.py *)
Definition pgm_demo : list statement :=
  [ Import 2 "numpy" "np";
    From 3 "medil.examples" [("triangle", "triangle")];
    From 4 "medil.functional_MCM" [("gaussian_mixture_sampler", "gaussian_mixture_sampler")];
    From 5 "medil.functional_MCM" [("MeDILCausalModel", "MeDILCausalModel")];
    From 8 "medil.independence_testing" [("hypothesis_test", "hypothesis_test")];
    From 11 "medil.ecc_algorithms" [("find_clique_min_cover", "find_cm")];
    From 14 "pytorch_lightning" [("Trainer", "Trainer")];
    From 15 "medil.functional_MCM" [("uniform_sampler", "uniform_sampler"); ("GAN", "GAN")];
    Import 18 "medil.visualize" "vis";
    From 19 "medil.independence_testing" [("distance_correlation", "distance_correlation")];
    Exec 23 ["triangle"] ["num_latent"; "num_observed"];
    Exec 25 ["MeDILCausalModel"; "triangle"] ["decoder"];
    Exec 26 ["gaussian_mixture_sampler"; "num_latent"] ["sampler"];
    Exec 28 ["decoder"; "sampler"] ["input_sample"; "output_sample"];
    Exec 29 ["np"; "output_sample"] [];
    Exec 32 ["hypothesis_test"; "output_sample"] ["p_vals"; "null_corr"; "dep_graph"];
    Exec 37 ["find_cm"; "dep_graph"] ["learned_biadj_mat"];
    Exec 41 ["learned_biadj_mat"] ["num_latent"; "num_observed"];
    Exec 43 ["MeDILCausalModel"; "learned_biadj_mat"] ["decoder"];
    Exec 44 ["uniform_sampler"; "num_latent"] ["sampler"];
    Exec 46 ["GAN"; "decoder"; "sampler"] ["minMCM"];
    Exec 47 ["Trainer"] ["trainer"];
    Exec 48 ["trainer"; "minMCM"] [];
    Exec 52 ["vis"; "triangle"] [];
    Exec 53 ["vis"; "learned_biadj_mat"] [];
    Exec 56 ["decoder"; "sampler"] ["generated_sample"];
    Exec 57 ["distance_correlation"; "generated_sample"] ["generated_dcor_mat"];
    Exec 59 ["vis"; "null_corr"] [];
    Exec 60 ["vis"; "generated_dcor_mat"] [];
    Exec 63 ["print"; "decoder"] [] ].
