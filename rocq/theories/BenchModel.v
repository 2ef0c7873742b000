(** Model of the experiment drivers in scripts/developing.py: 380-521
    (benchmark_graphs_deep_dive), 525-560 (benchmark_graphs_deep_dive_kfold),
    563-609 (plot_heatmaps).  Printing is modelled as events; fonts, colours and
    sizes of the plots are not. *)
From Coq Require Import String.
From Verif Require Import Base RSum GaussModel DevModel GridModel VisModel.
Local Open Scope R_scope.
Local Open Scope string_scope.

(** sns.heatmap(table, xticklabels, yticklabels): cell (i, j) is in row i from
    above, next to the i-th y label, and above the j-th x label. *)
Record panel := Panel { p_title : string; p_x : list R; p_y : list R; p_table : list (list average) }.
Record figure := Figure { f_title : string; f_panels : list panel }.
(** What the drivers print or write; numbers are printed with the texts around them. *)
Inductive happening :=
| Say_testing (number : nat)                       (* "Testing Graph {number} with shape ..." *)
| Say_plotting (number : nat)                      (* "Plotting heatmaps for Graph {number}" *)
| Say_gaussian (number : nat) (distance : R)       (* "Squared distance between W_hat_gaussian and W_star (Graph {number})" *)
| Say_weights (W : mat R)                          (* "True weights", "GaussianMCM learned weights" *)
| Say_best (method : string) (lambda mu : option R) (least : option R)   (* "Best lambda_reg for LSE: ..." ; None, inf *)
| Say_distance (method : string) (distance : R)    (* "Squared distance between W_hat_lse and W_star" *)
| Save (file : string) (f : figure).

(** developing.py 563-609 *)
Definition plot_heatmaps (lams mus : list R) (validation distance sfd : list (list average))
    (method_name fig_name : string) : happening :=
  Save (fig_name ++ method_name ++ ".png")
    (Figure (fig_name ++ method_name)
      [ Panel (method_name ++ " validation") mus lams validation;
        Panel (method_name ++ " $l_2$") mus [] distance;
        Panel (method_name ++ " SFD") mus [] sfd ]).

(** np.logspace(-6, 1, num=6) (developing.py 202-203) *)
Definition grid : list R := map (fun i => Rpower 10 (-6 + INR i * (7 / 5))) (seq 0 6).

Definition first3 (t : list (list (average * average * average))) := map (map (fun c => fst (fst c))) t.
Definition second3 (t : list (list (average * average * average))) := map (map (fun c => snd (fst c))) t.
Definition third3 (t : list (list (average * average * average))) := map (map (fun c => snd c)) t.

(** One graph: the data drawn for it and the comparison with its weights
    (W_star, through the metrics of medil/evaluate.py), or the exception of mcm or sample. *)
Definition problem : Type := res (dataset * (mat R -> res (R * R)))%type.
(** developing.py 525-560.  The environment [e] serves the optimiser: per graph,
    method, cell and fold.  rng() makes a new generator for every model and KFold
    has a fixed seed, so the shuffle [perm] depends on the number of rows only. *)
Fixpoint kfold_loop (la : linalg) (e : nat -> string -> nat -> nat -> nat -> denv) (opc : bool) (k : nat)
    (perm : nat -> list nat) (idx : nat) (graphs : list problem) : list happening * res unit :=
  match graphs with
  | [] => ([], Ok tt)
  | g :: rest =>
      let announce := Say_testing (idx + 1) in
      match g with
      | Err x => ([announce], Err x)
      | Ok (d, metrics) =>
          match grid_search_kfold la (e idx "mle") opc d metrics "mle" grid grid k (perm (n_obs d)),
                grid_search_kfold la (e idx "lse") opc d metrics "lse" grid grid k (perm (n_obs d)) with
          | Ok tm, Ok tl =>
              let name := "Graph " ++ show idx ++ " " in
              let '(tr, r) := kfold_loop la e opc k perm (S idx) rest in
              ((announce :: Say_plotting (idx + 1)
                 :: plot_heatmaps grid grid (first3 tl) (second3 tl) (third3 tl) "LSE" name
                 :: plot_heatmaps grid grid (first3 tm) (second3 tm) (third3 tm) "MLE" name :: tr)%list, r)
          | Err x, _ | _, Err x => ([announce], Err x)
          end
      end
  end.
Definition benchmark_graphs_deep_dive_kfold la e opc k perm graphs := kfold_loop la e opc k perm 0 graphs.

(** DevMedil.fit with hyperparameters that may be None: [None * float] raises
    TypeError where the objective computes the penalty (models.py 506, 561-564);
    the inverse in line 499 may raise before that. *)
Definition loss_without_number (la : linalg) (method : string) (l p : nat) (x : list R) : res (option R) :=
  if String.eqb method "mle" then
    match inv la (compute_sigma p (reshape l p (firstn (l * p) x)) (diag p (skipn (l * p) x))) with
    | Err e => Err e
    | Ok Si => if Rle_dec (fst (slogdet la Si)) 0 then Ok None else Err TypeError
    end
  else Err TypeError.
Definition fit_maybe (la : linalg) (e : denv) (d : dataset) (method : string) (lam mu : option R) (m : dev)
  : dev * res unit :=
  match lam, mu with
  | Some lam, Some mu => dev_fit la e d method lam mu m
  | _, _ =>
      match minimize e (loss_without_number la method (num_latent m (n_feat d)) (n_feat d)) (start e) with
      | Err x => (m, Err x)
      | Ok x => (Dev (one_pure_child m) (setattr "W_hat" (AMat (reshape (num_latent m (n_feat d)) (n_feat d) x)) (d_attrs m)), Ok tt)
      end
  end.
(** One graph of developing.py 380-521: the data, the metrics against W_star, the
    result of GaussianMCM(biadj).fit (weights), and the distance of weights to
    W_star (min_perm_squared_l2_dist_abs). *)
Record study := Study {
  s_data : dataset; s_metrics : mat R -> res (R * R);
  s_gaussian : res (mat R); s_distance : mat R -> res R
}.
Definition one_study (la : linalg) (e : string -> nat -> nat -> denv) (last : string -> denv) (opc : bool) (number : nat)
    (s : study) : list happening * res unit :=
  let g := fun method => grid_search la (e method) opc (s_data s) (s_metrics s) method grid grid in
  let best method := Say_best method (option_map fst (gr_best (g method))) (option_map snd (gr_best (g method))) (gr_min (g method)) in
  match s_gaussian s with
  | Err x => ([], Err x)
  | Ok W =>
      match s_distance s W with
      | Err x => ([], Err x)
      | Ok q =>
          let said := [Say_gaussian number q; Say_weights W; best "lse"; best "mle"]%list in
          let refit method := fit_maybe la (last method) (s_data s) method (option_map fst (gr_best (g method)))
                                (option_map snd (gr_best (g method))) (new_dev opc) in
          match refit "lse" with
          | (_, Err x) => (said, Err x)
          | (ml, Ok _) =>
              match getattr (d_attrs ml) "W_hat_lse", getattr (d_attrs ml) "D_hat_lse" with
              | Some (AMat Wl), Some _ =>
                  match refit "mle" with
                  | (_, Err x) => (said, Err x)
                  | (mm, Ok _) =>
                      match getattr (d_attrs mm) "W_hat_mle", getattr (d_attrs mm) "D_hat_mle" with
                      | Some (AMat Wm), Some _ =>
                          match s_distance s Wl with
                          | Err x => (said, Err x)
                          | Ok ql =>
                              match s_distance s Wm with
                              | Err x => ((said ++ [Say_distance "lse" ql])%list, Err x)
                              | Ok qm => ((said ++ [Say_distance "lse" ql; Say_distance "mle" qm])%list, Ok tt)
                              end
                          end
                      | _, _ => (said, Err AttributeError)
                      end
                  end
              | _, _ => (said, Err AttributeError)
              end
          end
      end
  end.
(** developing.py 380-521 *)
Fixpoint dive_loop (la : linalg) (e : nat -> string -> nat -> nat -> denv) (last : nat -> string -> denv) (opc : bool) (idx : nat)
    (graphs : list (res study)) : list happening * res unit :=
  match graphs with
  | [] => ([], Ok tt)
  | Err x :: _ => ([Say_testing (idx + 1)], Err x)
  | Ok s :: rest =>
      match one_study la (e idx) (last idx) opc (idx + 1) s with
      | (tr, Err x) => ((Say_testing (idx + 1) :: tr)%list, Err x)
      | (tr, Ok _) => let '(tr', r) := dive_loop la e last opc (S idx) rest in ((Say_testing (idx + 1) :: tr ++ tr')%list, r)
      end
  end.
Definition benchmark_graphs_deep_dive la e last opc graphs := dive_loop la e last opc 0 graphs.
