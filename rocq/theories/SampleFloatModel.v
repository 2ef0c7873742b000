(** Model of medil/sample.py in floating point: [biadj] (43-105) and the
    parameters drawn by [mcm] (22-32).  Every operation on floats is rounded to
    binary64.  The exact version is SampleModel.v, which also has the parts
    without arithmetic.  Simplified: nothing overflows (the numbers of edges and
    the parameters are small). *)
From Coq Require Import Reals QArith Qreals.
From Flocq Require Import Core.
From Verif Require Import Base Spec EccModel SampleModel PermFloatModel GaussModel.
Local Open Scope R_scope.

(** Lines 68, 93: np.round(max_num_edges * density).astype(int).  The integer is
    converted to a float, exactly below 2^53; np.round is half to even. *)
Definition fnum_edges (max_num_edges : nat) (density : R) : Z :=
  ZnearestE (fl (INR max_num_edges * density)).

(** Lines 51-81; as [biadj_opc]. *)
Definition fbiadj_opc (num_meas : Z) (density : option R) (num_latent : Z) (g : gen)
  : list draw * res bmat :=
  if ((num_latent =? 0) && (num_meas <=? 1))%Z then ([DIntegers], Err ValueError)
  else
    let '(t1, l) := if (num_latent =? 0)%Z then ([DIntegers], gen_integers g) else ([], num_latent) in
    let '(t2, d) := match density with None => ([DRandom], Q2R (gen_random g)) | Some d => ([], d) end in
    if ((l <? 1) || (num_meas <? l))%Z then (t1 ++ t2, Err ValueError)
    else
      let l' := Z.to_nat l in let m := Z.to_nat num_meas in
      (t1 ++ t2 ++ [DPermutation ((m - l') * (l' - 1)); DPermuted; DOrder],
       Ok (opc_matrix_of l' m (fnum_edges ((m - l') * (l' - 1)) d) g)).

(** Lines 90-100. *)
Definition fer_graph (m : nat) (density : R) (g : gen) : bmat :=
  er_graph_of m (fnum_edges (m * (m - 1) / 2) density) g.

(** Lines 83-103; as [biadj_er]. *)
Definition fbiadj_er (fuel : nat) (eorc : nat -> nat) (orc : list nat -> nat -> nat)
    (num_meas : Z) (density : option R) (num_latent : Z) (g : gen)
  : list draw * option (res bmat) :=
  if negb (num_latent =? 0)%Z then ([], Some (Err ValueError))
  else if (num_meas <? 0)%Z then ([], Some (Err ValueError))
  else match density with
       | None => ([], Some (Err TypeError))
       | Some d =>
           let m := Z.to_nat num_meas in
           ([DPermutation (m * (m - 1) / 2)], find_clique_min_cover fuel eorc orc (fer_graph m d g))
       end.

(** Lines 43-105. *)
Definition fbiadj (fuel : nat) (eorc : nat -> nat) (orc : list nat -> nat -> nat)
    (num_meas : Z) (density : option R) (one_pure_child : bool) (num_latent : Z) (g : gen)
  : list draw * option (res bmat) :=
  if one_pure_child
  then let '(t, r) := fbiadj_opc num_meas density num_latent g in (t, Some r)
  else fbiadj_er fuel eorc orc num_meas density num_latent g.

(** ** mcm, lines 22-32 *)
(** What the generator given to mcm returns. *)
Record fpgen := FPGen {
  fp_weights : nat -> R;
  fp_weight_signs : nat -> bool;
  fp_means : nat -> R;
  fp_mean_signs : nat -> bool;
  fp_variances : nat -> R
}.
Record fparams := FParams {
  f_weights : mat R;
  f_means : list R;
  f_variances : list R
}.

(** (u * 1.5) + 0.5 *)
Definition fspread (u : R) : R := fl (fl (u * (3 / 2)) + / 2).
(** x *= -1 where the mask is True; exact. *)
Definition fsign (b : bool) (x : R) : R := if b then - x else x.

Definition fgaussian_params (n : nat) (B : bmat) (r : fpgen) : fparams :=
  FParams
    (GaussModel.scatter B (map (fun k => fsign (fp_weight_signs r k) (fspread (fp_weights r k))) (seq 0 (num_true B))))
    (map (fun j => fsign (fp_mean_signs r j) (fl (fp_means r j * 2))) (seq 0 n))
    (map (fun j => fspread (fp_variances r j)) (seq 0 n)).
