(** Model of medil/models.py 474-629: [DevMedil].  Floats are real numbers. *)
From Coq Require Import String.
From Verif Require Import Base RSum GaussModel.
Local Open Scope R_scope.
Local Open Scope string_scope.

(** The numpy and scipy functions used as black boxes: the nuclear norm, the
    matrix inverse (which may raise) and (sign, logdet) of slogdet. *)
Record linalg := LinAlg {
  nuc : mat R -> R;
  inv : mat R -> res (mat R);
  slogdet : mat R -> R * R
}.

(** The instance's attributes (vars(self)). *)
Inductive aval :=
| AMat (M : mat R)         (* an array *)
| AOther.                  (* anything the modelled code does not look into *)
Definition attrs := list (string * aval).
Fixpoint getattr (a : attrs) (k : string) : option aval :=
  match a with
  | [] => None
  | (k', v) :: a => if String.eqb k k' then Some v else getattr a k
  end.
Definition hasattr (a : attrs) (k : string) : bool :=
  match getattr a k with Some _ => true | None => false end.
Definition setattr (k : string) (v : aval) (a : attrs) : attrs := (k, v) :: a.

(** models.py 36-39, 476-478. *)
Record dev := Dev { one_pure_child : bool; d_attrs : attrs }.
Definition new_dev (opc : bool) : dev :=
  Dev opc [("biadj", AOther); ("udg", AOther); ("one_pure_child", AOther); ("rng", AOther); ("init_W", AOther)].

(** What the environment decides in one call of fit: the random start vector,
    and result.x (or an exception) of scipy.optimize.minimize.  The objective
    may raise and may return infinity (None). *)
Record denv := DEnv {
  start : list R;
  minimize : (list R -> res (option R)) -> list R -> res (list R)
}.

(** models.py 487-491. *)
Definition num_latent (m : dev) (p : nat) : nat :=
  if one_pure_child m then p else ((p ^ 2) / 4)%nat.
(** v.reshape(l, p) *)
Definition reshape (l p : nat) (v : list R) : mat R := mk l p (fun i j => nth (i * p + j) v 0).
(** np.diag(v) *)
Definition diag (p : nat) (v : list R) : mat R := mk p p (fun i j => if (i =? j)%nat then nth i v 0 else 0).
Definition rget (M : mat R) (i j : nat) : R := getd 0 M i j.
(** models.py 591-593. *)
Definition compute_sigma (p : nat) (W D : mat R) : mat R := mk p p (fun i j => gram W i j + rget D i j).
(** models.py 600-601. *)
Definition sigma (W : mat R) : R := rs W (fun row => rs row Rabs).
(** np.trace(np.dot(A, B)) *)
Definition trace_dot (p : nat) (A : nat -> nat -> R) (B : mat R) : R :=
  rs (seq 0 p) (fun i => rs (seq 0 p) (fun j => A i j * rget B j i)).

(** models.py 498-508 and 531-540: the two bodies are the same. *)
Definition mle_value (la : linalg) (p : nat) (Sigma_hat : nat -> nat -> R) (lambda_reg mu_reg : R) (W D : mat R)
  : res (option R) :=
  match inv la (compute_sigma p W D) with
  | Err e => Err e
  | Ok Sigma_inv =>
      let '(sign, logdet) := slogdet la Sigma_inv in
      if Rle_dec sign 0 then Ok None
      else Ok (Some (trace_dot p Sigma_hat Sigma_inv - sign * logdet
                     + (lambda_reg * nuc la W + mu_reg * sigma W)))
  end.
(** models.py 560-566 and 585-588. *)
Definition lse_value (la : linalg) (p : nat) (Sigma_hat : nat -> nat -> R) (lambda_reg mu_reg : R) (W D : mat R) : R :=
  (sqrt (rs (seq 0 p) (fun i => rs (seq 0 p) (fun j => (Sigma_hat i j - gram W i j - rget D i j) ^ 2)))) ^ 2
  + lambda_reg * nuc la W + mu_reg * sigma W.

(** models.py 494-508. *)
Definition penalized_mle_loss la l p S lambda_reg mu_reg (x : list R) : res (option R) :=
  mle_value la p S lambda_reg mu_reg (reshape l p (firstn (l * p) x)) (diag p (skipn (l * p) x)).
(** models.py 556-566. *)
Definition penalized_lse_loss la l p S lambda_reg mu_reg (x : list R) : res (option R) :=
  Ok (Some (lse_value la p S lambda_reg mu_reg (reshape l p (firstn (l * p) x)) (diag p (skipn (l * p) x)))).

(** models.py 481-525. *)
Definition fit_penalized_mle la (e : denv) (d : dataset) (lambda_reg mu_reg : R) (m : dev) : dev * res unit :=
  let p := n_feat d in let l := num_latent m p in
  match minimize e (penalized_mle_loss la l p (np_cov d) lambda_reg mu_reg) (start e) with
  | Err x => (m, Err x)
  | Ok x =>
      (Dev (one_pure_child m)
         (setattr "convergence_message_mle" AOther (setattr "convergence_success_mle" AOther
         (setattr "D_hat" (AMat (diag p (skipn (l * p) x)))
         (setattr "W_hat" (AMat (reshape l p (firstn (l * p) x)))
         (setattr "result" AOther (d_attrs m)))))), Ok tt)
  end.
(** models.py 543-579. *)
Definition fit_penalized_lse la (e : denv) (d : dataset) (lambda_reg mu_reg : R) (m : dev) : dev * res unit :=
  let p := n_feat d in let l := num_latent m p in
  match minimize e (penalized_lse_loss la l p (np_cov d) lambda_reg mu_reg) (start e) with
  | Err x => (m, Err x)
  | Ok x =>
      (Dev (one_pure_child m)
         (setattr "convergence_message_lse" AOther (setattr "convergence_success_lse" AOther
         (setattr "D_hat" (AMat (diag p (map Rabs (skipn (l * p) x))))
         (setattr "W_hat" (AMat (reshape l p (firstn (l * p) x)))
         (setattr "result" AOther (d_attrs m)))))), Ok tt)
  end.
(** models.py 621-629. *)
Definition dev_fit la (e : denv) (d : dataset) (method : string) (lambda_reg mu_reg : R) (m : dev) : dev * res unit :=
  if String.eqb method "mle" then fit_penalized_mle la e d lambda_reg mu_reg m
  else if String.eqb method "lse" then fit_penalized_lse la e d lambda_reg mu_reg m
  else (m, Err ValueError).

(** models.py 527-540. *)
Definition validation_mle la (lambda_reg mu_reg : R) (d : dataset) (m : dev) : res (option R) :=
  match getattr (d_attrs m) "W_hat", getattr (d_attrs m) "D_hat" with
  | Some (AMat W), Some (AMat D) => mle_value la (n_feat d) (np_cov d) lambda_reg mu_reg W D
  | _, _ => Err AttributeError
  end.
(** models.py 581-588. *)
Definition validation_lse la (lambda_reg mu_reg : R) (d : dataset) (m : dev) : res (option R) :=
  match getattr (d_attrs m) "W_hat", getattr (d_attrs m) "D_hat" with
  | Some (AMat W), Some (AMat D) => Ok (Some (lse_value la (n_feat d) (np_cov d) lambda_reg mu_reg W D))
  | _, _ => Err AttributeError
  end.

(** models.py 603-619: [L] and [E] are the draws of the two generators. *)
Definition dev_sample (n : nat) (method : string) (L E : nat -> nat -> R) (m : dev) : res (mat R) :=
  if negb (String.eqb method "mle" || String.eqb method "lse") then Err ValueError
  else
    let '(kw, kd) := if String.eqb method "mle" then ("W_hat_mle", "D_hat_mle") else ("W_hat_lse", "D_hat_lse") in
    if negb (hasattr (d_attrs m) kw) || negb (hasattr (d_attrs m) kd) then Err ValueError
    else match getattr (d_attrs m) kw with
         | Some (AMat W) => Ok (mk n (num_cols W) (fun s j =>
               rs (seq 0 (List.length W)) (fun k => L s k * rget W k j) + E s j))
         | _ => Err AttributeError
         end.

(** Histories of fit and sample calls. *)
Inductive dcall :=
| DFit (e : denv) (d : dataset) (method : string) (lambda_reg mu_reg : R)
| DSample (n : nat) (method : string).
Definition dstep la (c : dcall) (m : dev) : dev :=
  match c with
  | DFit e d method lam mu => fst (dev_fit la e d method lam mu m)
  | DSample _ _ => m
  end.
Definition drun la (h : list dcall) (m : dev) : dev := fold_left (fun m c => dstep la c m) h m.
