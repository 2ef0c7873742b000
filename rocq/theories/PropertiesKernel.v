(** C99: the Gauss kernel of the Gaussian-process generator. *)
From Coq Require Import Reals List Lra Lia Arith.
From Verif Require Import Base RSum GaussSpec KernelModel KernelProofs.
Import ListNotations.
Local Open Scope R_scope.

(** Entries: sigmay * exp(-|x_i - x_j|^2 / (2 sigmax^2)), hence a symmetric
    matrix with diagonal sigmay, values in (0, sigmay], equal to sigmay exactly
    for equal points, decreasing in the distance. *)
Theorem C99_kernel_entries :
  forall n d x sigmay sigmax, real_shape n d x -> sigmax <> 0 -> 0 < sigmay ->
  let K := compute_gauss_kernel x sigmay sigmax in
  let dist2 i j := rs (seq 0 d) (fun t => (rentry x i t - rentry x j t) ^ 2) in
  real_shape n n K /\
  forall i j, (i < n)%nat -> (j < n)%nat ->
    rentry K i j = sigmay * exp (- dist2 i j / (2 * sigmax ^ 2)) /\
    rentry K i j = rentry K j i /\ rentry K i i = sigmay /\
    0 < rentry K i j <= sigmay /\ (rentry K i j = sigmay <-> nth i x [] = nth j x []) /\
    forall k l, (k < n)%nat -> (l < n)%nat -> (rentry K i j < rentry K k l <-> dist2 k l < dist2 i j).
Proof.
  intros n d x sy sx Hx Hsx Hsy K dist2. split; [apply (kernel_shape n d); auto|]. intros i j Hi Hj.
  pose proof (kernel_range n d x Hx sy sx i j Hsx Hsy Hi Hj) as [R1 R2].
  pose proof (kernel_range n d x Hx sy sx i i Hsx Hsy Hi Hi) as [_ R3].
  split; [apply (kernel_entry n d); auto|].
  split; [unfold K; rewrite !(kernel_entry n d) by auto; rewrite sqd_sym; reflexivity|].
  split; [apply R3; reflexivity|]. split; [exact R1|]. split; [exact R2|].
  intros k l Hk Hl. apply (kernel_monotone n d); auto.
Qed.
Print Assumptions C99_kernel_entries.

(** A covariance matrix for every set of points ... *)
Theorem C99_kernel_positive_semidefinite :
  forall n d x sigmay sigmax (c : nat -> R), real_shape n d x -> sigmax <> 0 -> 0 <= sigmay ->
  0 <= rs (seq 0 n) (fun i => rs (seq 0 n) (fun j => c i * c j * rentry (compute_gauss_kernel x sigmay sigmax) i j)).
Proof. intros n d x sy sx c Hx. apply (kernel_psd n d); auto. Qed.
Print Assumptions C99_kernel_positive_semidefinite.

(** ... and an invertible one exactly when the points are distinct. *)
Theorem C99_kernel_positive_definite :
  forall n d x sigmay sigmax, real_shape n d x -> sigmax <> 0 -> 0 < sigmay ->
  ((forall c : nat -> R,
      rs (seq 0 n) (fun i => rs (seq 0 n) (fun j => c i * c j * rentry (compute_gauss_kernel x sigmay sigmax) i j)) = 0 ->
      forall i, (i < n)%nat -> c i = 0) <->
   (forall i j, (i < n)%nat -> (j < n)%nat -> i <> j -> nth i x [] <> nth j x [])).
Proof.
  intros n d x sy sx Hx Hsx Hsy. split.
  - intros H i j Hi Hj Hne E.
    set (c := fun k => if (k =? i)%nat then 1 else if (k =? j)%nat then -1 else 0).
    assert (K0 : c i = 0).
    { apply H; auto.
      assert (Hrow : forall k, (k < n)%nat -> rentry (compute_gauss_kernel x sy sx) k i = rentry (compute_gauss_kernel x sy sx) k j).
      { intros k Hk. rewrite !(kernel_entry n d) by auto. unfold sqd, rentry. rewrite E. reflexivity. }
      transitivity (rs (seq 0 n) (fun _ => 0)); [|apply rs_0]. apply rs_ext. intros k Hk. apply in_seq in Hk.
      transitivity (c k * rentry (compute_gauss_kernel x sy sx) k i - c k * rentry (compute_gauss_kernel x sy sx) k j);
        [|rewrite Hrow by lia; ring].
      transitivity (rs (seq 0 n) (fun t => if Nat.eqb i t then c k * rentry (compute_gauss_kernel x sy sx) k t else 0) -
                    rs (seq 0 n) (fun t => if Nat.eqb j t then c k * rentry (compute_gauss_kernel x sy sx) k t else 0)).
      - rewrite <- rs_sub. apply rs_ext. intros t _. unfold c at 2.
        rewrite (Nat.eqb_sym t i), (Nat.eqb_sym t j).
        destruct (Nat.eqb_spec i t) as [->|]; destruct (Nat.eqb_spec j t) as [->|]; try congruence; ring.
      - rewrite (rs_single (seq 0 n) i (fun t => c k * rentry (compute_gauss_kernel x sy sx) k t)),
          (rs_single (seq 0 n) j (fun t => c k * rentry (compute_gauss_kernel x sy sx) k t));
          auto; try apply seq_NoDup; apply in_seq; lia. }
    unfold c in K0. rewrite Nat.eqb_refl in K0. lra.
  - intros Hd c. apply (kernel_pd n d); auto.
Qed.
Print Assumptions C99_kernel_positive_definite.

(** Moving all points by the same vector changes nothing. *)
Theorem C99_kernel_translation :
  forall n d x v sigmay sigmax, real_shape n d x -> length v = d ->
  compute_gauss_kernel (map (fun row => map (fun ab => fst ab + snd ab) (combine row v)) x) sigmay sigmax =
  compute_gauss_kernel x sigmay sigmax.
Proof.
  intros n d x v sy sx Hx Hv. set (y := map _ x).
  assert (Hy : real_shape n d y).
  { destruct Hx as [H1 H2]. split; [unfold y; rewrite map_length; auto|]. intros row Hr. unfold y in Hr.
    apply in_map_iff in Hr. destruct Hr as (r & <- & Hr). rewrite map_length, combine_length, (H2 r Hr), Hv. lia. }
  assert (He : forall i t, (i < n)%nat -> (t < d)%nat -> rentry y i t = rentry x i t + nth t v 0).
  { intros i t Hi Ht. destruct Hx as [H1 H2]. unfold rentry, y.
    assert (Hl : length (nth i x []) = d) by (apply H2, nth_In; lia).
    rewrite nth_indep with (d' := map (fun ab => fst ab + snd ab) (combine [] v)) by (rewrite map_length; lia).
    rewrite (map_nth (fun row => map (fun ab => fst ab + snd ab) (combine row v))).
    rewrite nth_indep with (d' := (fun ab : R * R => fst ab + snd ab) (0, 0)) by (rewrite map_length, combine_length; lia).
    rewrite (map_nth (fun ab : R * R => fst ab + snd ab)).
    rewrite combine_nth by lia. reflexivity. }
  destruct (kernel_shape n d y Hy sy sx) as [A1 A2]. destruct (kernel_shape n d x Hx sy sx) as [B1 B2].
  apply (nth_ext _ _ [] []); [congruence|]. intros i Hi. rewrite A1 in Hi.
  apply (nth_ext _ _ 0 0).
  { rewrite A2, B2; auto; apply nth_In; lia. }
  intros j Hj. rewrite A2 in Hj by (apply nth_In; lia).
  change (rentry (compute_gauss_kernel y sy sx) i j = rentry (compute_gauss_kernel x sy sx) i j).
  rewrite !(kernel_entry n d) by auto. f_equal. f_equal. f_equal. f_equal. unfold sqd. apply rs_ext. intros t Ht.
  apply in_seq in Ht. rewrite !He by lia. ring.
Qed.
Print Assumptions C99_kernel_translation.

Example C99_instance : real_shape 3 2 [[0; 1]; [2; 1]; [0; 3]] /\ (2 <> 0 /\ 0 < 5) /\
  (forall i j, (i < 3)%nat -> (j < 3)%nat -> i <> j -> nth i [[0; 1]; [2; 1]; [0; 3]] [] <> nth j [[0; 1]; [2; 1]; [0; 3]] []).
Proof.
  split; [split; [reflexivity|intros r [<-|[<-|[<-|[]]]]; reflexivity]|]. split; [lra|].
  intros i j Hi Hj Hne. destruct i as [|[|[|i]]]; destruct j as [|[|[|j]]]; try lia; cbn; intros [=]; lra.
Qed.
