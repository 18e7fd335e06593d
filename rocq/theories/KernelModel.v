(** Kernels, mocat/src/kernels.py, the kernelised Stein discrepancy of
    mocat/src/metrics.py and the direction of Stein variational gradient descent,
    mocat/src/transport/svgd.py.

    Points are vectors of a dimension [d], as functions of the index; exact real
    arithmetic. *)
From Coq Require Import Reals List Arith.
From Verif Require Import Keys McmcModel.
Import ListNotations.
Open Scope R_scope.

(** [jnp.sum] of a one-dimensional array *)
Fixpoint vsum (d : nat) (f : nat -> R) : R := match d with O => 0 | S d' => vsum d' f + f d' end.
Definition vdot (d : nat) (a b : vec) : R := vsum d (fun i => a i * b i).

(** * Gaussian, 82-116.  The bandwidth is a vector; a number is a constant one. *)
Section Gaussian.
  Variable d : nat.
  Variable b : vec.
  Definition gaussian_call (x y : vec) : R := exp (- (1 / 2) * vsum d (fun i => ((x i - y i) / b i) ^ 2)).
  Definition gaussian_grad_x (x y : vec) : vec := fun i => (y i - x i) * gaussian_call x y / b i ^ 2.
  Definition gaussian_grad_y (x y : vec) : vec := fun i => (x i - y i) * gaussian_call x y / b i ^ 2.
  Definition gaussian_diag (x y : vec) : vec :=
    fun i => (b i ^ 2 - (x i - y i) ^ 2) * gaussian_call x y / b i ^ 4.
End Gaussian.

(** * PreconditionedGaussian, 119-162 *)
Section Preconditioned.
  Variable d : nat.
  Variable b : R.
  Variable P : nat -> nat -> R.
  Definition pg_call (x y : vec) : R :=
    let diff := fun i => (x i - y i) / b in
    exp (- (1 / 2) * vsum d (fun j => vsum d (fun i => diff i * P i j) * diff j)).
  Definition pg_grad_x (x y : vec) : vec :=
    fun i => vsum d (fun j => P i j * (y j - x j)) / b ^ 2 * pg_call x y.
  Definition pg_grad_y (x y : vec) : vec :=
    fun i => vsum d (fun j => P i j * (x j - y j)) / b ^ 2 * pg_call x y.
  (** 154-162: [1 - precision * diff ** 2] is a matrix, so the result is one *)
  Definition pg_diag (x y : vec) : nat -> nat -> R :=
    fun i k => vsum d (fun j => P i j / b ^ 2 * (1 - P j k * ((x k - y k) / b) ^ 2)) * pg_call x y.
End Preconditioned.

(** * IMQ, 165-217; [jnp.power] of a positive base *)
Section IMQ.
  Variable d : nat.
  Variables c beta : R.
  Variable b : vec.
  Definition imq_base (x y : vec) : R := c + 1 / 2 * vsum d (fun i => ((x i - y i) / b i) ^ 2).
  Definition imq_call (x y : vec) : R := Rpower (imq_base x y) beta.
  Definition imq_grad_x (x y : vec) : vec :=
    fun i => (x i - y i) / b i * beta * Rpower (imq_base x y) (beta - 1).
  Definition imq_grad_y (x y : vec) : vec :=
    fun i => - ((x i - y i) / b i) / b i * beta * Rpower (imq_base x y) (beta - 1).
  Definition imq_diag (x y : vec) : vec :=
    fun i => (- beta * Rpower (imq_base x y) (beta - 1)
              + beta * (beta - 1) * ((x i - y i) / b i) ^ 2 * Rpower (imq_base x y) (beta - 2)) / b i ^ 2.
End IMQ.

(** What users of a kernel call; [k_diag_sum] is the sum of all entries of
    [diag_grad_xy] *)
Record kernel : Type := Kernel {
  k_call : vec -> vec -> R;
  k_grad_x : vec -> vec -> vec;
  k_grad_y : vec -> vec -> vec;
  k_diag_sum : vec -> vec -> R }.
Definition gaussian (d : nat) (b : vec) : kernel :=
  Kernel (gaussian_call d b) (gaussian_grad_x d b) (gaussian_grad_y d b) (fun x y => vsum d (gaussian_diag d b x y)).
Definition preconditioned (d : nat) (b : R) (P : nat -> nat -> R) : kernel :=
  Kernel (pg_call d b P) (pg_grad_x d b P) (pg_grad_y d b P)
         (fun x y => vsum d (fun i => vsum d (fun k => pg_diag d b P x y i k))).
Definition imq (d : nat) (c beta : R) (b : vec) : kernel :=
  Kernel (imq_call d c beta b) (imq_grad_x d c beta b) (imq_grad_y d c beta b) (fun x y => vsum d (imq_diag d c beta b x y)).

(** * metrics.py 88-130, [ksd].  Log weights are finite; the random batches are
    given. *)
Section Ksd.
  Variable d : nat.
  Variable K : kernel.
  Variable n : nat.
  Variable vals grads : nat -> vec.
  Variable log_weight : option (nat -> R).
  Variable batch : nat -> list nat.

  (** 109-112 *)
  Definition ksd_weight (i : nat) : R := match log_weight with Some l => exp (l i) | None => 1 end.

  (** 116-124 *)
  Definition k_0 (i j : nat) : R :=
    k_diag_sum K (vals i) (vals j)
    + vdot d (k_grad_x K (vals i) (vals j)) (grads j)
    + vdot d (grads i) (k_grad_y K (vals i) (vals j))
    + k_call K (vals i) (vals j) * vdot d (grads i) (grads j).

  Definition lsum (l : list nat) (f : nat -> R) : R := fold_right (fun i s => f i + s) 0 l.

  (** 114, 123-130: the number under the square root *)
  Definition ksd_squared : R :=
    vsum n (fun i => lsum (batch i) (fun j =>
      k_0 i j * ksd_weight i * ksd_weight j / (vsum n ksd_weight * lsum (batch i) ksd_weight))).
  Definition ksd : R := sqrt ksd_squared.
End Ksd.
(** 103-104: all indices *)
Definition full_batch (n : nat) : nat -> list nat := fun _ => seq 0 n.

(** * svgd.py 18-32 *)
Definition kernelised_grad (K : kernel) (vals grads : nat -> vec) (batch : nat -> list nat) (i : nat) : vec :=
  fun c => lsum (batch i) (fun j => - k_call K (vals j) (vals i) * grads j c + k_grad_x K (vals j) (vals i) c)
           / INR (length (batch i)).

(** * svgd.py 77-107: the batch size of a sampler object.  [startup] returns
    the new attribute and whether the run uses all particles. *)
Definition svgd_startup (n : nat) (batchsize : option nat) : option nat * bool :=
  let bs := match batchsize with None => n | Some m => m end in
  (Some bs, Nat.eqb bs n).
Fixpoint svgd_runs (ns : list nat) (batchsize : option nat) : list bool :=
  match ns with
  | [] => []
  | n :: ns' => let r := svgd_startup n batchsize in snd r :: svgd_runs ns' (fst r)
  end.

(** * kernels.py 227-229 with utils.py 437-439, [mean_bandwidth_update] *)
Definition l2_dist (d : nat) (x y : vec) : R := sqrt (vsum d (fun i => (x i - y i) ^ 2)).
Definition mean_bandwidth (d n : nat) (vals : nat -> vec) : R :=
  vsum n (fun i => vsum n (fun j => l2_dist d (vals i) (vals j))) / (INR n * INR n) / sqrt (2 * ln (INR n)).
