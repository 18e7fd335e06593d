(** Model of runs of Stein variational gradient descent: mocat/src/transport/
    svgd.py 35-146, mocat/src/transport/sampler.py 15-35 and 47-50, and the
    default optimiser [adagrad] of jax.example_libraries.optimizers, which is
    not part of the repository: it is written here as documented by jax.

    Particles are functions of the index with values in [vec]; exact real
    arithmetic, in which a bandwidth of zero (one particle, or all particles at
    one point) is divided by without giving NaN. *)
From Coq Require Import Reals List Arith.
From Verif Require Import Keys McmcModel LoopModel KernelModel.
Import ListNotations.
Open Scope R_scope.

Definition arr := nat -> vec.

(** * adagrad(step_size, momentum=0.9): each entry on its own *)
Record ada : Type := Ada { ada_x : arr; ada_sq : arr; ada_m : arr }.
Definition adagrad_init (x0 : arr) : ada := Ada x0 (fun _ _ => 0) (fun _ _ => 0).
Definition adagrad_update (step : nat -> R) (mom : R) (i : nat) (g : arr) (s : ada) : ada :=
  let sq := fun p c => ada_sq s p c + g p c ^ 2 in
  let inv := fun p c => if Rlt_dec 0 (sq p c) then 1 / sqrt (sq p c) else 0 in
  let m := fun p c => (1 - mom) * (g p c * inv p c) + mom * ada_m s p c in
  Ada (fun p c => ada_x s p c - step i * m p c) sq m.

(** The optimiser state after [t] updates with the gradients [g 0], [g 1], ...;
    the update is called with the iteration number, which starts at 1 (svgd.py 129, 138) *)
Fixpoint ada_iter (step : nat -> R) (mom : R) (x0 : arr) (g : nat -> arr) (t : nat) : ada :=
  match t with
  | 0 => adagrad_init x0
  | S t' => adagrad_update step mom (S t') (g t') (ada_iter step mom x0 g t')
  end.

(** An optimiser of jax.example_libraries: [opt_init, opt_update, get_params] *)
Record optimiser (S : Type) : Type := Optimiser {
  opt_init : arr -> S;
  opt_update : nat -> arr -> S -> S;
  get_params : S -> arr }.
Arguments Optimiser {S}. Arguments opt_init {S}. Arguments opt_update {S}. Arguments get_params {S}.
Definition adagrad (step : nat -> R) (mom : R) : optimiser ada :=
  Optimiser adagrad_init (adagrad_update step mom) ada_x.

Section Svgd.
  Variable d n : nat.
  Variable O : Type.
  Variable opt : optimiser O.
  (** [scenario.potential_and_grad] *)
  Variable potential_and_grad : vec -> key -> R * vec.
  Variable KP : Type.
  (** [kernel] applied to the parameters, and [adapt] (35-39, or the default that
      does nothing, 109-113) on the kernel parameters *)
  Variable kern : KP -> kernel.
  Variable adapt : arr -> KP -> KP.
  (** 89-92 *)
  Variable batch : key -> nat -> list nat.

  (** [ensemble_state] and [extra] *)
  Record est : Type := Est { value : arr; potential : nat -> R; grad : arr; kparams : KP }.
  Record ext : Type := Ext { iter : nat; rkey : key; opt_state : O }.

  (** 77-107 after [TransportSampler.startup] gave the initial values; the
      kernel parameters are held by the extra, and recorded in the state by
      [adapt] *)
  Definition svgd_start (x0 : arr) (kp : KP) (k : key) : est * ext :=
    let pg i := potential_and_grad (x0 i) (KSplit k (n + 1) i) in
    (Est x0 (fun i => fst (pg i)) (fun i => snd (pg i)) (adapt x0 kp),
     Ext 0 (KSplit k (n + 1) n) (opt_init opt x0)).

  (** 122-146 *)
  Definition svgd_update (s : est) (e : ext) : est * ext :=
    let it := S (iter e) in
    let key_ i := KSplit (rkey e) (n + 2) i in
    let phi_hat := kernelised_grad (kern (kparams s)) (value s) (grad s) (batch (key_ (n + 1)%nat)) in
    let os := opt_update opt it (fun p c => - phi_hat p c) (opt_state e) in
    let x := get_params opt os in
    let pg i := potential_and_grad (x i) (key_ i) in
    (Est x (fun i => fst (pg i)) (fun i => snd (pg i)) (adapt x (kparams s)),
     Ext it (key_ n) os).

  (** sample.py 110-148 with the criterion of transport/sampler.py 47-50 *)
  Definition svgd_run (x0 : arr) (kp : KP) (k : key) (max_iter : nat) : list est :=
    run_loop (fun _ e => (max_iter <=? iter e)%nat) svgd_update (svgd_start x0 kp k) max_iter.
End Svgd.
Arguments Est {KP}. Arguments value {KP}. Arguments potential {KP}. Arguments grad {KP}. Arguments kparams {KP}.
Arguments Ext {O}. Arguments iter {O}. Arguments rkey {O}. Arguments opt_state {O}.

(** 35-39: the default adaptation sets the bandwidth of a Gaussian kernel; the
    number is a constant vector *)
Definition adapt_bandwidth_mean (d n : nat) (x : arr) (b : vec) : vec := fun _ => mean_bandwidth d n x.

(** [SVGD(stepsize)] with the defaults: Gaussian kernel with adapted bandwidth,
    all particles as batch, adagrad with momentum 0.9 *)
Definition svgd_default (d n : nat) (step : nat -> R) (pg : vec -> key -> R * vec) :=
  svgd_run n ada (adagrad step (9 / 10)) pg vec (gaussian d) (adapt_bandwidth_mean d n) (fun _ => full_batch n).

(** transport/sampler.py 22-28: values when no initial state is given; the key
    left for the rest of the startup is the first of the two *)
Definition initial_values (prior : option (key -> vec)) (normal : key -> nat -> vec) (n : nat) (k : key) : arr * key :=
  let sub_key := KSplit k 2 1 in
  (match prior with
   | Some p => fun i => p (KSplit sub_key n i)
   | None => normal sub_key
   end, KSplit k 2 0).
