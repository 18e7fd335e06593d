(** Specification of what the recorded ensembles of an ABC-SMC run estimate. *)
From Coq Require Import Reals List Bool.
From Verif Require Import XR Keys McmcModel WeightsSpec UnbSpec AbcModel.
Import ListNotations.
Open Scope R_scope.

Section Est.
  Context {Data : Type}.
  Notation core := (abc_core (Data := Data)).
  Notation ens := (aensemble (Data := Data)).

  (** sum of [f] over the particles of weight one; how many there are *)
  Definition alive_sum (f : core -> R) (E : ens) : R := Rsum (map (fun p => weight (q_lw p) * f (q_core p)) E).
  Definition alive (E : ens) : R := alive_sum (fun _ => 1) E.
  Definition alive_mean (f : core -> R) (E : ens) : R := alive_sum f E / alive E.

  (** the update from [E] resamples *)
  Definition resamples (rthr : R) (E : ens) : bool :=
    match E with [] => false | p :: _ => xltb (q_ess p) (Fin (rthr * INR (length E))) end.

  (** the share of the particles moved by the update from [E] to [E'] that meet
      the new threshold *)
  Definition share (rthr : R) (E E' : ens) : R :=
    alive E' / (if resamples rthr E then INR (length E) else alive E).

  (** the estimated probability of meeting the last threshold: the share of the
      prior draws that meet the first, times the later shares *)
  Fixpoint shares (rthr : R) (E : ens) (r : list ens) : R :=
    match r with
    | [] => 1
    | E' :: r' => share rthr E E' * shares rthr E' r'
    end.
  Definition mass (rthr : R) (chain : list ens) : R :=
    match chain with
    | [] => 0
    | E :: r => alive E / INR (length E) * shares rthr E r
    end.
  Definition abc_estimate (rthr : R) (chain : list ens) (f : core -> R) : R :=
    mass rthr chain * alive_mean f (last chain []).

  (** expected value over a prior draw with its simulated data *)
  Definition prior_mean {W} (P : law W) (psamp : W -> vec) (pr : vec -> W -> xr) (lik : vec -> W -> Data) (dist : Data -> xr) (f : core -> R) : R :=
    mean P (fun a => mean P (fun b => mean P (fun c => let x := psamp a in f (ABC x (pr x b) (lik x c) (dist (lik x c)))))).

  (** [distance <= thr] *)
  Definition within_thr (thr : xr) (c : core) : R := if xleb (a_dist c) thr then 1 else 0.
End Est.

(** [random.categorical] at one key, with weights one and zero: [n] independent
    indices, uniform on those of weight one *)
Definition index_law (bs : list bool) : law nat :=
  let on := filter (fun i => nth i bs false) (seq 0 (length bs)) in
  map (fun i => (i, / INR (length on))) on.
Definition uniform_indices {W} (P : law W) (cat : W -> list xr -> nat -> list nat) (n : nat) : Prop :=
  forall bs, length bs = n -> In true bs -> forall phi,
  mean P (fun x => phi (cat x (map (fun b : bool => if b then Fin 0 else NInf) bs) n)) = expect (repeat (index_law bs) n) phi.
