(** Specification of the draws of a particle filter's run, and of the quantities
    read off its output. *)
From Coq Require Import Reals List Arith Bool.
From Verif Require Import XR Keys WeightsSpec UnbSpec FilterModel PfSpec.
Import ListNotations.
Open Scope R_scope.

Section Spec.
  Context {X Tm : Type}.
  Variable dx : X.
  Variable supp : list X.

  (** * Reading the output: one time after the other *)
  Fixpoint rows (v : list (list X)) (lw : list (list xr)) (ts : list Tm) (ys : list obs) (es : list xr) : list (marginal X Tm) :=
    match v, lw, ts, ys, es with
    | x :: v', a :: lw', t :: ts', y :: ys', e :: es' => Marginal x a t y e :: rows v' lw' ts' ys' es'
    | _, _, _, _, _ => []
    end.
  Definition recorded (p : particles X Tm) : list (marginal X Tm) :=
    match observed p with
    | Rows ys => rows (value p) (log_weight p) (times p) ys (ess p)
    | Flat _ => []
    end.
  (** what [G] makes of the first and the later times of a run; 0 if it raises *)
  Definition of_run (G : marginal X Tm -> list (marginal X Tm) -> R) (o : option (particles X Tm)) : R :=
    match o with
    | Some p => match recorded p with s :: ms => G s ms | [] => 0 end
    | None => 0
    end.

  (** * The states a run with [n] particles in [supp] can be in, whatever is
      drawn, with the observations still to come *)
  Variable F : pfilter X Tm.
  Variable thr : R.
  Variable n : nat.
  Inductive visited (y0 : obs) (t0 : Tm) (yts : list (obs * Tm)) : list (obs * Tm) -> marginal X Tm -> Prop :=
  | visited_start vs k s :
      length vs = n -> incl vs supp ->
      last_marginal (initiate_particles (with_initial dx F vs) n k y0 t0) = Some s ->
      visited y0 t0 yts yts s
  | visited_step y t r s idx ys k :
      visited y0 t0 yts ((y, t) :: r) s ->
      length idx = n -> List.Forall (fun i => (i < n)%nat) idx -> length ys = n -> incl ys supp ->
      visited y0 t0 yts r (filter_body dx (indices idx) (with_proposals dx F ys) thr n s y t k).

  (** [random.categorical] at one key: [n] independent draws with probabilities
      proportional to the weights *)
  Definition multinomial_draws {W} (P : law W) (cat : W -> list xr -> nat -> list nat) (lw : list xr) : Prop :=
    forall phi, mean P (fun x => phi (cat x lw n)) = expect (repeat (index_law lw) n) phi.
End Spec.
