(** Backward simulation, mocat/src/ssm/backward.py, and the rejection loop it
    shares with mocat/src/ssm/online_smoothing.py.

    [maximum_rejections] is a natural number: the callers take the other branch
    when it is not positive.  [None] is a raised exception. *)
From Coq Require Import Reals List Arith Bool.
From Verif Require Import XR Keys HmcModel SmcModel FilterModel.
Import ListNotations.
Open Scope R_scope.

Definition count_true (l : list bool) : nat := length (filter (fun b => b) l).

(** [jnp.max], NaN if any entry is *)
Definition xmax2 (a b : xr) : xr :=
  match a, b with
  | NaN, _ | _, NaN => NaN
  | _, _ => if xltb a b then b else a
  end.
Definition xmaxl (l : list xr) : xr := fold_right xmax2 NInf l.

(** [a / b] *)
Definition xquot (a b : xr) : xr :=
  match b with
  | Fin t => xdiv a t
  | NaN => NaN
  | _ => match a with Fin _ => Fin 0 | _ => NaN end
  end.

(** * Rejection, backward.py 58-171 and online_smoothing.py 59-174

    The two files differ in what is drawn: here for target [i] of [n] a
    candidate of type [A] whose conditional density is [dens i a].  In
    backward.py a candidate is a state at the earlier time, in
    online_smoothing.py the index of a trajectory. *)
Section Rejection.
  Context {A : Type}.
  Variable pick : key -> A.                     (* a candidate drawn from the weights *)
  Variable pick_n : key -> nat -> list A.       (* [n] of them with one key *)
  Variable dens : nat -> A -> xr.
  Variable full : nat -> key -> A.              (* a draw from the exact conditional law *)
  Variable uniform : key -> R.
  Variable uniform_n : key -> nat -> list R.
  Variable inflation : R.

  Record rstate : Type := RState {
    not_yet : list bool;
    sampled : list A;
    bound : xr;
    rkeys : list key;
    riter : nat;
    evals : nat }.

  (** backward.py 58-89, online 59-90 *)
  Definition proposal_cond (b : xr) (i : nat) (nya : bool) (a : A) (k : key) : A * xr * bool * key :=
    if nya then
      let a' := pick (KSplit k 3 1) in
      let d := dens i a' in
      (a', d, xltb (xquot d b) (Fin (uniform (KSplit k 3 2))), KSplit k 3 0)
    else (a, Fin 0, false, k).

  Fixpoint map4 (f : nat -> bool -> A -> key -> A * xr * bool * key) (i : nat)
    (l1 : list bool) (l2 : list A) (l3 : list key) : list (A * xr * bool * key) :=
    match l1, l2, l3 with
    | b :: l1', a :: l2', k :: l3' => f i b a k :: map4 f (S i) l1' l2' l3'
    | _, _, _ => []
    end.

  (** backward.py 92-124, online 93-126 *)
  Definition proposal_all (st : rstate) : rstate :=
    let tup := map4 (proposal_cond (bound st)) 0 (not_yet st) (sampled st) (rkeys st) in
    let max_dens := xmaxl (map (fun x => snd (fst (fst x))) tup) in
    let reset := xltb (bound st) max_dens in
    RState (if reset then map (fun _ => true) tup else map (fun x => snd (fst x)) tup)
           (map (fun x => fst (fst (fst x))) tup)
           (if reset then xmul max_dens (Fin inflation) else bound st)
           (map snd tup)
           (S (riter st))
           (evals st + count_true (not_yet st)).

  (** the condition of the loop, backward.py 148, online 150 *)
  Definition continue (maxrej : nat) (st : rstate) : bool :=
    andb (Nat.ltb 0 (count_true (not_yet st))) (Nat.ltb (riter st) maxrej).

  (** [fuel] bounds the iterations; it is proved never to run out *)
  Fixpoint rej_loop (fuel maxrej : nat) (st : rstate) : rstate :=
    match fuel with
    | O => st
    | S f => if continue maxrej st then rej_loop f maxrej (proposal_all st) else st
    end.

  (** backward.py 137-156, online 139-159 *)
  Definition rej_start (n : nat) (k : key) (init_bound : R) : rstate :=
    let a0 := pick_n (KSplit k 3 0) n in
    let d0 := map (fun ia => dens (fst ia) (snd ia)) (combine (seq 0 n) a0) in
    let m := xmaxl d0 in
    let b := if xltb (Fin init_bound) m then xmul m (Fin inflation) else Fin init_bound in
    RState (map (fun du => xltb (xquot (fst du) b) (Fin (snd du))) (combine d0 (uniform_n (KSplit k 3 1) n)))
           a0 b (split_keys (KSplit k 3 2) n 0 n) 1 n.

  (** backward.py 127-171, online 129-174; [n0] is the number of candidates *)
  Definition rejection (n n0 : nat) (k : key) (maxrej : nat) (init_bound : R) : list A * nat :=
    let st := rej_loop maxrej maxrej (rej_start n k init_bound) in
    (map (fun x => fst (fst (fst x)))
         (map4 (fun i nya a k => (if nya then full i k else a, Fin 0, false, k)) 0 (not_yet st) (sampled st) (rkeys st)),
     (evals st + n0 * count_true (not_yet st))%nat).
End Rejection.

(** * Backward simulation *)
Section Backward.
  Context {X Tm : Type}.
  Variable dx : X.
  Variable transition_potential : X -> Tm -> X -> Tm -> xr.
  Variable categorical : key -> list xr -> nat -> list nat.
  (** [random.categorical] without a shape *)
  Variable categorical1 : key -> list xr -> nat.
  Variable uniform : key -> R.
  Variable uniform_n : key -> nat -> list R.

  (** 20-29 *)
  Definition full_resample_single (x0 : list X) (t : Tm) (x1 : X) (t1 : Tm) (lw : list xr) (k : key) : X :=
    let lw' := map (fun lx => xsub (fst lx) (transition_potential (snd lx) t x1 t1)) (combine lw x0) in
    nth (categorical1 k lw') x0 dx.

  (** 32-40 *)
  Definition full_resampling (x0 : list X) (t : Tm) (x1 : list X) (t1 : Tm) (lw : list xr) (k : key) : list X :=
    map (fun xk => full_resample_single x0 t (fst xk) t1 lw (snd xk))
        (combine x1 (split_keys k (length x1) 0 (length x1))).

  (** 127-171 *)
  Definition rejection_resampling (x0 : list X) (t : Tm) (x1 : list X) (t1 : Tm) (lw : list xr) (k : key)
    (maxrej : nat) (init_bound inflation : R) : list X * nat :=
    rejection (fun k => nth (categorical1 k lw) x0 dx)
              (fun k n => take dx x0 (categorical k lw n))
              (fun i a => xexp (xopp (transition_potential a t (nth i x1 dx) t1)))
              (fun i k => full_resample_single x0 t (nth i x1 dx) t1 lw k)
              uniform uniform_n inflation (length x1) (length x0) k maxrej init_bound.

  (** the scan over times, latest first, 193-203 and 230-237 *)
  Fixpoint back_scan {E} (body : nat -> list X -> list X * E) (inds : list nat) (x1 : list X) : list (list X * E) :=
    match inds with
    | [] => []
    | ind :: r => let o := body ind x1 in o :: back_scan body r (fst o)
    end.

  (** 174-211 and 214-243: values of the sampled trajectories and evaluation
      counts; [V], [W], [ts] are the filter's states, log weights and times *)
  Definition back_sim (body : list (list X) -> list (list xr) -> list Tm -> key -> nat -> list X -> list X * nat)
    (V : list (list X)) (W : list (list xr)) (ts : list Tm) (n_samps : nat) (k : key)
    : option (list (list X) * list nat) :=
    match length V with
    | O => None
    | S T' =>
        let xT := take dx (nth T' V []) (categorical (KSplit k (S T') T') (nth T' W []) n_samps) in
        let outs := back_scan (fun ind => body V W ts (KSplit k (S T') ind) ind) (rev (seq 0 T')) xT in
        Some (rev (map fst outs) ++ [xT], 0%nat :: rev (map snd outs))
    end.

  (** the time read at an index out of range: never seen *)
  Variable dt : Tm.

  Definition body_full (V : list (list X)) (W : list (list xr)) (ts : list Tm) (k : key) (ind : nat) (x1 : list X)
    : list X * nat :=
    (full_resampling (nth ind V []) (nth ind ts dt) x1 (nth (S ind) ts dt) (nth ind W []) k,
     (length (nth 0 V []) * length x1)%nat).

  Definition body_rejection (maxrej : nat) (init_bound inflation : R)
    (V : list (list X)) (W : list (list xr)) (ts : list Tm) (k : key) (ind : nat) (x1 : list X) : list X * nat :=
    rejection_resampling (nth ind V []) (nth ind ts dt) x1 (nth (S ind) ts dt) (nth ind W []) k
                         maxrej init_bound inflation.

  (** 246-270 *)
  Definition backward_simulation (V : list (list X)) (W : list (list xr)) (ts : list Tm) (k : key) (n_samps : option nat)
    (maxrej : nat) (init_bound inflation : R) : option (list (list X) * list nat) :=
    let n := match n_samps with Some n => n | None => length (nth 0 V []) end in
    if Nat.ltb 0 maxrej then back_sim (body_rejection maxrej init_bound inflation) V W ts n k
    else back_sim body_full V W ts n k.
End Backward.

(** 273-315 without the clock *)
Definition ffbs {X Tm} (dx : X) (dt : Tm) transition_potential categorical categorical1 uniform uniform_n
  (F : pfilter X Tm) (ys : list obs) (ts : list Tm) (n_samps : nat) (k : key) (n_pf : option nat)
  (thr : R) (maxrej : nat) (init_bound inflation : R) : option (list (list X) * list nat) :=
  let n := match n_pf with Some n => n | None => n_samps end in
  match run_particle_filter dx categorical F n ys ts (KSplit k 2 0) thr with
  | None => None
  | Some p => backward_simulation dx transition_potential categorical categorical1 uniform uniform_n dt
                (value p) (log_weight p) (times p) (KSplit k 2 1) (Some n_samps) maxrej init_bound inflation
  end.
