(** Toy scenarios: mocat/src/scenarios/toy_examples.py 119-149, mocat/src/
    scenarios/twodim/toy_examples.py 28-45, the one-dimensional benchmark of
    mocat/src/ssm/scenarios/nonlinear1d.py, and the search for axes limits of
    mocat/src/scenarios/twodim/vectorise.py.  Exact real arithmetic. *)
From Coq Require Import Reals List Arith Bool.
From Verif Require Import XR McmcModel.
Import ListNotations.
Open Scope R_scope.

(** [jnp.sum(..., axis=-1)] over [d] coordinates *)
Definition csum (d : nat) (f : nat -> R) : R := fold_right Rplus 0 (map f (seq 0 d)).

(** toy_examples.py 128-132 *)
Definition double_well (d : nat) (x : vec) : R := csum d (fun i => x i ^ 4) / 4 - csum d (fun i => x i ^ 2) / 2.
(** toy_examples.py 146-149; [dim] is the attribute *)
Definition rastrigin (dim : nat) (a : R) (x : vec) : R :=
  a * INR dim + csum dim (fun i => x i ^ 2 - a * cos (2 * PI * x i)).

(** twodim/toy_examples.py 32-36, with the attributes [curviness] (0.03) and
    [lengthiness] (100) *)
Definition banana (c l : R) (x0 x1 : R) : R := 1 / 2 * (x0 ^ 2 / l + (x1 + c * x0 ^ 2 - l * c) ^ 2).
(** 42-45 *)
Definition neal_funnel (x0 x1 : R) : R := 1 / 2 * (x1 ^ 2 / 3 + x0 ^ 2 * exp (- x1 / 2)).

(** * nonlinear1d.py; arrays of length one are numbers.  [gaussian_potential]
    (utils.py 49-105) of one number with the other arguments left out *)
Definition std_gaussian_potential (x : R) : R := 1 / 2 * ((x - 0) ^ 2 * 1) + (1 * ln (2 * PI) - ln 1) / 2.
(** 31-34 and 36-39; [z] is the standard normal draw *)
Definition n1_initial_potential (sd x : R) : R := std_gaussian_potential (x / sd).
Definition n1_initial_sample (sd z : R) : R := z * sd.
(** 41-46 *)
Definition n1_transition_mean (x t : R) : R := 1 / 2 * x + 25 * x / (1 + x ^ 2) + 8 * cos (12 / 10 * t).
(** 48-54 and 56-62 *)
Definition n1_transition_potential (sd x t x' t' : R) : R := std_gaussian_potential ((x' - n1_transition_mean x t) / sd).
Definition n1_transition_sample (sd x t t' z : R) : R := n1_transition_mean x t + z * sd.
(** 64-67 *)
Definition n1_likelihood_mean (x t : R) : R := x ^ 2 / 20.
(** 69-74 and 76-81 *)
Definition n1_likelihood_potential (sd x y t : R) : R := std_gaussian_potential ((y - n1_likelihood_mean x t) / sd).
Definition n1_likelihood_sample (sd x t z : R) : R := n1_likelihood_mean x t + z * sd.

(** The states of a simulated path: times [t 0], [t 1], ... and draws [z] *)
Fixpoint n1_path (isd tsd : R) (t z : nat -> R) (j : nat) : R :=
  match j with
  | O => n1_initial_sample isd (z 0%nat)
  | S j' => n1_transition_sample tsd (n1_path isd tsd t z j') (t j') (t j) (z j)
  end.

(** * vectorise.py 18-89.  [dens x y] is [exp(-potential)] as computed, a number
    (NaN raises, lines 67-68).  [linspace] has [n] points, 100 in the code. *)
Section Axes.
Variable dens : R -> R -> R.
Variable n : nat.
Definition linspace (lim : R) (i : nat) : R := - lim + INR i * (2 * lim) / INR (n - 1).
(** 60-66; the row is the second coordinate (vec_potential, lines 48-52) *)
Definition z_grid (xlim ylim : R) (r c : nat) : R := dens (linspace xlim c) (linspace ylim r).
Definition grid_max (xlim ylim : R) : R :=
  fold_right Rmax (z_grid xlim ylim 0 0)
    (map (fun rc => z_grid xlim ylim (fst rc) (snd rc)) (list_prod (seq 0 n) (seq 0 n))).
(** 74 *)
Definition z_keep (xlim ylim : R) (r c : nat) : bool := Rltb (grid_max xlim ylim / 10) (z_grid xlim ylim r c).
(** 18-29 on a matrix with [n] rows: [None] is an index error (past the end, or
    below minus [n]) *)
Definition has_row (m : nat -> nat -> bool) (r : nat) : bool := existsb (m r) (seq 0 n).
Definition find_row (m : nat -> nat -> bool) (forward : bool) : option nat :=
  find (has_row m) (if forward then seq 0 n else rev (seq 0 n)).

(** [xlim in jnp.abs(...)], one entry *)
Definition touches (l v : R) : bool := if Req_EM_T l (Rabs v) then true else false.

(** 54-89: [fuel] bounds the recursion depth, [None] when it is exceeded (the
    interpreter raises) or an index is out of range.  Result: the limits stored
    in [self.xlim] and [self.ylim] (88-89); lines 86-87 change only the
    arguments. *)
Fixpoint auto_axes_lims (fuel : nat) (xlim ylim : R) : option ((R * R) * (R * R)) :=
  match fuel with
  | O => None
  | S fuel' =>
      if Req_EM_T (grid_max xlim ylim) 0 then auto_axes_lims fuel' (xlim / (3 / 2)) (ylim / (3 / 2))
      else
        let keep := z_keep xlim ylim in
        match find_row (fun r c => keep c r) true, find_row (fun r c => keep c r) false,
              find_row keep true, find_row keep false with
        | Some i0, Some i1, Some j0, Some j1 =>
            let xn := (linspace xlim i0, linspace xlim i1) in
            let yn := (linspace ylim j0, linspace ylim j1) in
            let on l p := touches l (fst p) || touches l (snd p) in
            if on xlim xn || on ylim yn
            then auto_axes_lims fuel' (if on xlim xn then 2 * xlim else xlim) (if on ylim yn then 2 * ylim else ylim)
            else Some (xn, yn)
        | _, _, _, _ => None
        end
  end.
End Axes.
