(** The median bandwidth, mocat/src/kernels.py 220-224 with utils.py 437-439.
    (The mean bandwidth, 227-229, is in KernelModel.)  Exact numbers; at least
    one particle. *)
From Coq Require Import Reals List Arith.
From Verif Require Import McmcModel KernelModel.
Import ListNotations.
Open Scope R_scope.

(** sorting, as inside [jnp.median] *)
Fixpoint rinsert (x : R) (l : list R) : list R :=
  match l with
  | [] => [x]
  | y :: l' => if Rle_dec x y then x :: l else y :: rinsert x l'
  end.
Definition rsort (l : list R) : list R := fold_right rinsert [] l.

(** [jnp.median]: the mean of the two middle entries, which for an odd number
    are the same one *)
Definition median (l : list R) : R :=
  (nth ((length l - 1) / 2) (rsort l) 0 + nth (length l / 2) (rsort l) 0) / 2.

(** utils.py 437-439, the entries of [l2_distance_matrix], row by row *)
Definition distances (d n : nat) (vals : nat -> vec) : list R :=
  concat (map (fun i => map (fun j => l2_dist d (vals i) (vals j)) (seq 0 n)) (seq 0 n)).

(** kernels.py 220-224 *)
Definition median_bandwidth (d n : nat) (vals : nat -> vec) : R :=
  median (distances d n vals) / sqrt (2 * ln (INR n)).
