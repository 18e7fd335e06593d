(** Model of the limited-memory BFGS square-root products, mocat/src/utils.py
    318-434.  Vectors are column matrices over the reals.  A NaN anywhere in the
    output of [bfgs_sqrt_pqut] makes the model's result [None] (the only source
    is the square root of a negative number, lines 357-358).  The damping [r] is
    a real number or minus infinity ([None], the default of line 368); plus
    infinity and NaN are not modelled. *)
From Coq Require Import Reals.
From mathcomp Require Import ssreflect ssrfun ssrbool eqtype ssrnat seq choice fintype bigop ssralg matrix.
From Verif Require Import XR RStruct.
Set Implicit Arguments.
Unset Strict Implicit.
Import GRing.Theory.
Local Open Scope ring_scope.

Section Bfgs.
Variable d : nat.
Notation vect := 'cV[R]_d.

(** [jnp.dot] of two vectors *)
Definition dot (a b : vect) : R := \sum_i a i ord0 * b i ord0.
(** elementwise product *)
Definition dmul (a b : vect) : vect := \col_i (a i ord0 * b i ord0).

(** an initial diagonal: a number or a vector *)
Inductive idiag := IScalar (c : R) | IVector (v : vect).
Definition dvec (D : idiag) : vect := if D is IVector v then v else const_mx (if D is IScalar c then c else 0).
Definition dinv (D : idiag) : idiag :=
  match D with IScalar c => IScalar c^-1 | IVector v => IVector (\col_i (v i ord0)^-1) end.

(** lines 375-383 *)
Definition sqrt_prod (ps qs : seq vect) (z : vect) (D : idiag) : vect :=
  foldl (fun c pq => c - dot pq.2 c *: pq.1) (dmul (dvec D) z) (zip ps qs).

(** lines 393-401 *)
Definition sqrt_transpose_prod (ps qs : seq vect) (z : vect) (D : idiag) : vect :=
  dmul (dvec D) (foldl (fun c pq => c - dot pq.1 c *: pq.2) z (rev (zip ps qs))).

(** lines 411-415: [jnp.prod] of a number is that number *)
Definition sqrt_det (ps qs : seq vect) (D : idiag) : R :=
  (match D with IScalar c => c | IVector v => \prod_i v i ord0 end)
  * \prod_(pq <- zip ps qs) (1 - dot pq.1 pq.2).

(** lines 424-428 *)
Definition sqrt_log_abs_det (ps qs : seq vect) (D : idiag) : R :=
  (match D with IScalar c => ln (Rabs c) | IVector v => \sum_i ln (Rabs (v i ord0)) end)
  + \sum_(pq <- zip ps qs) ln (Rabs (1 - dot pq.1 pq.2)).

(** lines 324-325: successive differences *)
Definition diffs (l : seq vect) : seq vect := [seq ab.2 - ab.1 | ab <- zip l (behead l)].

(** [jnp.maximum] and [max] of extended reals *)
Definition xmax2 (a b : xr) : xr :=
  match a, b with NaN, _ | _, NaN => NaN | _, _ => if xleb a b then b else a end.
Definition xmaxl (l : seq xr) : xr := foldr xmax2 NInf l.

(** lines 327-331 *)
Definition init_curv (D : idiag) (s : vect) : R := \sum_i (s i ord0 * dvec D i ord0) ^+ 2.
Definition rat (D : idiag) (s y : vect) : xr :=
  if Rltb (init_curv D s) 1e-10 then NInf else Fin (- dot s y / init_curv D s).
Definition lambd (D : idiag) (r : option R) (ss ys : seq vect) : R :=
  match xmax2 (Fin 0) (xadd (xmaxl [seq rat D sy.1 sy.2 | sy <- zip ss ys]) (if r is Some r' then Fin r' else NInf)) with Fin x => x | _ => 0 end.
Definition damp (D : idiag) (l : R) (s y : vect) : vect := y + \col_i (l * dvec D i ord0 ^+ 2 * s i ord0).

(** lines 339-360, [body_fun] for the pair [(s, y)] with the arrays [us], [ts];
    the result is (p, q, u, t) or NaN *)
Record quad := Quad { qp : vect; qq : vect; qu : vect; qt : vect }.
Definition zquad : quad := Quad 0 0 0 0.

Definition used (r : option R) (ub : bool) (sy sBs : R) : bool :=
  (~~ isSome r || Rltb 0 sy)
  && Rltb 1e-10 (Rmin (Rabs sBs) (Rabs sy)) && ub.

Definition bfgs_body (D : idiag) (r : option R) (s y : vect) (ub : bool) (us ts : seq vect) : option quad :=
  let sy := dot s y in
  let Bs := sqrt_prod us ts (sqrt_transpose_prod us ts s D) D in
  let sBs := dot s Bs in
  if used r ub sy sBs
  then if Rltb (sy / sBs) 0 then None
       else Some (Quad (sy^-1 *: s) (sqrt (sy / sBs) *: Bs + y) (sqrt (sBs / sy) *: y + Bs) (sBs^-1 *: s))
  else Some zquad.

(** line 362: the scan over the pairs; the arrays have full length [m] from the
    start, filled with zeros *)
Fixpoint bfgs_scan (D : idiag) (r : option R) (pairs : seq (vect * vect * bool)) (i : nat)
  (us ts : seq vect) : option (seq quad) :=
  match pairs with
  | [::] => Some [::]
  | (s, y, ub) :: pairs' =>
      match bfgs_body D r s y ub us ts with
      | None => None
      | Some Q => match bfgs_scan D r pairs' i.+1 (set_nth 0 us i (qu Q)) (set_nth 0 ts i (qt Q)) with
                  | None => None
                  | Some l => Some (Q :: l)
                  end
      end
  end.

(** lines 318-362 *)
Definition bfgs_pairs (vals grads : seq vect) (D : idiag) (r : option R) (ub : seq bool) : seq (vect * vect * bool) :=
  let ss := diffs vals in
  let ys := diffs grads in
  let l := lambd D r ss ys in
  zip (zip ss [seq damp D l sy.1 sy.2 | sy <- zip ss ys]) ub.

Definition bfgs_pqut (vals grads : seq vect) (D : idiag) (r : option R) (ub : seq bool) : option (seq quad) :=
  let pairs := bfgs_pairs vals grads D r ub in
  bfgs_scan D r pairs 0 (nseq (size pairs) 0) (nseq (size pairs) 0).

(** The products used by the samplers (qn_underdamped.py 160-162, 201-223 and 238-245 and the
    tests): the inverse-Hessian factor uses (p, q) and the inverse diagonal, the
    Hessian factor (u, t) and the diagonal. *)
Definition hess_prod (out : seq quad) (D : idiag) (z : vect) : vect :=
  sqrt_prod (map qu out) (map qt out) (sqrt_transpose_prod (map qu out) (map qt out) z D) D.
Definition hess_inv_prod (out : seq quad) (D : idiag) (z : vect) : vect :=
  sqrt_prod (map qp out) (map qq out) (sqrt_transpose_prod (map qp out) (map qq out) z (dinv D)) (dinv D).
End Bfgs.
