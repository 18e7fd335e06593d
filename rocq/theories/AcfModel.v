(** Autocorrelation, mocat/src/metrics.py 21-66 and 81-85.

    Exact arithmetic; the transforms are the discrete Fourier transforms that
    [jnp.fft] computes.  Series are lists of numbers (21-25 only select them).
    Divisions of finite numbers give infinities and NaN as in IEEE arithmetic. *)
From Coq Require Import Reals List Arith.
From Coquelicot Require Import Coquelicot.
From Verif Require Import XR.
Import ListNotations.
Open Scope R_scope.

(** 29-33; the loop doubles [i] at most [n] times *)
Fixpoint double_until (fuel n i : nat) : nat :=
  match fuel with
  | O => i
  | S fuel' => if Nat.ltb i n then double_until fuel' n (2 * i) else i
  end.
Definition next_pow_two (n : nat) : nat := double_until n n 1.

(** exp(i theta) *)
Definition cis (theta : R) : C := (cos theta, sin theta).

Fixpoint csum (n : nat) (f : nat -> C) : C := match n with O => RtoC 0 | S n' => Cplus (csum n' f) (f n') end.

(** [jnp.fft.fft(x, n=N)]: the input is cut or padded with zeros to length [N] *)
Definition fft (x : list R) (N : nat) (k : nat) : C :=
  csum N (fun m => Cmult (RtoC (nth m x 0)) (cis (- (2 * PI * INR m * INR k / INR N)))).
Definition ifft (F : nat -> C) (N : nat) (m : nat) : C :=
  Cmult (RtoC (/ INR N)) (csum N (fun k => Cmult (F k) (cis (2 * PI * INR m * INR k / INR N)))).

Definition total (x : list R) : R := fold_right Rplus 0 x.
Definition mean (x : list R) : R := total x / INR (length x).
Definition centred (x : list R) : list R := map (fun a => a - mean x) x.

Definition fdiv (a b : R) : xr :=
  if Req_EM_T b 0 then (if Rlt_dec 0 a then PInf else if Rlt_dec a 0 then NInf else NaN) else Fin (a / b).

(** 36-43 *)
Definition raw_acf (x : list R) (N m : nat) : R :=
  let f := fft (centred x) N in fst (ifft (fun k => Cmult (f k) (Cconj (f k))) N m).
Definition autocorrelation (x : list R) (max_lag_eval : nat) : list xr :=
  let L := Nat.min max_lag_eval (length x) in
  let N := (2 * next_pow_two L)%nat in
  map (fun m => fdiv (raw_acf x N m) (raw_acf x N 0)) (seq 0 L).

(** 49-50 *)
Fixpoint cumsum (s : xr) (l : list xr) : list xr :=
  match l with [] => [] | a :: l' => let s' := xadd s a in s' :: cumsum s' l' end.
Definition iats_all (autocorr : list xr) : list xr :=
  map (fun c => xadd (Fin 1) (xmul (Fin 2) c)) (cumsum (Fin 0) (tl autocorr)).

(** [jnp.argmax] of booleans: the first true entry, or 0 *)
Fixpoint first_true (l : list bool) : option nat :=
  match l with
  | [] => None
  | true :: _ => Some O
  | false :: l' => option_map S (first_true l')
  end.
Definition argmax (l : list bool) : nat := match first_true l with Some i => i | None => O end.

(** 53-56 *)
Definition window (iats : list xr) : nat :=
  argmax (map (fun it => xltb (Fin 0) (xsub (Fin (INR (fst it))) (xmul (Fin 5) (snd it)))) (combine (seq 1 (length iats)) iats)).

(** 46-58; reading beyond the end gives the last entry, reading an empty array fails *)
Definition integrated_autocorrelation_time (x : list R) (max_lag_iat : option nat) (max_lag_eval : nat) : option xr :=
  let iats := iats_all (autocorrelation x max_lag_eval) in
  let i := match max_lag_iat with Some i => i | None => window iats end in
  nth_error iats (Nat.min i (length iats - 1)).

(** 61-66 *)
Definition xdiv_into (a : R) (b : xr) : xr :=
  match b with Fin r => fdiv a r | NaN => NaN | _ => Fin 0 end.
Definition ess_autocorrelation (x : list R) (max_lag_iat : option nat) (max_lag_eval : nat) : option xr :=
  option_map (xdiv_into (INR (length x))) (integrated_autocorrelation_time x max_lag_iat max_lag_eval).

(** 81-85, for a one-dimensional array *)
Definition squared_jumping_distance (x : list R) : R :=
  mean (map (fun ab => (snd ab - fst ab) ^ 2) (combine x (tl x))).
