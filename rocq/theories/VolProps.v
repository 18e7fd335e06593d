(** C104: the proposals of the underdamped samplers preserve volume. *)
From Coq Require Import Reals List Lra.
From mathcomp Require Import ssreflect ssrfun ssrbool eqtype ssrnat seq choice fintype bigop ssralg matrix.
From Verif Require Import RStruct XR Keys McmcModel McmcProofs HmcModel HmcSpec HmcProofs VolSpec VolProofs.
Set Implicit Arguments.
Unset Strict Implicit.
Import GRing.Theory.
Local Open Scope ring_scope.

Lemma ofv_tov d (v : 'cV[R]_d) : ofv d (tov v) = v.
Proof. by apply/colP => i; rewrite mxE /tov valK. Qed.
Lemma ofvD d a b : ofv d (vadd a b) = ofv d a + ofv d b.
Proof. by apply/colP => i; rewrite !mxE. Qed.
Lemma ofvZ d c a : ofv d (vscale c a) = c *: ofv d a.
Proof. by apply/colP => i; rewrite !mxE. Qed.
Lemma ofvN d a : ofv d (vopp a) = - ofv d a.
Proof. by apply/colP => i; rewrite !mxE. Qed.
Lemma ofv_eq d a b : ofv d a = ofv d b -> forall i, (i < d)%N -> a i = b i.
Proof. by move=> /colP H i Hi; have := H (Ordinal Hi); rewrite !mxE. Qed.

(** The gradient of the tempered potential at a position, as the integrator
    computes it. *)
Definition tempered_grad (prior_pg lik_pg : vec -> key -> xr * vec) (T : R) (k : key) (v : vec) : vec :=
  fun i => Rplus (snd (prior_pg v k) i) (Rmult T (snd (lik_pg v k) i)).

Section Link.
Variable d : nat.
Variables prior_pg lik_pg : vec -> key -> xr * vec.
Variable T : R.
Variable minv : vec -> vec.
Variable M : 'M[R]_d.
Variable eps : R.
Variable k0 : key.
Hypothesis Hp : deterministic prior_pg.
Hypothesis Hl : deterministic lik_pg.
Let G := tempered_grad prior_pg lik_pg T k0.
Hypothesis Hloc : forall v v', (forall i, (i < d)%N -> v i = v' i) -> forall i, (i < d)%N -> G v i = G v' i.
Hypothesis HM : forall p, ofv d (minv p) = M *m ofv d p.
Let g := fun x : 'cV[R]_d => ofv d (G (tov x)).

Lemma gE v : ofv d (G v) = g (ofv d v).
Proof.
apply/colP => i; rewrite !mxE; apply: Hloc => // j Hj.
by rewrite (ofv_eq (ofv_tov (ofv d v)) Hj).
Qed.

Definition rep (s : hstate) (z : 'cV[R]_(d + d)) : Prop :=
  [/\ ofv d (h_value s) = usubmx z, ofv d (h_mom s) = dsubmx z & ofv d (h_gpot s) = g (usubmx z)].

Lemma rep_at v m k : rep (at_value prior_pg lik_pg T v m k) (col_mx (ofv d v) (ofv d m)).
Proof.
have -> : at_value prior_pg lik_pg T v m k = at_value prior_pg lik_pg T v m k0.
  by rewrite /at_value (Hp v k k0) (Hl v k k0).
rewrite /rep col_mxKu col_mxKd -gE /at_value /G /tempered_grad.
by case: (prior_pg v k0) => a b; case: (lik_pg v k0) => c e; split.
Qed.

Lemma rep_step s z k : rep s z -> rep (fst (leapfrog_step prior_pg lik_pg T minv eps s k)) (lstep eps M g z).
Proof.
move=> [Hv Hm Hg]; rewrite /leapfrog_step; cbv zeta; cbn [fst].
set ph := vadd (h_mom s) _; set v := vadd (h_value s) _.
have [N1 N2 N3] := rep_at v ph k.
rewrite col_mxKu in N1 N3; rewrite col_mxKd in N2.
have Eph : ofv d ph = dsubmx z + Ropp (Rdiv eps 2) *: g (usubmx z) by rewrite /ph ofvD ofvZ Hm Hg.
have Ev : ofv d v = usubmx z + (eps *: M) *m (dsubmx z + Ropp (Rdiv eps 2) *: g (usubmx z)).
  by rewrite /v ofvD ofvZ Hv HM Eph scalemxAl.
rewrite /rep /=; rewrite /lstep /kick /drift !col_mxKu !col_mxKd -Ev -Eph; split=> //.
by rewrite ofvD ofvZ N3.
Qed.

Lemma rep_walk s z ks : rep s z -> rep (walk prior_pg lik_pg T minv eps s ks) (ssrnat.iter (size ks) (lstep eps M g) z).
Proof.
elim: ks s z => [|k ks IH] s z H //; cbn [walk size].
by rewrite iterSr; apply: IH; exact: rep_step.
Qed.

(** the proposal, as a map of positions and momenta *)
Definition prop_map (keys : list key) (z : 'cV[R]_(d + d)) : 'cV[R]_(d + d) :=
  let s := at_value prior_pg lik_pg T (tov (usubmx z)) (tov (dsubmx z)) k0 in
  let s' := flip (leapfrog_last prior_pg lik_pg T minv eps s keys) in
  col_mx (ofv d (h_value s')) (ofv d (h_mom s')).

Lemma prop_mapE keys z : prop_map keys z = mflip (ssrnat.iter (size keys) (lstep eps M g) z).
Proof.
rewrite /prop_map leapfrog_last_walk; cbv zeta.
have H0 := rep_at (tov (usubmx z)) (tov (dsubmx z)) k0.
rewrite !ofv_tov vsubmxK in H0.
have [H1 H2 _] := rep_walk keys H0.
by rewrite /flip /= ofvN H1 H2.
Qed.
End Link.

(** * The maps from momenta to velocities are linear *)
Lemma vdotE d a b : vdot d a b = ((ofv d a)^T *m ofv d b) ord0 ord0.
Proof.
rewrite mxE; elim: d => [|d IH]; first by rewrite big_ord0.
rewrite big_ord_recr /= {}IH !mxE; congr (_ + _).
by apply: eq_bigr => i _; rewrite !mxE.
Qed.

Lemma fold_lin d (f : vec * vec -> vec * vec) (l : list (vec * vec)) :
  exists N : 'M[R]_d, forall z,
    ofv d (List.fold_left (fun c pq => vadd c (vscale (Ropp (vdot d (snd (f pq)) c)) (fst (f pq)))) l z)
    = N *m ofv d z.
Proof.
elim: l => [|pq l [N HN]]; first by exists 1%:M => z; rewrite mul1mx.
exists (N *m (1%:M - ofv d (fst (f pq)) *m (ofv d (snd (f pq)))^T)) => z.
rewrite /= HN ofvD ofvZ vdotE -mulmxA; congr (_ *m _).
rewrite mulmxBl mul1mx -mulmxA; congr (_ + _).
rewrite [X in _ = - (_ *m X)](mx11_scalar _) mul_mx_scalar -scaleNr.
by [].
Qed.

Lemma qn_minv_lin d pqs diag mem : exists N : 'M[R]_d, forall p, ofv d (qn_minv d pqs diag mem p) = N *m ofv d p.
Proof.
have [N1 H1] := @fold_lin d (fun x => x) (pqs mem).
have [N2 H2] := @fold_lin d (fun x => (snd x, fst x)) (List.rev (pqs mem)).
exists (N1 *m (Rinv diag *: (Rinv diag *: N2))) => p.
rewrite /qn_minv {1}/bfgs_prod H1 ofvZ -!mulmxA; congr (_ *m _).
by rewrite /bfgs_tprod ofvZ H2 -!scalemxAl.
Qed.

(** C104, Underdamped: the map from position and momenta to the proposed
    position and momenta preserves volume, for every number of steps,
    stepsize, temperature and target whose gradient is differentiable. *)
Theorem C104_underdamped :
  forall (d L : nat) (prior_pg lik_pg : vec -> key -> xr * vec) (T : R) (e : mextra hpar) (al : xr) (k : key),
  deterministic prior_pg -> deterministic lik_pg ->
  let grad := tempered_grad prior_pg lik_pg T k in
  (** the gradient depends on the [d] coordinates only and is differentiable *)
  (forall v v', (forall i, (i < d)%N -> v i = v' i) -> forall i, (i < d)%N -> grad v i = grad v' i) ->
  (forall x, exists H, fderiv (fun x : 'cV[R]_d => ofv d (grad (tov x))) x H) ->
  preserves_volume (fun z : 'cV[R]_(d + d) =>
    let s := MState (at_value prior_pg lik_pg T (tov (usubmx z)) (tov (dsubmx z)) k) al in
    let s' := core (fst (ud_proposal prior_pg lik_pg T L s e)) in
    col_mx (ofv d (h_value s')) (ofv d (h_mom s'))).
Proof.
move=> d L pp lp T e al k Hp Hl grad Hloc Hd z.
set keys := split_keys (rkey e) L.+1 1 L.
have HM : forall p, ofv d (id p) = 1%:M *m ofv d p by move=> p; rewrite mul1mx.
have E := prop_mapE (h_stepsize (par e)) Hp Hl Hloc HM keys.
have [[J HJ] HU] := flip_vol (h_stepsize (par e)) 1%:M (size keys) Hd z.
split; first by exists J; apply: fderiv_ext HJ => y; rewrite -E.
by move=> J' HJ'; apply: HU; apply: fderiv_ext HJ' => y; rewrite -E.
Qed.
Print Assumptions C104_underdamped.

(** Quasi-Newton Underdamped: the same with the memory of the current state. *)
Theorem C104_quasi_newton :
  forall (d L : nat) (prior_pg lik_pg : vec -> key -> xr * vec) (T : R)
         (pqs : list mrow -> list (vec * vec)) (diag : R) (mem : list mrow) (e : mextra qpar) (al : xr) (k : key),
  deterministic prior_pg -> deterministic lik_pg ->
  let grad := tempered_grad prior_pg lik_pg T k in
  (forall v v', (forall i, (i < d)%N -> v i = v' i) -> forall i, (i < d)%N -> grad v i = grad v' i) ->
  (forall x, exists H, fderiv (fun x : 'cV[R]_d => ofv d (grad (tov x))) x H) ->
  preserves_volume (fun z : 'cV[R]_(d + d) =>
    let s := MState (QS (at_value prior_pg lik_pg T (tov (usubmx z)) (tov (dsubmx z)) k) mem) al in
    let s' := q_core (core (fst (qn_proposal d prior_pg lik_pg T L pqs diag s e))) in
    col_mx (ofv d (h_value s')) (ofv d (h_mom s'))).
Proof.
move=> d L pp lp T pqs diag mem e al k Hp Hl grad Hloc Hd z.
set keys := split_keys (rkey e) L.+1 0 L.
have [N HM] := @qn_minv_lin d pqs diag mem.
have E := prop_mapE (h_stepsize (q_hpar (par e))) Hp Hl Hloc HM keys.
have [[J HJ] HU] := flip_vol (h_stepsize (q_hpar (par e))) N (size keys) Hd z.
split; first by exists J; apply: fderiv_ext HJ => y; rewrite -E.
by move=> J' HJ'; apply: HU; apply: fderiv_ext HJ' => y; rewrite -E.
Qed.
Print Assumptions C104_quasi_newton.

(** The standard Gaussian target of any dimension meets the hypotheses; a map
    that stretches does not preserve volume. *)
Example C104_example :
  let pp := fun (v : vec) (_ : key) => (Fin (Rdiv (vdot 3 v v) 2), v) in
  let lp := fun (_ : vec) (_ : key) => (Fin 0, (fun _ => 0) : vec) in
  let grad := tempered_grad pp lp 1 (KRoot 0) in
  deterministic pp /\ deterministic lp
  /\ (forall v v', (forall i, (i < 3)%N -> v i = v' i) -> forall i, (i < 3)%N -> grad v i = grad v' i)
  /\ (forall x, exists H, fderiv (fun x : 'cV[R]_3 => ofv 3 (grad (tov x))) x H)
  /\ ~ preserves_volume (fun z : 'cV[R]_1 => Rplus 1 1 *: z).
Proof.
move=> pp lp grad; split=> //; split=> //; split; [|split].
- by move=> v v' Hv i Hi; rewrite /grad /tempered_grad /= Hv.
- move=> x; exists 1%:M; apply: fderiv_ext (fderiv_lin 1%:M x) => y.
  rewrite mul1mx -[LHS]ofv_tov; apply/colP => i; rewrite !mxE /grad /tempered_grad /=.
  by rewrite Rmult_0_r Rplus_0_r.
- move=> H; have [_ /(_ (Rplus 1 1)%:M)] := H 0.
  have F : fderiv (fun z : 'cV[R]_1 => Rplus 1 1 *: z) 0 (Rplus 1 1)%:M.
    by apply: fderiv_ext (fderiv_lin (Rplus 1 1)%:M 0) => y; rewrite mul_scalar_mx.
  move=> /(_ F); rewrite det_scalar1 Rabs_right; toR; lra.
Qed.
