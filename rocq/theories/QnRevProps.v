(** C105: are quasi-Newton moves undone by the sampler's own reverse move?
    C106: does the refreshment keep the law of the momenta?  In both the memory
    that defines the mass matrix has moved on by one state. *)
From Coq Require Import Reals List Arith Bool Lia Lra FunctionalExtensionality.
From Verif Require Import XR Keys LoopModel McmcModel McmcSpec McmcProofs HmcModel HmcSpec HmcProofs HmcProps
  WeightsSpec UnbSpec UnbProofs QnRevModel QnRevProofs.
Import ListNotations.
Open Scope R_scope.

(** The state from which the sampler would integrate at the state [s] reached by
    a proposal: [always] (qn_underdamped.py 144-156) has put it into the memory. *)
Definition arrived (s : qstate) : qstate := QS (q_core s) (push_memory (q_mem s) (row_of (q_core s))).

(** When the memory's change does not change the preconditioner, the reverse
    move returns to the starting point and both moves are balanced.
    Missing: changes of the preconditioner (refuted below). *)
Theorem C105_same_preconditioner_partial :
  forall d prior_pg lik_pg T L pqs diag (s : mstate qstate) (e e' : mextra qpar),
  deterministic prior_pg -> deterministic lik_pg ->
  coherent prior_pg lik_pg T (q_core (core s)) -> par e' = par e ->
  let s1 := fst (qn_proposal d prior_pg lik_pg T L pqs diag s e) in
  let s2 := MState (arrived (core s1)) (alpha s1) in
  let back := fst (qn_proposal d prior_pg lik_pg T L pqs diag s2 e') in
  (forall p i, qn_minv d pqs diag (q_mem (core s2)) p i = qn_minv d pqs diag (q_mem (core s)) p i) ->
  q_core (core back) = q_core (core s)
  /\ ((finite (h_pot (q_core (core s))) \/ h_pot (q_core (core s)) = PInf) ->
      (finite (h_pot (q_core (core s1))) \/ h_pot (q_core (core s1)) = PInf) ->
      (forall i, (i < d)%nat -> Rabs (h_value (q_core (core s)) i) <= q_max_val (par e)
         /\ Rabs (h_mom (q_core (core s)) i) <= q_max_val (par e)
         /\ Rabs (h_value (q_core (core s1)) i) <= q_max_val (par e)
         /\ Rabs (h_mom (q_core (core s1)) i) <= q_max_val (par e)) ->
      let weight x := density (h_pot (q_core (core x)))
                      * exp (- (inner d (h_mom (q_core (core x)))
                                 (qn_minv d pqs diag (q_mem (core x)) (h_mom (q_core (core x)))) / 2)) in
      weight s * xval (clean_alpha (qn_acceptance d pqs diag s e s1 e))
      = weight s2 * xval (clean_alpha (qn_acceptance d pqs diag s2 e' back e'))).
Proof.
  intros d pp lp T L pqs diag s e e' Hp Hl Hc He s1 s2 back Hm.
  destruct (C16_qn_proposal d pp lp T L pqs diag s e e' e' Hp Hl Hc He) as (I & M & B & _).
  fold s1 in I, M, B.
  assert (Hmv : qn_minv d pqs diag (q_mem (core s2)) = qn_minv d pqs diag (q_mem (core s))).
  { extensionality p. extensionality i. apply Hm. }
  assert (E : q_core (core back) = q_core (core s)).
  { rewrite <- I. unfold back, qn_proposal. cbn [fst core q_core q_mem]. rewrite Hmv.
    change (q_core (core s2)) with (q_core (core s1)).
    rewrite M. reflexivity. }
  split; [exact E|]. intros H1 H2 Hb weight.
  specialize (B H1 H2 Hb). cbv zeta in B.
  unfold weight. rewrite Hmv. change (q_core (core s2)) with (q_core (core s1)).
  etransitivity; [|etransitivity; [exact B|]].
  - f_equal.
  - f_equal. unfold qn_acceptance. rewrite E, !qn_kinetic_inner, Hmv.
    change (q_core (core s2)) with (q_core (core s1)). rewrite M. reflexivity.
Qed.
Print Assumptions C105_same_preconditioner_partial.

(** The quartic target x^4 / 4 in one dimension. *)
Definition quartic : vec -> key -> xr * vec :=
  fun v _ => (Fin (v 0%nat * v 0%nat * v 0%nat * v 0%nat / 4), fun i => v i * v i * v i).
Definition q_at (x : R) (p : R) : hstate := at_value quartic flat 1 (fun _ => x) (fun _ => p) (KRoot 0).
Definition q_row (x : R) : mrow := row_of (q_at x 0).
Definition q_extra : mextra qpar := MExtra 3 (KRoot 1) (QPar (HPar 1 (Some 1)) 1e10).

(** The quartic from its memory {0, 1}: one step of size 1 goes from 1 to 2,
    with positive probability; the sampler's move from 2 with the returned
    momenta, whose memory is {1, 2}, goes to 13/7 instead of 1. *)
Theorem C105_reverse_refuted : exists (prior_pg lik_pg : vec -> key -> xr * vec) (s : mstate qstate) (e : mextra qpar),
  deterministic prior_pg /\ deterministic lik_pg /\ coherent prior_pg lik_pg 1 (q_core (core s))
  /\ forall sorted : bool,
     (* default parameters: init_hessian_sqrt_diag, pos_def_r, leapfrog_steps *)
     let pqs := mem_pqs 1 sorted 1 1 (1 / 2) in
     let propose x := fst (qn_proposal 1 prior_pg lik_pg 1 1 pqs 1 x e) in
     let s1 := propose s in
     let s2 := MState (arrived (core s1)) (alpha s1) in
     (exists a, qn_acceptance 1 pqs 1 s e s1 e = Fin a /\ 0 < a)
     /\ h_value (q_core (core s)) 0%nat = 1 /\ h_value (q_core (core s1)) 0%nat = 2
     /\ h_value (q_core (core (propose s2))) 0%nat = 13 / 7.
Proof.
  exists quartic, flat, (MState (QS (q_at 1 (3 / 2)) [q_row 0; q_row 1]) (Fin 1)), q_extra.
  split; [intros v k k'; reflexivity|]. split; [intros v k k'; reflexivity|].
  split; [apply coherent_at_value|]. intros sorted pqs propose s1 s2.
  assert (Hmv : forall p, qn_minv 1 pqs 1 [q_row 0; q_row 1] p 0%nat = p 0%nat / 1).
  { intros p. apply (pair_minv (a := 0) (ga := 0) sorted); cbn; try reflexivity; try lra.
    eexists; eexists; split; [reflexivity|reflexivity|lra]. }
  set (m := q_core (core s1)).
  assert (Em : m = flip (walk quartic flat 1 (qn_minv 1 pqs 1 [q_row 0; q_row 1]) 1 (q_at 1 (3 / 2)) [KSplit (KRoot 1) 2 0])).
  { unfold m, s1, propose, qn_proposal. cbn [fst core q_core q_mem]. rewrite leapfrog_last_walk. reflexivity. }
  assert (Ev : h_value m 0%nat = 2).
  { rewrite Em. cbn. unfold vadd, vscale. rewrite Hmv. cbn. unfold vadd, vscale. cbn. field. }
  assert (Eg : h_gprior m 0%nat = 8).
  { transitivity (h_value m 0%nat * h_value m 0%nat * h_value m 0%nat); [rewrite Em; reflexivity|]. rewrite Ev. lra. }
  assert (Egp : h_gpot m 0%nat = 8).
  { transitivity (h_gprior m 0%nat + 1 * 0); [rewrite Em; reflexivity|]. rewrite Eg. lra. }
  assert (Epr : h_prior m = Fin 4).
  { transitivity (Fin (h_value m 0%nat * h_value m 0%nat * h_value m 0%nat * h_value m 0%nat / 4)); [rewrite Em; reflexivity|].
    rewrite Ev. f_equal. lra. }
  assert (Epot : h_pot m = Fin 4).
  { transitivity (xadd (h_prior m) (xmul (Fin 1) (Fin 0))); [rewrite Em; reflexivity|]. rewrite Epr. cbn. f_equal. lra. }
  assert (El : h_lik m = Fin 0) by (rewrite Em; reflexivity).
  assert (Egl : forall i, h_glik m i = 0) by (rewrite Em; reflexivity).
  assert (Emom : h_mom m 0%nat = 3).
  { transitivity (- (3 / 2 + - (1 / 2) * (1 * 1 * 1 + 1 * 0) + - (1 / 2) * h_gpot m 0%nat)); [rewrite Em; reflexivity|].
    rewrite Egp. lra. }
  assert (Hmv2 : forall p, qn_minv 1 pqs 1 [q_row 1; row_of m] p 0%nat = p 0%nat / 7).
  { intros p. apply (pair_minv (a := 1) (ga := 1) sorted); cbn [row_of m_value m_gprior m_glik m_lik m_prior]; auto.
    all: try (rewrite ?Ev, ?Eg; cbn; lra).
    eexists; eexists; split; [reflexivity|exact Epr|lra]. }
  split; [|split; [reflexivity|split; [exact Ev|]]].
  - unfold qn_acceptance. fold m. rewrite Epot.
    match goal with |- context [if ?b then _ else _] => assert (b = false) as -> end.
    { cbn [any_upto orb]. rewrite Ev, Emom. cbn [q_max_val par q_extra].
      rewrite !(Rabs_right) by lra. apply orb_false_iff. split; apply Rltb_false; lra. }
    cbn [core q_core q_at at_value quartic flat h_pot xadd xmul xopp xsub].
    cbn. match goal with |- context [Rleb ?x ?y] => destruct (Rleb x y) end.
    + exists 1. split; [reflexivity|lra].
    + eexists. split; [reflexivity|apply exp_pos].
  - unfold propose at 1, qn_proposal. cbn [fst core q_core q_mem]. rewrite leapfrog_last_walk.
    change (q_mem (core s2)) with [q_row 1; row_of m]. change (q_core (core s2)) with m.
    clearbody m. cbn. unfold vadd, vscale. rewrite Hmv2, Ev, Emom, Egp. field.
Qed.
Print Assumptions C105_reverse_refuted.

(** The quadratic x^2 in one dimension, with memories a unit apart, has the same
    preconditioner for every such memory. *)
Example C105_example : forall sorted,
  let square := fun (v : vec) (_ : key) => (Fin (v 0%nat * v 0%nat), fun i => 2 * v i) in
  let row x := row_of (at_value square flat 1 (fun _ => x) (fun _ => 0) (KRoot 0)) in
  forall p, qn_minv 1 (mem_pqs 1 sorted 1 1 (1 / 2)) 1 [row 0; row 1] p 0%nat
            = qn_minv 1 (mem_pqs 1 sorted 1 1 (1 / 2)) 1 [row 3; row 4] p 0%nat.
Proof.
  intros sorted square row p.
  rewrite (pair_minv (a := 0) (ga := 0) (y := 2) (m1 := row 0) (m2 := row 1) sorted); cbn; auto; try lra.
  - rewrite (pair_minv (a := 3) (ga := 6) (y := 2) (m1 := row 3) (m2 := row 4) sorted); cbn; auto; try lra.
    eexists; eexists; split; [reflexivity|reflexivity|lra].
  - eexists; eexists; split; [reflexivity|reflexivity|lra].
Qed.

(** * C106 *)
Lemma mean_lin {A} (D : law A) c (f : A -> R) : mean D (fun x => c * f x) = c * mean D f.
Proof.
  unfold mean. rewrite <- Rsum_scal. apply Rsum_ext. intros x _. ring.
Qed.
Lemma mean_vdot (D : law vec) d (a : vec) : (forall i, (i < d)%nat -> mean D (fun z => z i) = 0) ->
  mean D (fun z => vdot d a z) = 0.
Proof.
  intros H. induction d; cbn [vdot].
  - unfold mean. rewrite (Rsum_ext _ (fun _ => 0 * 0)); [|intros; ring]. rewrite Rsum_scal. ring.
  - pose proof (mean_plus D (fun z => vdot d a z) (fun z => a d * z d)) as Hp. cbv beta in Hp.
    etransitivity; [exact Hp|]. rewrite (mean_lin D (a d) (fun z => z d)), H by lia.
    rewrite (IHd ltac:(auto)). ring.
Qed.

(** Momenta that have the law of the old memory's Gaussian (product of its
    factor with standardised [xi]) are refreshed with an independent
    standardised [zeta].  Their covariance becomes the mixture of the
    covariances of the old and of the new memory with weights c^2 and 1 - c^2,
    [c] the decay; the mean stays zero. *)
Theorem C106_refresh_mixture :
  forall (d : nat) (uts : list mrow -> list (vec * vec)) (diag : R) (h : hstate) (mem : list mrow) (al : xr)
         (e : mextra qpar) (Xi Zeta : law vec),
  (forall g, h_friction (q_hpar (par e)) = Some g -> 0 <= g * h_stepsize (q_hpar (par e))) ->
  mean Xi (fun _ => 1) = 1 -> mean Zeta (fun _ => 1) = 1 ->
  (forall i, (i < d)%nat -> mean Xi (fun z => z i) = 0 /\ mean Zeta (fun z => z i) = 0) ->
  let factor mem z := bfgs_prod d (uts mem) diag z in
  let mem' := push_memory mem (row_of h) in
  let refreshed xi zeta :=
    h_mom (q_core (core (fst (qn_always d (fun _ => zeta) uts diag
      (MState (QS (set_mom h (factor mem xi)) mem) al) e)))) in
  let E f := mean Xi (fun xi => mean Zeta (fun zeta => f (refreshed xi zeta))) in
  let c := ou_decay (q_hpar (par e)) in
  forall i j, (i < d)%nat -> (j < d)%nat ->
  E (fun p => p i) = 0
  /\ E (fun p => p i * p j)
     = c * c * mean Xi (fun z => factor mem z i * factor mem z j)
       + (1 - c * c) * mean Zeta (fun z => factor mem' z i * factor mem' z j)
  /\ 0 <= c <= 1 /\ (c = 0 <-> h_friction (q_hpar (par e)) = None).
Proof.
  intros d uts diag h mem al e Xi Zeta Hg X1 Z1 H0 factor mem' refreshed E c i j Hi Hj.
  set (b := sqrt (1 - ou_decay2 (q_hpar (par e)))).
  assert (Hc : 0 <= c <= 1 /\ ou_decay2 (q_hpar (par e)) = c * c /\ (c = 0 <-> h_friction (q_hpar (par e)) = None)).
  { unfold c, ou_decay, ou_decay2. destruct (h_friction (q_hpar (par e))) as [g|] eqn:Eq.
    - specialize (Hg g eq_refl). pose proof (exp_pos (- g * h_stepsize (q_hpar (par e)))).
      split; [split|split; [|split; [lra|discriminate]]].
      + lra.
      + rewrite <- exp_0. destruct (Req_dec (- g * h_stepsize (q_hpar (par e))) 0) as [->|]; [lra|].
        left. apply exp_increasing. lra.
      + rewrite <- exp_plus. f_equal. lra.
    - split; [lra|]. split; [lra|]. split; auto. }
  destruct Hc as (Hc & H2 & Hc0).
  assert (Hb : b * b = 1 - c * c) by (unfold b; rewrite H2; apply sqrt_sqrt; nra).
  assert (R1 : forall xi zeta k, refreshed xi zeta k = - c * factor mem xi k + b * factor mem' zeta k).
  { intros. unfold refreshed, qn_always. cbn. unfold vadd, vscale, vopp, set_mom. cbn. fold c b.
    change (push_memory mem _) with mem'. unfold factor. ring. }
  destruct (prod_lin d (uts mem) diag) as [N HN].
  destruct (prod_lin d (uts mem') diag) as [N' HN'].
  assert (F1 : forall k, (k < d)%nat -> mean Xi (fun z => factor mem z k) = 0).
  { intros k Hk. unfold factor. rewrite (mean_ext _ _ (fun z => vdot d (N k) z)) by (intros; apply HN; exact Hk).
    apply mean_vdot. intros q Hq. apply H0; exact Hq. }
  assert (F2 : forall k, (k < d)%nat -> mean Zeta (fun z => factor mem' z k) = 0).
  { intros k Hk. unfold factor. rewrite (mean_ext _ _ (fun z => vdot d (N' k) z)) by (intros; apply HN'; exact Hk).
    apply mean_vdot. intros q Hq. apply H0; exact Hq. }
  split; [|split; [|split; [exact Hc|exact Hc0]]].
  - unfold E. rewrite (mean_ext _ _ (fun xi => - c * factor mem xi i)).
    + rewrite mean_lin, F1 by exact Hi. ring.
    + intros xi _. rewrite (mean_ext _ _ (fun zeta => (- c * factor mem xi i) * 1 + b * factor mem' zeta i))
        by (intros; rewrite R1; ring).
      rewrite mean_plus, !mean_lin, Z1, F2 by exact Hi. ring.
  - set (K' := mean Zeta (fun z => factor mem' z i * factor mem' z j)).
    unfold E. rewrite (mean_ext _ _ (fun xi => (c * c) * (factor mem xi i * factor mem xi j) + ((1 - c * c) * K') * 1)).
    + rewrite mean_plus, !mean_lin, X1. ring.
    + intros xi _.
      rewrite (mean_ext _ _ (fun zeta =>
        (((c * c) * (factor mem xi i * factor mem xi j)) * 1 + (- c * b * factor mem xi i) * factor mem' zeta j)
        + ((- c * b * factor mem xi j) * factor mem' zeta i + (1 - c * c) * (factor mem' zeta i * factor mem' zeta j)))).
      * rewrite !mean_plus, !mean_lin, Z1, !F2 by assumption. fold K'. ring.
      * intros zeta _. rewrite !R1. rewrite <- Hb. ring.
Qed.
Print Assumptions C106_refresh_mixture.

(** So the covariance of the momenta is that of the current memory for infinite
    friction, or if the memory's change does not change it.
    Missing: finite friction with a changed memory (refuted below). *)
Theorem C106_refresh_partial :
  forall (d : nat) (uts : list mrow -> list (vec * vec)) (diag : R) (h : hstate) (mem : list mrow) (al : xr)
         (e : mextra qpar) (Xi Zeta : law vec),
  (forall g, h_friction (q_hpar (par e)) = Some g -> 0 <= g * h_stepsize (q_hpar (par e))) ->
  mean Xi (fun _ => 1) = 1 -> mean Zeta (fun _ => 1) = 1 ->
  (forall i, (i < d)%nat -> mean Xi (fun z => z i) = 0 /\ mean Zeta (fun z => z i) = 0) ->
  let factor mem z := bfgs_prod d (uts mem) diag z in
  let mem' := push_memory mem (row_of h) in
  let refreshed xi zeta :=
    h_mom (q_core (core (fst (qn_always d (fun _ => zeta) uts diag
      (MState (QS (set_mom h (factor mem xi)) mem) al) e)))) in
  let E f := mean Xi (fun xi => mean Zeta (fun zeta => f (refreshed xi zeta))) in
  forall i j, (i < d)%nat -> (j < d)%nat ->
  let old := mean Xi (fun z => factor mem z i * factor mem z j) in
  let new := mean Zeta (fun z => factor mem' z i * factor mem' z j) in
  E (fun p => p i * p j) = new <-> (h_friction (q_hpar (par e)) = None \/ old = new).
Proof.
  intros d uts diag h mem al e Xi Zeta Hg X1 Z1 H0 factor mem' refreshed E i j Hi Hj old new.
  destruct (C106_refresh_mixture d uts diag h mem al e Xi Zeta Hg X1 Z1 H0 i j Hi Hj) as (_ & A & Hc & Hf).
  set (c := ou_decay (q_hpar (par e))) in *.
  assert (A' : E (fun p => p i * p j) = c * c * old + (1 - c * c) * new) by exact A.
  rewrite A'. clearbody old new. clear A A'. split.
  - intros H. destruct (Req_dec c 0) as [Z|Z]; [left; apply Hf; exact Z|right].
    assert (c * c * (old - new) = 0) by lra.
    destruct (Rmult_integral (c * c) (old - new)) as [Q|Q]; [assumption| |lra].
    destruct (Rmult_integral _ _ Q); contradiction.
  - intros [H|H].
    + apply Hf in H. rewrite H. ring.
    + rewrite H. ring.
Qed.
Print Assumptions C106_refresh_partial.

(** With the default friction and parameters the covariance is that of no
    memory: for the quartic, from memory {0, 1} (covariance 1) to {1, 2}
    (covariance 7), it lies strictly between. *)
Theorem C106_refresh_refuted :
  exists (prior_pg lik_pg : vec -> key -> xr * vec) (h : hstate) (mem : list mrow) (e : mextra qpar) (Xi Zeta : law vec),
  deterministic prior_pg /\ deterministic lik_pg /\ coherent prior_pg lik_pg 1 h
  /\ (forall r, In r mem -> exists x p k, r = row_of (at_value prior_pg lik_pg 1 x p k))
  /\ mean Xi (fun _ => 1) = 1 /\ mean Zeta (fun _ => 1) = 1
  /\ mean Xi (fun z => z 0%nat) = 0 /\ mean Zeta (fun z => z 0%nat) = 0
  /\ mean Xi (fun z => z 0%nat * z 0%nat) = 1 /\ mean Zeta (fun z => z 0%nat * z 0%nat) = 1
  /\ h_friction (q_hpar (par e)) = Some 1 /\ h_stepsize (q_hpar (par e)) = 1
  /\ forall sorted : bool,
     let uts := mem_uts 1 sorted 1 1 (1 / 2) in
     let factor mem z := bfgs_prod 1 (uts mem) 1 z in
     let mem' := push_memory mem (row_of h) in
     let refreshed xi zeta :=
       h_mom (q_core (core (fst (qn_always 1 (fun _ => zeta) uts 1
         (MState (QS (set_mom h (factor mem xi)) mem) (Fin 1)) e)))) 0%nat in
     mean Xi (fun z => factor mem z 0%nat * factor mem z 0%nat) = 1
     /\ mean Zeta (fun z => factor mem' z 0%nat * factor mem' z 0%nat) = 7
     /\ 1 < mean Xi (fun xi => mean Zeta (fun zeta => refreshed xi zeta * refreshed xi zeta)) < 7.
Proof.
  set (coin := [((fun _ => 1) : vec, / 2); ((fun _ => -1) : vec, / 2)]).
  exists quartic, flat, (q_at 2 0), [q_row 0; q_row 1], q_extra, coin, coin.
  split; [intros v k k'; reflexivity|]. split; [intros v k k'; reflexivity|].
  split; [apply coherent_at_value|].
  split; [intros r [<-|[<-|[]]]; do 3 eexists; reflexivity|].
  assert (M : forall f, mean coin f = / 2 * f (fun _ => 1) + (/ 2 * f (fun _ => -1) + 0)) by reflexivity.
  rewrite !M. do 6 (split; [lra|]). do 2 (split; [reflexivity|]).
  intros sorted uts factor mem' refreshed.
  assert (F1 : forall z, factor [q_row 0; q_row 1] z 0%nat = - (sqrt 1 * z 0%nat)).
  { intros z. apply (pair_factor (a := 0) (ga := 0) sorted); cbn; try reflexivity; try lra.
    eexists; eexists; split; [reflexivity|reflexivity|lra]. }
  assert (F2 : forall z, factor mem' z 0%nat = - (sqrt 7 * z 0%nat)).
  { intros z. apply (pair_factor (a := 1) (ga := 1) sorted); cbn; try reflexivity; try lra.
    eexists; eexists; split; [reflexivity|reflexivity|lra]. }
  assert (S1 := sqrt_sqrt 1 ltac:(lra)). assert (S7 := sqrt_sqrt 7 ltac:(lra)).
  assert (A1 : mean coin (fun z => factor [q_row 0; q_row 1] z 0%nat * factor [q_row 0; q_row 1] z 0%nat) = 1)
    by (rewrite M, !F1; cbv beta; transitivity (sqrt 1 * sqrt 1); [field|exact S1]).
  assert (A2 : mean coin (fun z => factor mem' z 0%nat * factor mem' z 0%nat) = 7)
    by (rewrite M, !F2; cbv beta; transitivity (sqrt 7 * sqrt 7); [field|exact S7]).
  split; [exact A1|]. split; [exact A2|].
  destruct (C106_refresh_mixture 1 uts 1 (q_at 2 0) [q_row 0; q_row 1] (Fin 1) q_extra coin coin) with (i := 0%nat) (j := 0%nat)
    as (_ & A & Hc & Hf).
  - intros g Hg. injection Hg as <-. cbn. lra.
  - rewrite M; lra.
  - rewrite M; lra.
  - intros i _. rewrite !M. lra.
  - lia.
  - lia.
  - unfold refreshed. unfold factor in A1, A2 |- *. unfold mem' in A2. rewrite A.
    rewrite A1, A2.
    assert (Hd : ou_decay (q_hpar (par q_extra)) = exp (-1)) by (cbn; f_equal; lra).
    rewrite Hd.
    assert (0 < exp (-1)) by apply exp_pos.
    assert (exp (-1) < 1) by (rewrite <- exp_0; apply exp_increasing; lra).
    nra.
Qed.
Print Assumptions C106_refresh_refuted.

Example C106_example : ou_decay (HPar 1 None) = 0 /\ ou_decay (HPar 1 (Some 1)) < 1.
Proof.
  split; [reflexivity|]. cbn. apply Rlt_le_trans with (exp 0); [apply exp_increasing; lra|rewrite exp_0; lra].
Qed.

(** The momenta drawn with infinite friction have, under the kinetic energy of
    the memory they were drawn with, the squared length of the standardised
    draw: the draw and the acceptance probability use the same mass matrix, for
    every memory. *)
Theorem C106_metric :
  forall d sorted T diag r (normal : key -> vec) (s : mstate qstate) (e : mextra qpar),
  diag <> 0 -> h_friction (q_hpar (par e)) = None ->
  let pqs := mem_pqs d sorted T diag r in
  let uts := mem_uts d sorted T diag r in
  let drawn := core (fst (qn_always d normal uts diag s e)) in
  let z := normal (KSplit (rkey e) 2 0) in
  inner d (h_mom (q_core drawn)) (qn_minv d pqs diag (q_mem drawn) (h_mom (q_core drawn))) = inner d z z.
Proof.
  intros d sorted T diag r normal s e Hd Hf pqs uts drawn z.
  assert (E : h_mom (q_core drawn) = bfgs_prod d (uts (q_mem drawn)) diag z).
  { unfold drawn, qn_always. cbn [fst core q_core q_mem h_mom set_mom]. unfold ou_decay, ou_decay2. rewrite Hf.
    replace (1 - 0) with 1 by ring. rewrite sqrt_1.
    extensionality i. unfold vadd, vscale. fold z. ring. }
  rewrite E, <- !vdot_inner. apply (metric d sorted T r (q_mem drawn) z Hd).
Qed.
Print Assumptions C106_metric.

(** the quartic with memory {1, 2}: the draw 1 becomes the momentum - sqrt 7 *)
Example C106_metric_example :
  let uts := mem_uts 1 true 1 1 (1 / 2) in
  let s := MState (QS (q_at 2 0) [q_row 0; q_row 1]) (Fin 1) in
  let e := MExtra 3 (KRoot 1) (QPar (HPar 1 None) 1e10) in
  h_mom (q_core (core (fst (qn_always 1 (fun _ _ => 1) uts 1 s e)))) 0%nat = - sqrt 7.
Proof.
  intros uts s e. unfold qn_always, s, e. cbn [fst core q_core q_mem h_mom set_mom par q_hpar].
  unfold ou_decay, ou_decay2. cbn [h_friction]. unfold vadd, vscale.
  change (push_memory [q_row 0; q_row 1] (row_of (q_at 2 0))) with [q_row 1; q_row 2].
  assert (F2 : forall z, bfgs_prod 1 (uts [q_row 1; q_row 2]) 1 z 0%nat = - (sqrt 7 * z 0%nat)).
  { intros z. apply (pair_factor (a := 1) (ga := 1) true); cbn; try reflexivity; try lra.
    eexists; eexists; split; [reflexivity|reflexivity|lra]. }
  rewrite F2. replace (1 - 0) with 1 by ring. rewrite sqrt_1. ring.
Qed.
