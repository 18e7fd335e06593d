(** Property theorems C10 and C53. *)
From Coq Require Import String.
From Coq Require Import List Bool.
From Verif Require Import SamplerModel SamplerProofs.
Import ListNotations.
Open Scope string_scope.

(** C10: the value a run finds in its extra for a parameter: a (non-None) value
    in initial_extra, else the keyword, else the sampler's own; keywords that
    name no parameter add nothing; the counter of initial_extra is kept.
    Missing from the full property: RMMetropolis and the number of leapfrog
    steps, refuted below. *)
Theorem C10_precedence_partial :
  forall (V : Type) (s : sampler V) (e : extra V) (kw : attrs V) (k : string),
  NoDup (map fst (s_params s)) ->
  (exists p, e_params (snd (startup s e kw)) = Some p /\
    get k p =
      match (match e_params e with Some q => get k q | None => None end) with
      | Some (Some v) => Some (Some v)
      | o => match get k (s_params s) with
             | None => o
             | Some v => match last_kw k kw with Some w => Some w | None => Some v end
             end
      end)
  /\ e_iter (snd (startup s e kw)) = Some (match e_iter e with Some i => i | None => 0 end)
  /\ map fst (s_params (fst (startup s e kw))) = map fst (s_params s)
  /\ map fst (s_attrs (fst (startup s e kw))) = map fst (s_attrs s).
Proof.
  intros V s e kw k H. split; [exact (startup_effective s e kw k H)|].
  split; [unfold startup; cbn [snd e_iter]; destruct (e_iter e); reflexivity|]. exact (startup_kwargs_names kw s).
Qed.
Print Assumptions C10_precedence_partial.

(** With RMMetropolis a stepsize given in initial_extra is overwritten by the
    default when the sampler's own is None. *)
Theorem C10_rm_overwrites_extra_refuted :
  exists (s : sampler nat) (e : extra nat) (default v : nat),
    (exists q, e_params e = Some q /\ get "stepsize" q = Some (Some v)) /\ v <> default
    /\ exists p, e_params (rm_startup "stepsize" default (fst (startup s e [])) (snd (startup s e []))) = Some p
       /\ get "stepsize" p = Some (Some default).
Proof.
  exists (Sampler [] [("stepsize", None)]), (Extra None (Some [("stepsize", Some 3)])), 5, 3.
  split; [eexists; split; reflexivity|]. split; [discriminate|].
  eexists; split; reflexivity.
Qed.
Print Assumptions C10_rm_overwrites_extra_refuted.

(** The number of leapfrog steps given in initial_extra is ignored by
    Underdamped. *)
Theorem C10_leapfrog_steps_refuted :
  exists (s : sampler nat) (e : extra nat) (v : nat),
    (exists q, e_params e = Some q /\ get "leapfrog_steps" q = Some (Some v))
    /\ let '(s', e') := startup s e [] in leapfrog_steps_used s' e' <> Some (Some v).
Proof.
  exists (Sampler [] [("leapfrog_steps", Some 1)]), (Extra None (Some [("leapfrog_steps", Some 10)])), 10.
  split; [eexists; split; reflexivity|]. cbn. discriminate.
Qed.
Print Assumptions C10_leapfrog_steps_refuted.

(** SVGD ignores a stepsize given in initial_extra, whatever the sampler and the
    extra are, and removes it from the caller's object. *)
Theorem C10_svgd_stepsize_refuted :
  (forall (s : sampler nat) (e e' : extra nat),
     svgd_stepsize_used (fst (startup s e [])) (snd (startup s e [])) = svgd_stepsize_used (fst (startup s e' [])) (snd (startup s e' [])))
  /\ exists (s : sampler nat) (e : extra nat) (v : nat),
    (exists q, e_params e = Some q /\ get "stepsize" q = Some (Some v))
    /\ (let '(s', e') := startup s e [] in svgd_stepsize_used s' e' <> Some (Some v))
    /\ (exists q, e_params (svgd_startup_extra (snd (startup s e []))) = Some q /\ get "stepsize" q = None).
Proof.
  split; [reflexivity|].
  exists (Sampler [] [("stepsize", Some 1)]), (Extra None (Some [("stepsize", Some 10)])), 10.
  split; [eexists; split; reflexivity|]. split; [cbn; discriminate|]. eexists. split; reflexivity.
Qed.
Print Assumptions C10_svgd_stepsize_refuted.

Example C10_example :
  let s := Sampler [("name", Some 0)] [("stepsize", Some 1); ("friction", None)] in
  snd (startup s (Extra (Some 4) (Some [("friction", Some 9)])) [("stepsize", Some 2); ("foo", Some 8)])
  = Extra (Some 4) (Some [("friction", Some 9); ("stepsize", Some 2)]).
Proof. reflexivity. Qed.

(** C10, construction: a keyword that names an attribute of the sampler sets that
    attribute and no parameter; any other keyword sets a parameter, new or not,
    and no attribute.  The last of repeated keywords holds. *)
Theorem C10_init :
  forall (V : Type) (s : sampler V) (kw : attrs V) (k : string),
  let s' := init_sampler s kw in
  if has k (s_attrs s)
  then get k (s_attrs s') = match last_kw k kw with Some v => Some v | None => get k (s_attrs s) end
       /\ get k (s_params s') = get k (s_params s)
  else get k (s_attrs s') = None
       /\ get k (s_params s') = match last_kw k kw with Some v => Some v | None => get k (s_params s) end.
Proof.
  intros V s kw k. cbv zeta. unfold init_sampler. revert s.
  induction kw as [|[k' v] kw IH]; intros s; cbn [fold_left last_kw].
  - unfold has. destruct (get k (s_attrs s)); split; reflexivity.
  - specialize (IH (init_kw s (k', v))). unfold init_kw in IH |- *. cbn [fst snd] in *.
    destruct (has k' (s_attrs s)) eqn:Ha; cbn [s_attrs s_params] in *.
    + rewrite has_set, !get_set in IH.
      destruct (String.eqb k' k) eqn:E; cbn [orb] in IH.
      * apply String.eqb_eq in E; subst k'. rewrite Ha. destruct IH as [-> ->].
        destruct (last_kw k kw); split; reflexivity.
      * destruct (has k (s_attrs s)); destruct IH as [-> ->]; destruct (last_kw k kw); split; reflexivity.
    + rewrite !get_set in IH.
      destruct (String.eqb k' k) eqn:E.
      * apply String.eqb_eq in E; subst k'. rewrite Ha in *. destruct IH as [-> ->].
        destruct (last_kw k kw); split; reflexivity.
      * destruct (has k (s_attrs s)); destruct IH as [-> ->]; destruct (last_kw k kw); split; reflexivity.
Qed.
Print Assumptions C10_init.

Example C10_init_example :
  init_sampler (Sampler [("name", Some 0)] [("stepsize", Some 1)]) [("name", Some 5); ("stepsize", Some 2); ("n", Some 8)]
  = Sampler [("name", Some 5)] [("stepsize", Some 2); ("n", Some 8)].
Proof. reflexivity. Qed.

(** C53: a run's settings do not depend on earlier runs that used the same
    initial_extra object.  Refuted: startup writes the parameters into the
    caller's object, so the second run ignores its own keyword. *)
Theorem C53_initial_extra_reuse_refuted :
  exists (s : sampler nat) (e : extra nat) (p : attrs nat),
    let e1 := snd (startup s e [("stepsize", Some 1)]) in
    let e2 := snd (startup s e1 [("stepsize", Some 2)]) in
    e_params e = None /\ e_params e2 = Some p /\ get "stepsize" p = Some (Some 1).
Proof.
  exists (Sampler [] [("stepsize", None)]), (Extra None None). eexists.
  cbn. repeat split.
Qed.
Print Assumptions C53_initial_extra_reuse_refuted.

(** What holds: a second start with a fresh extra uses its own keywords,
    whatever happened to the sampler before. *)
Theorem C53_fresh_extra_partial :
  forall (V : Type) (s : sampler V) (e : extra V) (kw1 kw2 : attrs V) (k : string) (v : V),
  NoDup (map fst (s_params s)) -> has k (s_params s) = true -> last_kw k kw2 = Some (Some v) ->
  let s1 := fst (startup s e kw1) in
  exists p, e_params (snd (startup s1 (Extra None None) kw2)) = Some p /\ get k p = Some (Some v).
Proof.
  intros V s e kw1 kw2 k v Hnd Hk Hkw s1.
  assert (Hnd1 : NoDup (map fst (s_params s1))).
  { unfold s1. cbn. destruct (startup_kwargs_names kw1 s) as [-> _]. exact Hnd. }
  destruct (startup_effective s1 (Extra None None) kw2 k Hnd1) as (p & Hp & Hg).
  exists p. split; [exact Hp|]. rewrite Hg, Hkw. cbn.
  unfold s1. cbn. destruct (startup_kwargs_get kw1 s k) as [-> _]. unfold overridden.
  unfold has in Hk. destruct (get k (s_params s)); [|discriminate]. destruct (last_kw k kw1); reflexivity.
Qed.
Print Assumptions C53_fresh_extra_partial.

Example C53_example :
  has "stepsize" [("stepsize", @None nat)] = true /\ last_kw "stepsize" [("stepsize", Some 2)] = Some (Some 2).
Proof. split; reflexivity. Qed.
