(** C42, C62, C63: state-space models. *)
From Coq Require Import Reals List Lia Lra.
From Coquelicot Require Import Coquelicot.
From Verif Require Import Keys McmcModel HmcModel McmcSpec McmcProofs ScenarioSpec SsmModel SsmSpec SsmProofs.
Import ListNotations.
Open Scope R_scope.

(** C42, all lengths but two: the smoothing potential is the sum of its parts. *)
Theorem C42_smoothing_potential_partial :
  forall (Y Tm : Type) (M : ssm Y Tm) (xs : list vec) (ys : list Y) (ts : list Tm) (dx : vec) (dy : Y) (dt : Tm),
  ts <> [] -> length ts <> 2%nat -> length xs = length ts -> length ys = length ts ->
  smoothing_potential M xs ys ts
  = Some (path_potential (initial_potential M) (transition_potential M) (likelihood_potential M)
            (length ts) (fun i => nth i xs dx) (fun i => nth i ys dy) (fun i => nth i ts dt)).
Proof.
  intros Y Tm M xs ys ts dx dy dt Hn H2 Hx Hy.
  destruct ts as [|t0 [|t1 [|t2 ts]]]; [congruence| |cbn in H2; lia|].
  - destruct xs as [|x0 [|]]; try discriminate. destruct ys as [|y0 [|]]; try discriminate.
    cbn. f_equal. unfold path_potential. cbn. ring.
  - unfold smoothing_potential. apply smoothing_potential__sum; assumption.
Qed.
Print Assumptions C42_smoothing_potential_partial.

(** C42, two states: the call raises although the path has a potential and the
    gradient of it is returned. *)
Theorem C42_two_states_refuted :
  exists (M : ssm R R) (xs : list vec) (ys ts : list R),
  length xs = 2%nat /\ length ys = 2%nat /\ length ts = 2%nat
  /\ smoothing_potential M xs ys ts = None
  /\ grad_smoothing_potential M xs ys ts <> None.
Proof.
  exists (Ssm (fun _ _ => 0) (fun _ _ _ _ => 0) (fun _ _ _ => 0)
              (fun _ _ _ => 0) (fun _ _ _ _ => (fun _ => 0, fun _ => 0)) (fun _ _ _ _ => 0)),
    [fun _ => 0; fun _ => 1], [0; 1], [0; 1].
  repeat split. discriminate.
Qed.
Print Assumptions C42_two_states_refuted.

(** C42, every length: one gradient per state, and together they are the
    gradient of the sum, if the parts' gradients are right along the path. *)
Theorem C42_gradient :
  forall (Y Tm : Type) (M : ssm Y Tm) (d : nat) (xs : list vec) (ys : list Y) (ts : list Tm)
    (dx : vec) (dy : Y) (dt : Tm),
  let x i := nth i xs dx in let y i := nth i ys dy in let t i := nth i ts dt in
  ts <> [] -> length xs = length ts -> length ys = length ts ->
  is_grad d (fun v => initial_potential M v (t 0%nat)) (x 0%nat) (grad_initial_potential M (x 0%nat) (t 0%nat)) ->
  (forall i, (S i < length ts)%nat ->
     is_grad2 d (fun v w => transition_potential M v (t i) w (t (S i))) (x i) (x (S i))
       (fst (grad_transition_potential M (x i) (t i) (x (S i)) (t (S i))))
       (snd (grad_transition_potential M (x i) (t i) (x (S i)) (t (S i))))) ->
  (forall i, (i < length ts)%nat ->
     is_grad d (fun v => likelihood_potential M v (y i) (t i)) (x i) (grad_likelihood_potential M (x i) (y i) (t i))) ->
  exists g, grad_smoothing_potential M xs ys ts = Some g /\ length g = length ts
  /\ is_path_grad d (length ts)
       (fun x => path_potential (initial_potential M) (transition_potential M) (likelihood_potential M)
                   (length ts) x y t)
       x (fun i => nth i g dx).
Proof.
  intros Y Tm M d xs ys ts dx dy dt x y t Hn Hx Hy G1 G2 G3.
  destruct (grad_smoothing_potential_nth dx dy dt M xs ys ts Hn Hx Hy) as (g & Eg & Lg & Ng).
  exists g. split; [exact Eg|]. split; [exact Lg|]. intros h.
  assert (Hpos : (0 < length ts)%nat) by (destruct ts; [congruence|cbn; lia]).
  rewrite sumn_ext with (g := fun i => dotn d (path_grad M (length ts) x y t i) (h i)).
  - apply (path_grad_ok M d (length ts) x y t Hpos G1); [|exact G3].
    intros i Hi. apply G2. lia.
  - intros i Hi. apply dotn_ext. intros j. apply Ng, Hi.
Qed.
Print Assumptions C42_gradient.

(** A Gaussian random walk seen through noise, three states. *)
Definition rw_ssm : ssm R R :=
  Ssm (fun x _ => x 0%nat ^ 2 / 2) (fun x _ x' _ => (x' 0%nat - x 0%nat) ^ 2 / 2) (fun x y _ => (y - x 0%nat) ^ 2 / 2)
      (fun x _ => x) (fun x _ x' _ => (fun j => x j - x' j, fun j => x' j - x j)) (fun x y _ j => x j - y).
Definition rw_path : list vec := [fun _ => 1; fun _ => 3; fun _ => 2].

Example C42_example_value :
  smoothing_potential rw_ssm rw_path [0; 0; 5] [0; 1; 2] = Some (1/2 + (2 + 1/2) + (1/2 + 9/2 + 9/2)).
Proof. cbn. f_equal. lra. Qed.

Example C42_example :
  exists g, grad_smoothing_potential rw_ssm rw_path [0; 0; 5] [0; 1; 2] = Some g /\ length g = 3%nat
  /\ is_path_grad 1 3 (fun x => path_potential (initial_potential rw_ssm) (transition_potential rw_ssm)
        (likelihood_potential rw_ssm) 3 x (fun i => nth i [0; 0; 5] 0) (fun i => nth i [0; 1; 2] 0))
       (fun i => nth i rw_path (fun _ => 0)) (fun i => nth i g (fun _ => 0)).
Proof.
  apply (C42_gradient R R rw_ssm 1 rw_path [0; 0; 5] [0; 1; 2] (fun _ => 0) 0 0);
    [discriminate|reflexivity|reflexivity| | |].
  - intros h. cbn. auto_derive; [exact I|]. field.
  - intros i Hi h0 h1. generalize (nth i rw_path (fun _ => 0)), (nth (S i) rw_path (fun _ => 0)). intros a b.
    cbn -[nth]. auto_derive; [exact I|]. field.
  - intros i Hi h. generalize (nth i rw_path (fun _ => 0)), (nth i [0; 0; 5] 0). intros a b.
    cbn -[nth]. auto_derive; [exact I|]. field.
Qed.

(** C62: simulation follows the model: the states are a draw of the initial law
    and of the transitions, each from the state before it, the observations
    draws given the states, and all draws use unrelated keys. *)
Theorem C62_simulate :
  forall (n : nat) (k : key), exists latent observed : nat -> key,
  antichain (map latent (seq 0 n) ++ map observed (seq 0 n))
  /\ (forall i, (i < n)%nat -> derived k (latent i) /\ derived k (observed i))
  /\ forall (Y Tm : Type) (initial_sample : Tm -> key -> vec) (transition_sample : vec -> Tm -> Tm -> key -> vec)
       (likelihood_sample : vec -> Tm -> key -> Y) (ts : list Tm) (dx : vec) (dy : Y) (dt : Tm),
     length ts = n -> (0 < n)%nat ->
     exists xs ys, simulate initial_sample transition_sample likelihood_sample ts k = Some (xs, ys)
     /\ length xs = n /\ length ys = n
     /\ nth 0 xs dx = initial_sample (nth 0 ts dt) (latent 0%nat)
     /\ (forall i, (S i < n)%nat ->
           nth (S i) xs dx = transition_sample (nth i xs dx) (nth i ts dt) (nth (S i) ts dt) (latent (S i)))
     /\ (forall i, (i < n)%nat -> nth i ys dy = likelihood_sample (nth i xs dx) (nth i ts dt) (observed i)).
Proof.
  intros n k. exists (fun i => KSplit k (2 * n) i), (fun i => KSplit k (2 * n) (n + i)).
  split; [|split].
  - intros i j Hij. rewrite app_length, !map_length, !seq_length in Hij.
    assert (E : map (fun i => KSplit k (2 * n) i) (seq 0 n) ++ map (fun i => KSplit k (2 * n) (n + i)) (seq 0 n)
                = split_keys k (2 * n) 0 (2 * n)).
    { unfold split_keys. assert (Es : seq 0 (2 * n) = seq 0 n ++ seq n n)
        by (replace (2 * n)%nat with (n + n)%nat by lia; exact (seq_app n n 0)).
      rewrite Es, map_app. f_equal.
      rewrite (seq_shift_n n n), map_map. reflexivity. }
    rewrite E. unfold split_keys.
    rewrite !(nth_map_seq k (2 * n)) by lia.
    apply (split_incomparable k (2 * n) i j); [lia|constructor..].
  - intros i Hi. split; repeat constructor.
  - intros Y Tm ini tra lik ts dx dy dt Hlen Hpos.
    unfold simulate. rewrite Hlen. destruct ts as [|t0 ts]; [cbn in Hlen; lia|].
    assert (Ek : firstn n (split_keys k (2 * n) 0 (2 * n)) = map (fun j => KSplit k (2 * n) j) (seq 0 n)).
    { unfold split_keys. rewrite firstn_map, firstn_seq by lia. reflexivity. }
    assert (Eo : skipn n (split_keys k (2 * n) 0 (2 * n)) = map (fun j => KSplit k (2 * n) (n + j)) (seq 0 n)).
    { unfold split_keys. rewrite skipn_map, skipn_seq by lia. replace (2 * n - n)%nat with n by lia.
      rewrite Nat.add_0_l, (seq_shift_n n n), map_map. reflexivity. }
    rewrite Ek, Eo. destruct n as [|m]; [lia|]. cbn [seq map].
    set (x0 := ini t0 (KSplit k (2 * S m) 0)).
    set (xs := x0 :: sim_latent tra x0 t0 ts (map (fun j => KSplit k (2 * S m) j) (seq 1 m))).
    assert (Lts : length ts = m) by (cbn in Hlen; lia).
    destruct (sim_latent_ok tra dx dt k (2 * S m) ts m 1 x0 t0 Lts) as [Lx Nx]. fold xs in Nx.
    assert (Lxs : length xs = S m) by (unfold xs; cbn [length]; rewrite Lx; reflexivity).
    exists xs, (map (fun p => lik (fst (fst p)) (snd (fst p)) (snd p))
                    (combine (combine xs (t0 :: ts)) (map (fun j => KSplit k (2 * S m) (S m + j)) (seq 0 (S m))))).
    split; [reflexivity|]. split; [exact Lxs|].
    assert (Lc : length (combine xs (t0 :: ts)) = S m)
      by (rewrite combine_length, Lxs; cbn [length]; rewrite Lts; lia).
    assert (Lk : length (map (fun j => KSplit k (2 * S m) (S m + j)) (seq 0 (S m))) = S m)
      by (rewrite map_length, seq_length; reflexivity).
    split; [rewrite map_length, combine_length, Lc, Lk; lia|].
    split; [reflexivity|]. split.
    + intros i Hi. rewrite (Nx i ltac:(lia)). reflexivity.
    + intros i Hi.
      rewrite (nth_indep _ dy (lik dx dt (KSplit k (2 * S m) (S m + 0))))
        by (rewrite map_length, combine_length, Lc, Lk; lia).
      change (lik dx dt (KSplit k (2 * S m) (S m + 0)))
        with ((fun p : vec * Tm * key => lik (fst (fst p)) (snd (fst p)) (snd p))
                ((dx, dt), (fun j => KSplit k (2 * S m) (S m + j)) 0%nat)).
      rewrite map_nth, combine_nth by (rewrite Lc, Lk; reflexivity).
      rewrite combine_nth by (rewrite Lxs; cbn [length]; lia). cbn [fst snd].
      rewrite (map_nth (fun j => KSplit k (2 * S m) (S m + j))), seq_nth by exact Hi. reflexivity.
Qed.
Print Assumptions C62_simulate.

Example C62_example :
  simulate (fun t _ => fun _ => t) (fun x t0 t1 _ => fun _ => x 0%nat + (t1 - t0)) (fun x t _ => x 0%nat + t)
    [1; 3; 4] (KRoot 0)
  = Some ([fun _ => 1; fun _ => 1 + (3 - 1); fun _ => 1 + (3 - 1) + (4 - 3)],
          [1 + 1; 1 + (3 - 1) + 3; 1 + (3 - 1) + (4 - 3) + 4]).
Proof. reflexivity. Qed.

(** C63, initial law and transitions: the value-and-gradient slots give the
    potential and what the gradient slots give. *)
Theorem C63_value_and_grad_partial :
  forall (Y Tm : Type) (grad : (vec -> R) -> vec -> vec) (ip : vec -> Tm -> R) (tp : vec -> Tm -> vec -> Tm -> R),
  (forall x t, exists g, slot_grad_initial (Y := Y) grad ip [AVec x; ATime t] = Some g
     /\ g = grad (fun v => ip v t) x
     /\ slot_initial_and_grad (Y := Y) grad ip [AVec x; ATime t] = Some (ip x t, [g]))
  /\ (forall x t x' t', exists g g',
     slot_grad_transition (Y := Y) grad tp 0 [AVec x; ATime t; AVec x'; ATime t'] = Some g
     /\ slot_grad_transition (Y := Y) grad tp 2 [AVec x; ATime t; AVec x'; ATime t'] = Some g'
     /\ g = grad (fun v => tp v t x' t') x /\ g' = grad (fun v => tp x t v t') x'
     /\ slot_transition_and_grad (Y := Y) grad tp [AVec x; ATime t; AVec x'; ATime t'] = Some (tp x t x' t', [g; g'])).
Proof.
  intros Y Tm grad ip tp. split; intros; repeat eexists; reflexivity.
Qed.
Print Assumptions C63_value_and_grad_partial.

(** C63, likelihood: the gradient slot works, the value-and-gradient slot raises
    on every state, observation and time. *)
Theorem C63_likelihood_refuted :
  forall (Y Tm : Type) (grad : (vec -> R) -> vec -> vec) (ip : vec -> Tm -> R) (lp : vec -> Y -> Tm -> R) x y t,
  slot_grad_likelihood grad lp [AVec x; AObs y; ATime t] = Some (grad (fun v => lp v y t) x)
  /\ slot_likelihood_and_grad grad ip lp [AVec x; AObs y; ATime t] = None.
Proof. intros. split; reflexivity. Qed.
Print Assumptions C63_likelihood_refuted.
