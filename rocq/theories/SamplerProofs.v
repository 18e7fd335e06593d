(** Proofs about sampler settings. *)
From Coq Require Import String.
From Coq Require Import List Bool.
From Verif Require Import SamplerModel.
Import ListNotations.
Open Scope string_scope.

Section P.
  Context {V : Type}.
  Notation attrs := (attrs V).

  Lemma get_set k k' v (l : attrs) : get k (set k' v l) = if String.eqb k' k then Some v else get k l.
  Proof.
    induction l as [|[k0 v0] l IH]; cbn [set get].
    - destruct (String.eqb k' k); reflexivity.
    - destruct (String.eqb_spec k0 k') as [->|Hne]; cbn [get].
      + destruct (String.eqb k' k); reflexivity.
      + rewrite IH. destruct (String.eqb_spec k0 k) as [->|Hk]; [|reflexivity].
        destruct (String.eqb_spec k' k); congruence.
  Qed.

  Lemma has_set k k' v (l : attrs) : has k (set k' v l) = (String.eqb k' k || has k l)%bool.
  Proof. unfold has. rewrite get_set. destruct (String.eqb k' k); reflexivity. Qed.

  Lemma set_keys k v (l : attrs) : has k l = true -> map fst (set k v l) = map fst l.
  Proof.
    unfold has. induction l as [|[k0 v0] l IH]; cbn [get set]; [discriminate|].
    destruct (String.eqb_spec k0 k); intros H; cbn [map fst]; [reflexivity|]. f_equal. auto.
  Qed.

  (** keywords win over the sampler's own values *)
  Fixpoint last_kw (k : string) (kw : attrs) : option (option V) :=
    match kw with
    | [] => None
    | (k', v) :: kw' => match last_kw k kw' with
                        | Some w => Some w
                        | None => if String.eqb k' k then Some v else None
                        end
    end.

  Definition overridden (k : string) (own : attrs) (kw : attrs) : option (option V) :=
    match get k own with
    | None => None
    | Some v => match last_kw k kw with Some w => Some w | None => Some v end
    end.

  Lemma startup_kw_get (s : sampler V) kv k :
    get k (s_params (startup_kw s kv)) =
      match get k (s_params s) with
      | None => None
      | Some v => if String.eqb (fst kv) k then Some (snd kv) else Some v
      end
    /\ get k (s_attrs (startup_kw s kv)) =
      match get k (s_attrs s) with
      | None => None
      | Some v => if String.eqb (fst kv) k then Some (snd kv) else Some v
      end.
  Proof.
    destruct s as [a p], kv as [k' v]. unfold startup_kw. cbn [fst snd s_attrs s_params].
    destruct (has k' a) eqn:Ha; cbn [s_attrs s_params];
    destruct (has k' p) eqn:Hp; cbn [s_attrs s_params]; rewrite ?get_set; unfold has in *;
      (split; destruct (String.eqb_spec k' k) as [->|Hne];
       repeat match goal with |- context [get k ?l] => destruct (get k l) end; congruence).
  Qed.

  Lemma startup_kw_names (s : sampler V) kv :
    map fst (s_params (startup_kw s kv)) = map fst (s_params s)
    /\ map fst (s_attrs (startup_kw s kv)) = map fst (s_attrs s).
  Proof.
    destruct s as [a p], kv as [k' v]. unfold startup_kw. cbn [fst snd s_attrs s_params].
    destruct (has k' a) eqn:Ha; cbn [s_attrs s_params];
    destruct (has k' p) eqn:Hp; cbn [s_attrs s_params]; split; auto using set_keys.
  Qed.

  Lemma startup_kwargs_get kw : forall (s : sampler V) k,
    get k (s_params (startup_kwargs s kw)) = overridden k (s_params s) kw
    /\ get k (s_attrs (startup_kwargs s kw)) = overridden k (s_attrs s) kw.
  Proof.
    unfold startup_kwargs, overridden.
    induction kw as [|[k' v] kw IH]; intros s k; cbn [fold_left last_kw].
    - split; [destruct (get k (s_params s))|destruct (get k (s_attrs s))]; reflexivity.
    - destruct (IH (startup_kw s (k', v)) k) as [H1 H2]. rewrite H1, H2.
      destruct (startup_kw_get s (k', v) k) as [G1 G2]. rewrite G1, G2. cbn [fst snd].
      split; [destruct (get k (s_params s))|destruct (get k (s_attrs s))]; auto;
        destruct (String.eqb k' k); destruct (last_kw k kw); reflexivity.
  Qed.

  Lemma startup_kwargs_names kw : forall (s : sampler V),
    map fst (s_params (startup_kwargs s kw)) = map fst (s_params s)
    /\ map fst (s_attrs (startup_kwargs s kw)) = map fst (s_attrs s).
  Proof.
    unfold startup_kwargs. induction kw as [|kv kw IH]; intros s; cbn [fold_left]; [auto|].
    destruct (IH (startup_kw s kv)) as [-> ->]. apply startup_kw_names.
  Qed.

  Lemma fill_get (e : attrs) kv k :
    get k (fill e kv) = match get k e with
                        | Some (Some v) => Some (Some v)
                        | o => if String.eqb (fst kv) k then Some (snd kv) else o
                        end.
  Proof.
    destruct kv as [k' v]. unfold fill. cbn [fst snd].
    destruct (String.eqb_spec k' k) as [->|Hne].
    - destruct (get k e) as [[w|]|] eqn:E; rewrite ?get_set, ?E; try rewrite String.eqb_refl; reflexivity.
    - assert (E : (k' =? k) = false) by now apply String.eqb_neq.
      destruct (get k' e) as [[w|]|]; rewrite ?get_set, ?E; destruct (get k e) as [[]|]; reflexivity.
  Qed.

  (* with unique names *)
  Lemma fill_all_get : forall (p e : attrs) k, NoDup (map fst p) ->
    get k (fold_left fill p e) = match get k e with
                                 | Some (Some v) => Some (Some v)
                                 | o => match get k p with Some w => Some w | None => o end
                                 end.
  Proof.
    induction p as [|[k' v] p IH]; intros e k Hnd; cbn [fold_left get map fst] in *.
    - destruct (get k e) as [[]|]; reflexivity.
    - inversion Hnd; subst. rewrite IH by assumption. rewrite fill_get. cbn [fst snd].
      destruct (get k e) as [[w|]|]; auto;
      destruct (String.eqb_spec k' k) as [->|Hne]; auto; destruct v; auto;
      (assert (Hn : get k p = None);
       [clear -H1; induction p as [|[k0 v0] p IHp]; [reflexivity|];
        cbn [get map fst In] in *; destruct (String.eqb_spec k0 k); [subst; tauto|tauto]
       |now rewrite Hn]).
  Qed.

  Lemma startup_effective (s : sampler V) e kw k :
    NoDup (map fst (s_params s)) ->
    exists p, e_params (snd (startup s e kw)) = Some p /\
    get k p =
      match (match e_params e with Some q => get k q | None => None end) with
      | Some (Some v) => Some (Some v)
      | o => match get k (s_params s) with
             | None => o
             | Some v => match last_kw k kw with Some w => Some w | None => Some v end
             end
      end.
  Proof.
    intros Hnd. eexists. split; [reflexivity|].
    rewrite fill_all_get by (destruct (startup_kwargs_names kw s) as [-> _]; exact Hnd).
    destruct (startup_kwargs_get kw s k) as [-> _]. unfold overridden.
    destruct (e_params e) as [q|]; cbn [get];
      [destruct (get k q) as [[w|]|]|]; destruct (get k (s_params s)); auto;
      destruct (last_kw k kw); auto.
  Qed.
End P.
