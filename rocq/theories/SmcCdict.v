(** [SMCSampler.resample] on the ensemble's cdict, mocat/src/transport/smc.py
    61-71. *)
From Coq Require Import String.
From Coq Require Import List Arith ZArith Bool Lia.
From Verif Require Import CdictModel CdictSpec CdictProofs.
Import ListNotations.
Open Scope string_scope.

Section M.
  Context {X O : Type}.
  Notation val := (val X O).
  Notation kvs := (list (string * val)).

  (** [c.k = v] *)
  Fixpoint cd_set (k : string) (v : val) (c : kvs) : kvs :=
    match c with
    | [] => [(k, v)]
    | (k', w) :: c' => if String.eqb k' k then (k, v) :: c' else (k', w) :: cd_set k v c'
    end.

  (** smc.py 61-71; [indices] is the outcome of line 65-67, [n] the number of
      rows of [value] (line 64), [zero] and [count] the numbers 0 and n.
      [None] is an exception. *)
  Definition resample_cd (zero count : X) (indices : list nat) (c : kvs) : option kvs :=
    match cd_getattr "value" c with
    | Some (VArr (AN _ rows)) =>
        let n := List.length rows in
        match cd_getitem (IArr (map Z.of_nat indices)) (false, c) with
        | Some (VCd _ c') =>
            Some (cd_set "ess" (VArr (AN [] (repeat [count] n)))
                    (cd_set "log_weight" (VArr (AN [] (repeat [zero] n))) c'))
        | _ => None
        end
    | _ => None
    end.

  Lemma cd_set_same k v c : cd_getattr k (cd_set k v c) = Some v.
  Proof.
    induction c as [|[k' w] c IH].
    - cbn. unfold cd_getattr. cbn. rewrite String.eqb_refl. reflexivity.
    - cbn [cd_set]. destruct (String.eqb k' k) eqn:E.
      + unfold cd_getattr. cbn. rewrite String.eqb_refl. reflexivity.
      + unfold cd_getattr in *. cbn. rewrite E. exact IH.
  Qed.

  Lemma cd_set_other k k2 v c : k2 <> k -> cd_getattr k2 (cd_set k v c) = cd_getattr k2 c.
  Proof.
    intros N. induction c as [|[k' w] c IH].
    - cbn. unfold cd_getattr. cbn. destruct (String.eqb_spec k k2); [congruence|reflexivity].
    - cbn [cd_set]. destruct (String.eqb_spec k' k) as [->|E].
      + unfold cd_getattr. cbn. destruct (String.eqb_spec k k2); [congruence|reflexivity].
      + unfold cd_getattr in *. cbn. destruct (String.eqb k' k2); [reflexivity|exact IH].
  Qed.
End M.

(** C19 on the cdict: every attribute other than log_weight and ess, at any
    depth, is gathered with the same indices. *)
Theorem C19_resample_cdict :
  forall (X O : Type) (zero count : X) (indices : list nat) (c : list (string * val X O)) (n : nat),
  wf (VCd false c) ->
  (exists tr rows, cd_getattr "value" c = Some (VArr (AN tr rows))) ->
  (forall p tr rows, dyn_path (VCd false c) p = Some (VArr (AN tr rows)) -> List.length rows = n) ->
  List.length indices = n -> Forall (fun i => i < n) indices ->
  exists c', resample_cd zero count indices c = Some c'
    /\ cd_getattr "log_weight" c' = Some (VArr (AN [] (repeat [zero] n)))
    /\ cd_getattr "ess" c' = Some (VArr (AN [] (repeat [count] n)))
    /\ forall k p tr rows, k <> "log_weight" -> k <> "ess" ->
         dyn_path (VCd false c) (k :: p) = Some (VArr (AN tr rows)) ->
         exists rows', at_path (VCd false c') (k :: p) = Some (VArr (AN tr rows'))
           /\ List.length rows' = n
           /\ forall i, i < n -> nth i rows' [] = nth (nth i indices 0) rows [].
Proof.
  intros X O zero count indices c n W (trv & rowsv & Hv) Hrows Hlen Hin.
  assert (Nv : List.length rowsv = n).
  { apply (Hrows ["value"] trv rowsv). cbn [dyn_path]. rewrite Hv. reflexivity. }
  pose proof (proj2 (rows_ok_path n _ W) Hrows) as Ok.
  destruct (getitem_idx_total n indices Hin _ Ok) as (v' & E & _).
  pose proof E as E'. rewrite getitem_dyn in E'.
  destruct (trav (fun _ => getitem_val (idx indices)) c) as [c0|] eqn:T; [|discriminate].
  inversion E'; subst v'; clear E'.
  unfold resample_cd. rewrite Hv. unfold cd_getitem. cbn [cd_copy snd].
  change (IArr (map Z.of_nat indices)) with (idx indices). rewrite E.
  eexists. split; [reflexivity|]. rewrite Nv. split; [|split].
  - rewrite cd_set_other by discriminate. apply cd_set_same.
  - apply cd_set_same.
  - intros k p tr rows N1 N2 Hp.
    pose proof (getitem_path (idx indices) (k :: p) (VCd false c) (VCd false c0) E) as G.
    specialize (G _ Hp). cbn [indexed_as] in G. destruct G as (a & Ha & Hat).
    pose proof (Hrows _ _ _ Hp) as Lr. rewrite <- Lr in Hin.
    unfold idx in Ha. cbn [index_rows] in Ha. rewrite (gather_nat indices rows [] Hin) in Ha. cbn in Ha.
    inversion Ha; subst a; clear Ha.
    exists (map (fun i => nth i rows []) indices). split.
    + cbn [at_path]. rewrite cd_set_other by congruence. rewrite cd_set_other by congruence.
      exact Hat.
    + split; [rewrite map_length; exact Hlen|]. intros i Hi.
      rewrite <- (map_nth (fun i => nth i rows [])). apply nth_indep. rewrite map_length. lia.
Qed.
Print Assumptions C19_resample_cdict.

Example C19_cdict_example :
  resample_cd 0 3 [2; 0; 2]
    [("value", VArr (AN [2] [[1; 2]; [3; 4]; [5; 6]])); ("log_weight", VArr (AN [] [[7]; [8]; [9]]));
     ("inner", VCd false [("w", VArr (AN [] [[10]; [20]; [30]]))]); ("name", VObj tt)]
  = Some [("value", VArr (AN [2] [[5; 6]; [1; 2]; [5; 6]])); ("log_weight", VArr (AN [] [[0]; [0]; [0]]));
     ("inner", VCd false [("w", VArr (AN [] [[30]; [10]; [30]]))]); ("name", VObj tt);
     ("ess", VArr (AN [] [[3]; [3]; [3]]))].
Proof. reflexivity. Qed.
