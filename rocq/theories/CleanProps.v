(** C126: one-dimensional scenarios. *)
From Coq Require Import Reals List Bool Arith Lia Lra FunctionalExtensionality.
From Verif Require Import Keys CleanModel CleanSpec CleanProofs.
Import ListNotations.
Open Scope R_scope.

(** Potentials of a one-dimensional scenario whose functions map the rows of an
    (n, 1) array to n values: for an argument of any shape they return the values
    at its entries, a scalar if there is one entry.  [potential] may be called
    with or without a random key, the other two with one. *)
Theorem C126_entries :
  forall (upot uprior ulik : option (arr -> option key -> res)) (gpot gprior glik : R -> option key -> R) (t : R) (x : arr),
  (forall f, upot = Some f -> rowwise f gpot) -> (forall f, uprior = Some f -> rowwise f gprior) -> (forall f, ulik = Some f -> rowwise f glik) ->
  upot <> None \/ ulik <> None ->
  let s := init 1 (user_scen upot uprior ulik t) in
  let likelihood := match ulik with Some _ => glik | None => gpot end in
  let prior := match uprior with Some _ => gprior | None => fun _ _ => 0 end in
  (forall k, returns s (get s Lik) x (Given k) (Val (entries (map (fun v => likelihood v k) (dat x)))))
  /\ (forall k, returns s (get s Prior) x (Given k)
        (Val (match uprior with Some _ => entries (map (fun v => gprior v k) (dat x)) | None => Arr [] [0] end)))
  /\ (forall k, returns s (get s Pot) x k (Val (entries (map (fun v => prior v (default k) + t * likelihood v (default k)) (dat x))))).
Proof.
  intros upot uprior ulik gpot gprior glik t x Hp Hr Hl Hor s likelihood prior.
  assert (L : forall k fuel, call (S (S fuel)) s (get s Lik) x (Given k) = Val (entries (map (fun v => likelihood v k) (dat x)))).
  { intros k fuel. unfold s, likelihood. destruct ulik as [fl|].
    - destruct upot, uprior; apply (cleaned_value _ Lik fl glik); try reflexivity; apply Hl; reflexivity.
    - destruct upot as [fp|]; [|destruct Hor; contradiction].
      destruct uprior; apply (cleaned_value _ Pot fp gpot); try reflexivity; apply Hp; reflexivity. }
  assert (Q : forall k fuel, call (S (S fuel)) s (get s Prior) x (Given k)
     = Val (match uprior with Some _ => entries (map (fun v => gprior v k) (dat x)) | None => Arr [] [0] end)).
  { intros k fuel. unfold s. destruct uprior as [fr|].
    - destruct upot, ulik; try (apply (cleaned_value _ Prior fr gprior); [reflexivity|apply Hr; reflexivity]). destruct Hor; contradiction.
    - destruct upot, ulik; try reflexivity. destruct Hor; contradiction. }
  split; [|split]; intros k.
  - exists 2%nat. intros [|[|fuel]] Hf; try lia. apply L.
  - exists 2%nat. intros [|[|fuel]] Hf; try lia. apply Q.
  - exists 3%nat. intros [|[|[|fuel]]] Hf; try lia.
    assert (G : get s Pot = Some Tempered) by (unfold s; destruct upot, uprior, ulik; try reflexivity; destruct Hor; contradiction).
    assert (T : temp s = t) by (unfold s; destruct upot, uprior, ulik; reflexivity).
    rewrite G. set (n := S (S fuel)). cbn [call]. unfold n. rewrite Q, L, T. cbn [bind]. unfold prior. destruct uprior.
    + apply (sum_entries t (fun v => gprior v (default k)) (fun v => likelihood v (default k))).
    + apply (sum_zero t (fun v => likelihood v (default k))).
Qed.
Print Assumptions C126_entries.

(** DoubleWell in one dimension (scenarios/toy_examples.py 118-134), whose
    function sums over the last axis. *)
Definition well (v : R) : R := v ^ 4 / 4 - v ^ 2 / 2.
Definition double_well (x : arr) (_ : option key) : res :=
  match sh x with
  | [n; 1%nat] => Val (Arr [n] (map well (dat x)))
  | [n] => Val (Arr [] [fold_right Rplus 0 (map well (dat x))])
  | _ => Raise
  end.
Lemma well_rowwise : rowwise double_well (fun v _ => well v).
Proof. intros xs k. reflexivity. Qed.

Example C126_entries_example :
  let s := init 1 (user_scen None None (Some double_well) 1) in
  returns s (get s Pot) (Arr [] [2]) Missing (Val (Arr [] [2]))
  /\ returns s (get s Pot) (Arr [1%nat] [2]) Missing (Val (Arr [] [2]))
  /\ returns s (get s Pot) (Arr [3%nat] [2; 0; 1]) Missing (Val (Arr [3%nat] [2; 0; - (1 / 4)]))
  /\ double_well (Arr [3%nat] [2; 0; 1]) None = Val (Arr [] [7 / 4]).
Proof.
  assert (H : forall x, let s := init 1 (user_scen None None (Some double_well) 1) in
    returns s (get s Pot) x Missing (Val (entries (map (fun v => 0 + 1 * well v) (dat x))))).
  { intros x. apply (C126_entries None None (Some double_well) (fun _ _ => 0) (fun _ _ => 0) (fun v _ => well v) 1 x); try discriminate.
    - intros f E. injection E as <-. exact well_rowwise.
    - right. discriminate. }
  cbv zeta. repeat split.
  - replace (Arr [] [2]) with (entries (map (fun v => 0 + 1 * well v) (dat (Arr [] [2])))) at 2; [apply H|].
    unfold entries. cbn [dat map]. unfold well. do 2 f_equal. lra.
  - replace (Arr [] [2]) with (entries (map (fun v => 0 + 1 * well v) (dat (Arr [1%nat] [2])))); [apply H|].
    unfold entries. cbn [dat map]. unfold well. do 2 f_equal. lra.
  - replace (Arr [3%nat] [2; 0; - (1 / 4)]) with (entries (map (fun v => 0 + 1 * well v) (dat (Arr [3%nat] [2; 0; 1])))); [apply H|].
    unfold entries. cbn [dat map length]. unfold well. f_equal. f_equal; [lra|]. f_equal; [lra|]. f_equal. lra.
  - unfold double_well. cbn [sh dat map fold_right]. do 3 f_equal. unfold well. lra.
Qed.

(** In other dimensions initialising again changes nothing. *)
Theorem C126_other_dimensions :
  forall (dim : nat) (upot uprior ulik : option (arr -> option key -> res)) (t : R),
  dim <> 1%nat ->
  let s := init dim (user_scen upot uprior ulik t) in
  (forall a f, get s a = Some (User f) -> forall x k, returns s (get s a) x k (f x (default k)))
  /\ (upot <> None \/ ulik <> None -> get s Pot = Some Tempered /\ get s Lik = option_map User (match ulik with Some f => Some f | None => upot end))
  /\ init dim s = s.
Proof.
  intros dim upot uprior ulik t Hd s. apply Nat.eqb_neq in Hd. split; [|split].
  - intros a f -> x k. exists 1%nat. intros [|fuel] Hf; [lia|]. reflexivity.
  - intros Hor. unfold s, init. rewrite Hd. destruct upot, uprior, ulik; try (split; reflexivity); destruct Hor; contradiction.
  - assert (E : forall (f g : attr -> option fn) u v, (forall a, f a = g a) -> Scen f u v = Scen g u v).
    { intros f g u v H. apply functional_extensionality in H. subst. reflexivity. }
    unfold s, init. rewrite Hd. destruct upot, uprior, ulik; cbn; unfold set_get; cbn; try reflexivity; apply E; intros []; reflexivity.
Qed.
Print Assumptions C126_other_dimensions.
Example C126_other_dimensions_example :
  let s := init 3 (user_scen None None (Some double_well) 1) in
  returns s (get s Lik) (Arr [3%nat] [2; 0; 1]) Missing (Val (Arr [] [7 / 4])) /\ get s Prior = Some Zero /\ init 3 s = s.
Proof.
  destruct (C126_other_dimensions 3 None None (Some double_well) 1 ltac:(lia)) as (H1 & _ & H2).
  split; [|split; [reflexivity|exact H2]].
  destruct (H1 Lik double_well eq_refl (Arr [3%nat] [2; 0; 1]) Missing) as [m H]. exists m. intros fuel Hf. rewrite H by exact Hf.
  unfold double_well. cbn [sh dat map fold_right default]. do 3 f_equal. unfold well. lra.
Qed.

(** In one dimension likelihood and prior cannot be called without a random key,
    though the functions they are made from can. *)
Theorem C126_missing_key_refuted :
  exists (u : arr -> option key -> res) (g : R -> option key -> R) (x y : arr), rowwise u g
  /\ let s := init 1 (user_scen None (Some u) (Some u) 1) in
     let s2 := init 2 (user_scen None (Some u) (Some u) 1) in
     u x None = Val y
     /\ returns s2 (get s2 Lik) x Missing (Val y) /\ returns s2 (get s2 Prior) x Missing (Val y)
     /\ returns s (get s Lik) x (Given None) (Val y) /\ returns s (get s Prior) x (Given None) (Val y)
     /\ returns s (get s Lik) x Missing Raise /\ returns s (get s Prior) x Missing Raise.
Proof.
  exists double_well, (fun v _ => well v), (Arr [1%nat] [2]), (Arr [] [well 2 + 0]).
  split; [exact well_rowwise|]. cbv zeta.
  assert (E : Arr [] [well 2 + 0] = Arr [] [well 2]) by (do 2 f_equal; lra).
  repeat split; try reflexivity; (exists 2%nat; intros [|[|fuel]] Hf; try lia; try reflexivity; rewrite E; reflexivity).
Qed.
Print Assumptions C126_missing_key_refuted.

(** Initialising a one-dimensional scenario again makes its potential call itself
    for ever, whatever its functions. *)
Lemma reinitialised_loops upot uprior ulik t gprior : (forall f, uprior = Some f -> rowwise f gprior) -> upot <> None \/ ulik <> None ->
  let s := init 1 (init 1 (user_scen upot uprior ulik t)) in
  forall fuel x k, call fuel s (get s Pot) x k = Loop.
Proof.
  intros Hr Hor s.
  assert (C : forall f a, under s a = Some (Cleaned a) -> forall x k, call f s (Some (Cleaned a)) x (Given k) = Loop).
  { induction f as [|f IH]; intros a Ha x k; [reflexivity|]. cbn [call]. rewrite Ha, IH by exact Ha. reflexivity. }
  destruct uprior as [fr|].
  - assert (U : under s Prior = Some (Cleaned Prior) /\ get s Prior = Some (Cleaned Prior) /\ get s Pot = Some Tempered).
    { unfold s. destruct upot, ulik; try (repeat split; reflexivity). destruct Hor; contradiction. }
    destruct U as (U1 & U2 & U3). intros [|fuel] x k; [reflexivity|]. rewrite U3. cbn [call]. rewrite U2, C by exact U1. reflexivity.
  - assert (Z : under s Prior = Some Zero /\ get s Prior = Some (Cleaned Prior) /\ get s Pot = Some Tempered /\ get s Lik = Some (Cleaned Lik)).
    { unfold s. destruct upot, ulik; try (repeat split; reflexivity). destruct Hor; contradiction. }
    destruct Z as (Z1 & Z2 & Z3 & Z4).
    assert (Pv : forall f x k, call (S (S f)) s (get s Prior) x (Given k) = Val (Arr [] [0])).
    { intros f x k. rewrite Z2. cbn [call]. rewrite Z1. reflexivity. }
    destruct ulik as [fl|].
    + assert (U : under s Lik = Some (Cleaned Lik)) by (unfold s; destruct upot; reflexivity).
      intros [|fuel] x k; [reflexivity|]. rewrite Z3. cbn [call]. destruct fuel as [|[|fuel]]; [reflexivity|rewrite Z2; reflexivity|].
      rewrite Pv. cbn [bind]. rewrite Z4, C by exact U. reflexivity.
    + destruct upot as [fp|]; [|destruct Hor; contradiction].
      assert (U : under s Lik = Some (Cleaned Pot) /\ under s Pot = Some Tempered) by (split; reflexivity).
      destruct U as [U1 U2].
      assert (H : forall f x k, call f s (Some Tempered) x k = Loop /\ call f s (Some (Cleaned Lik)) x (Given (default k)) = Loop
        /\ call f s (Some (Cleaned Pot)) x (Given (default k)) = Loop).
      { induction f as [|f IH]; intros x k; [repeat split; reflexivity|]. cbn [call]. rewrite U1, U2.
        assert (I2 : forall y, call f s (Some Tempered) y (Given (default k)) = Loop) by (intros y; apply IH).
        assert (I3 : forall y, call f s (Some (Cleaned Pot)) y (Given (default k)) = Loop) by (intros y; apply IH).
        assert (I4 : forall y, call f s (Some (Cleaned Lik)) y (Given (default k)) = Loop) by (intros y; apply IH).
        rewrite I2, I3. repeat split; try reflexivity. rewrite Z4, I4. destruct f as [|[|f]]; [reflexivity|rewrite Z2; reflexivity|].
        rewrite Pv. reflexivity. }
      intros fuel x k. rewrite Z3. apply H.
Qed.
Theorem C126_reinitialised_refuted :
  exists (ulik : arr -> option key -> res) (g : R -> option key -> R), rowwise ulik g
  /\ let s := init 1 (user_scen None None (Some ulik) 1) in
     (forall x k, exists v, returns s (get s Pot) x k (Val v))
     /\ forall fuel x k, call fuel (init 1 s) (get (init 1 s) Pot) x k = Loop.
Proof.
  exists double_well, (fun v _ => well v). split; [exact well_rowwise|]. cbv zeta. split.
  - intros x k. eexists. apply (C126_entries None None (Some double_well) (fun _ _ => 0) (fun _ _ => 0) (fun v _ => well v) 1 x); try discriminate.
    + intros f E. injection E as <-. exact well_rowwise.
    + right. discriminate.
  - apply (reinitialised_loops None None (Some double_well) 1 (fun _ _ => 0)); [discriminate|right; discriminate].
Qed.
Print Assumptions C126_reinitialised_refuted.
