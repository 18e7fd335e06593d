(** Property theorems C03, C04, C05, C06, C07 and the cdict part of C01. *)
From Coq Require Import String.
From Coq Require Import List Arith ZArith Bool Ascii Lia.
From Verif Require Import LoopModel LoopSpec LoopProofs.
From Verif Require Import CdictModel CdictSpec CdictProofs CdictStack SaveModel SaveProofs.
Import ListNotations.
Open Scope string_scope.

(** * C03 *)
Theorem C03_getitem_every_attribute :
  forall (X O : Type) (ix : index) (static : bool) (c : list (string * val X O)) (v' : val X O),
  cd_getitem ix (static, c) = Some v' ->
  forall p w, dyn_path (VCd false c) p = Some w -> indexed_as ix w (at_path v' p).
Proof. intros X O ix st c v' H p. exact (getitem_path ix p (VCd false c) v' H). Qed.
Print Assumptions C03_getitem_every_attribute.

(** Indexing raises exactly when some dynamic array cannot be indexed. *)
Theorem C03_getitem_error :
  forall (X O : Type) (ix : index) (static : bool) (c : list (string * val X O)),
  wf (VCd false c) ->
  (cd_getitem ix (static, c) = None <->
   exists p tr rows, dyn_path (VCd false c) p = Some (VArr (AN tr rows))
                     /\ index_rows ix tr rows = None).
Proof. intros X O ix st c H. exact (getitem_error ix (VCd false c) H). Qed.
Print Assumptions C03_getitem_error.

(** Indexing by an array of indices and then by another is indexing by the
    composed array (what repeated resampling does). *)
Theorem C03_gather_compose :
  forall (X O : Type) (n : nat) (l1 l2 : list nat) (c : list (string * val X O)),
  wf (VCd false c) ->
  (forall p tr rows, dyn_path (VCd false c) p = Some (VArr (AN tr rows)) -> List.length rows = n) ->
  Forall (fun i => i < n) l1 -> Forall (fun i => i < List.length l1) l2 ->
  exists v1, getitem_val (idx l1) (VCd false c) = Some v1
    /\ getitem_val (idx l2) v1 = getitem_val (idx (map (fun j => nth j l1 0) l2)) (VCd false c)
    /\ getitem_val (idx l2) v1 <> None.
Proof.
  intros X O n l1 l2 c W H H1 H2. apply (rows_ok_path n _ W) in H.
  destruct (getitem_idx_total n l1 H1 _ H) as (v1 & E & Hv1).
  exists v1. split; [exact E|]. split; [exact (getitem_compose n l1 l2 H1 H2 _ H v1 E)|].
  destruct (getitem_idx_total _ l2 H2 _ Hv1) as (v2 & E2 & _). congruence.
Qed.
Print Assumptions C03_gather_compose.

(** What indexing one array means: an integer array picks rows one by one. *)
Theorem C03_gather_rows :
  forall (X : Type) (l : list Z) (tr : list nat) (rows : list (list X)) (a : arr X),
  index_rows (IArr l) tr rows = Some a ->
  exists out, a = AN tr out /\ Forall2 (fun i r => exists j, picks (List.length rows) i j
                                             /\ nth_error rows j = Some r) l out.
Proof.
  intros X l tr rows a H. cbn [index_rows] in H. unfold gather_rows in H.
  destruct rows as [|r0 rows'].
  - destruct l; [|discriminate]. exists []. split; [now injection H|constructor].
  - cbn [option_map] in H. injection H as <-. eexists. split; [reflexivity|].
    set (rows := r0 :: rows'). assert (Hn : List.length rows <> 0) by discriminate.
    induction l as [|i l IH]; cbn [map]; constructor; [|exact IH].
    destruct (norm_index_picks (List.length rows) i Hn) as (Hp & Hlt).
    exists (norm_index (List.length rows) i). split; [exact Hp|]. exact (nth_error_nth' rows r0 Hlt).
Qed.
Print Assumptions C03_gather_rows.

(** An integer picks one row and drops the axis: the row's entries are kept in
    order. *)
Theorem C03_integer_row :
  forall (X : Type) (i : Z) (tr : list nat) (rows : list (list X)) (a : arr X),
  Forall (fun r => List.length r = fold_right Nat.mul 1 tr) rows ->
  index_rows (IInt i) tr rows = Some a ->
  exists j r, picks (List.length rows) i j /\ nth_error rows j = Some r
    /\ match tr with
       | [] => exists x, r = [x] /\ a = A0 x
       | n :: tr' => exists rs, a = AN tr' rs /\ List.length rs = n /\ concat rs = r
                       /\ Forall (fun q => List.length q = fold_right Nat.mul 1 tr') rs
       end.
Proof.
  intros X i tr rows a Hall H. cbn [index_rows] in H.
  destruct rows as [|r0 rows']; [discriminate|].
  set (rows := r0 :: rows') in *. assert (Hn : List.length rows <> 0) by discriminate.
  destruct (norm_index_picks (List.length rows) i Hn) as (Hp & Hlt).
  exists (norm_index (List.length rows) i), (nth (norm_index (List.length rows) i) rows r0).
  split; [exact Hp|]. split; [apply nth_error_nth'; exact Hlt|].
  assert (Hr := proj1 (Forall_forall _ _) Hall _ (nth_In rows r0 Hlt)). cbn beta in Hr.
  destruct tr as [|n tr'].
  - destruct (nth _ rows r0) as [|x [|y q]]; [discriminate| |discriminate].
    exists x. split; [reflexivity|]. congruence.
  - injection H as <-. eexists. split; [reflexivity|].
    cbn [fold_right] in Hr. apply chunks_correct. exact Hr.
Qed.
Print Assumptions C03_integer_row.

(** A slice keeps the rows between its bounds. *)
Theorem C03_slice_rows :
  forall (X : Type) (lo hi : option Z) (tr : list nat) (rows : list (list X)) (a : arr X),
  index_rows (ISlice lo hi) tr rows = Some a ->
  exists x y out, a = AN tr out
    /\ match lo with Some i => bound (List.length rows) i x | None => x = 0 end
    /\ match hi with Some i => bound (List.length rows) i y | None => y = List.length rows end
    /\ forall k, nth_error out k = if (x + k <? y)%nat then nth_error rows (x + k) else None.
Proof.
  intros X lo hi tr rows a H. cbn [index_rows] in H. injection H as <-.
  unfold slice_rows.
  exists (match lo with None => 0 | Some i => norm_bound (List.length rows) i end),
         (match hi with None => List.length rows | Some i => norm_bound (List.length rows) i end).
  eexists. split; [reflexivity|].
  split; [destruct lo; [apply norm_bound_spec|reflexivity]|].
  split; [destruct hi; [apply norm_bound_spec|reflexivity]|].
  intros k. generalize (match lo with None => 0 | Some i => norm_bound (List.length rows) i end).
  generalize (match hi with None => List.length rows | Some i => norm_bound (List.length rows) i end).
  intros y x. destruct (Nat.ltb_spec (x + k) y) as [L|L].
  - rewrite nth_error_firstn_lt by lia. apply nth_error_skipn_add.
  - apply nth_error_None. rewrite firstn_length. lia.
Qed.
Print Assumptions C03_slice_rows.

Definition ex_cd : list (string * val nat string) :=
  [("value", VArr (AN [2] [[1; 2]; [3; 4]; [5; 6]]));
   ("n", VNum 7);
   ("inner", VCd false [("w", VArr (AN [] [[10]; [20]; [30]])); ("z", VArr (A0 5))]);
   ("fixed", VCd true [("m", VArr (AN [] [[8]; [9]; [7]]))]);
   ("name", VObj "chain")].

Example C03_example :
  cd_getitem (IInt (-1)) (false, ex_cd)
  = Some (VCd false
      [("value", VArr (AN [] [[5]; [6]])); ("n", VNum 7);
       ("inner", VCd false [("w", VArr (A0 30)); ("z", VArr (A0 5))]);
       ("fixed", VCd true [("m", VArr (AN [] [[8]; [9]; [7]]))]);
       ("name", VObj "chain")]).
Proof. reflexivity. Qed.
Example C03_example_path :
  dyn_path (VCd false ex_cd) ["inner"; "w"] = Some (VArr (AN [] [[10]; [20]; [30]])).
Proof. reflexivity. Qed.

(** * C04 *)
(** Attribute names and attribute values of a sum. *)
Theorem C04_add_attributes :
  forall (X O : Type) (xadd : X -> X -> X) (oadd : O -> O -> option O)
         (c d : bool * list (string * val X O)) (v : val X O),
  cd_add xadd oadd c (Some d) = Some v ->
  exists r, v = VCd false r /\ map fst r = map fst (snd c)
    /\ forall k,
       match cd_getattr k (snd c), cd_getattr k (snd d) with
       | None, _ => cd_getattr k r = None
       | Some a, None => cd_getattr k r = Some a
       | Some (VArr (AN tr rows)), Some (VArr (AN tr' rows')) =>
           tr = tr' /\ cd_getattr k r = Some (VArr (AN tr (rows ++ rows')))
       | Some a, Some b =>
           exists w, cd_getattr k r = Some w /\ add_val xadd oadd (String.eqb k "time") a b = Some w
       end.
Proof.
  intros X O xadd oadd c d v H.
  destruct (add_attrs xadd oadd c d v H) as (r & Hv & Hk & Ha).
  exists r. split; [exact Hv|]. split; [exact Hk|]. intros k. specialize (Ha k).
  destruct (cd_getattr k (snd c)) as [a|]; [|exact Ha].
  destruct (cd_getattr k (snd d)) as [b|]; [|destruct a as [[]| | |]; exact Ha].
  destruct a as [[x|tr rows]| | |]; try exact Ha.
  destruct b as [[y|tr' rows']| | |]; try exact Ha.
  destruct Ha as (w & Hr & Hw).
  cbn [add_val is_array orb atleast_1d] in Hw. unfold append0 in Hw. cbn [fst snd] in Hw.
  destruct (list_eq_dec Nat.eq_dec tr tr') as [E|E]; [|discriminate].
  split; [exact E|]. cbn [option_map] in Hw. congruence.
Qed.
Print Assumptions C04_add_attributes.

(** Adding None gives an ordinary cdict with the same attributes, which behaves
    in further sums like the cdict it came from. *)
Theorem C04_add_none :
  forall (X O : Type) (xadd : X -> X -> X) (oadd : O -> O -> option O) (c : bool * list (string * val X O)),
  exists r, cd_add xadd oadd c None = Some (VCd false r)
  /\ map fst r = map fst (snd c) /\ (forall k, cd_getattr k r = cd_getattr k (snd c))
  /\ (fst c = false -> forall d, cd_add xadd oadd (false, r) d = cd_add xadd oadd c d).
Proof.
  intros X O xadd oadd [b c]. exists c. split; [reflexivity|]. split; [reflexivity|].
  split; [reflexivity|]. cbn [fst]. intros ->. reflexivity.
Qed.
Print Assumptions C04_add_none.
Example C04_add_none_example :
  cd_add Nat.add (fun _ _ : string => None) (false, ex_cd) None = Some (VCd false ex_cd) /\ ex_cd <> [].
Proof. split; [reflexivity|discriminate]. Qed.

(** Associativity for chains of the same kind. *)
Theorem C04_add_assoc_partial :
  forall (X O : Type) (xadd : X -> X -> X) (oadd : O -> O -> option O)
         (a b c : list (string * val X O)),
  wf (VCd false a) -> wf (VCd false b) -> wf (VCd false c) ->
  splittable (VCd false a) -> splittable (VCd false b) ->
  same_kind (VCd false a) (VCd false b) -> same_kind (VCd false b) (VCd false c) ->
  exists u s w,
    cd_add xadd oadd (false, a) (Some (false, b)) = Some (VCd false u)
    /\ cd_add xadd oadd (false, b) (Some (false, c)) = Some (VCd false s)
    /\ cd_add xadd oadd (false, u) (Some (false, c)) = Some (VCd false w)
    /\ cd_add xadd oadd (false, a) (Some (false, s)) = Some (VCd false w).
Proof.
  intros X O xadd oadd a b c Wa Wb Wc Pa Pb Sab Sbc.
  destruct (add_assoc xadd oadd (VCd false a) (VCd false b) (VCd false c) true) as (u & s & H1 & H2 & H3);
    auto; try (intros _; exact I).
  destruct (add_total xadd oadd (VCd false a) (VCd false b) true) as (u' & E1 & S1 & S1' & W1 & P1);
    auto; try (intros _; exact I).
  destruct (add_total xadd oadd (VCd false b) (VCd false c) true) as (s' & E2 & S2 & S2' & W2 & P2);
    auto; try (intros _; exact I).
  assert (u' = u) by congruence. assert (s' = s) by congruence. subst u' s'.
  destruct u as [[]| | |[|] u]; try (simpl in S1; tauto).
  destruct s as [[]| | |[|] s]; try (simpl in S2; tauto).
  destruct (add_total xadd oadd (VCd false u) (VCd false c) true) as (w & E3 & S3 & _);
    auto; try (intros _; exact I); [eapply same_kind_trans; [exact xadd|exact oadd|exact S1'|exact Sbc]|].
  destruct w as [[]| | |[|] w]; try (simpl in S3; tauto).
  exists u, s, w. unfold cd_add. cbn [fst snd]. repeat split; auto. congruence.
Qed.
Print Assumptions C04_add_assoc_partial.

(** Without the same names addition is not associative. *)
Theorem C04_add_assoc_refuted :
  exists (a b c u s w w' : list (string * val nat nat)),
    wf (VCd false a) /\ wf (VCd false b) /\ wf (VCd false c)
    /\ cd_add Nat.add (fun _ _ => None) (false, a) (Some (false, b)) = Some (VCd false u)
    /\ cd_add Nat.add (fun _ _ => None) (false, b) (Some (false, c)) = Some (VCd false s)
    /\ cd_add Nat.add (fun _ _ => None) (false, u) (Some (false, c)) = Some (VCd false w)
    /\ cd_add Nat.add (fun _ _ => None) (false, a) (Some (false, s)) = Some (VCd false w')
    /\ w <> w'.
Proof.
  exists [("x", VArr (AN [] [[1]]))], [], [("x", VArr (AN [] [[2]]))].
  do 4 eexists. repeat split; try reflexivity; try (repeat constructor; simpl; tauto). discriminate.
Qed.
Print Assumptions C04_add_assoc_refuted.

(** Splitting at any point and adding the pieces gives the chain back. *)
Theorem C04_split_and_add :
  forall (X O : Type) (xadd : X -> X -> X) (oadd : O -> O -> option O) (k : nat)
         (c : list (string * val X O)),
  wf (VCd false c) -> splittable (VCd false c) ->
  exists a b,
    cd_getitem (ISlice None (Some (Z.of_nat k))) (false, c) = Some (VCd false a)
    /\ cd_getitem (ISlice (Some (Z.of_nat k)) None) (false, c) = Some (VCd false b)
    /\ cd_add xadd oadd (false, a) (Some (false, b)) = Some (VCd false c).
Proof.
  intros X O xadd oadd k c W P.
  destruct (split_rejoin xadd oadd k (VCd false c) true W P (fun _ => I))
    as (a & b & Ha & Hb & _ & _ & Sa & Sb & Hab).
  destruct a as [[]| | |[|] a]; try (simpl in Sa; tauto).
  destruct b as [[]| | |[|] b]; try (simpl in Sb; tauto).
  exists a, b. repeat split; auto.
Qed.
Print Assumptions C04_split_and_add.

(** The proviso on zero-dimensional arrays is needed: they are doubled. *)
Theorem C04_split_zero_dim_refuted :
  exists (c a b r : list (string * val nat nat)),
    wf (VCd false c)
    /\ cd_getitem (ISlice None (Some 1%Z)) (false, c) = Some (VCd false a)
    /\ cd_getitem (ISlice (Some 1%Z) None) (false, c) = Some (VCd false b)
    /\ cd_add Nat.add (fun _ _ => None) (false, a) (Some (false, b)) = Some (VCd false r)
    /\ r <> c.
Proof.
  exists [("rate", VArr (A0 3))]. do 3 eexists.
  repeat split; try reflexivity; try (repeat constructor; simpl; tauto). discriminate.
Qed.
Print Assumptions C04_split_zero_dim_refuted.

Definition ex_chain (l : list (list nat)) (m : list nat) : list (string * val nat string) :=
  [("value", VArr (AN [2] l)); ("summary", VCd true [("n", VNum 3)]);
   ("params", VCd false [("step", VArr (AN [] (map (fun x => [x]) m)))]); ("name", VObj "c")].
Example C04_example_hyps :
  wf (VCd false (ex_chain [[1; 2]] [1])) /\ splittable (VCd false (ex_chain [[1; 2]] [1]))
  /\ same_kind (VCd false (ex_chain [[1; 2]] [1])) (VCd false (ex_chain [[3; 4]; [5; 6]] [2; 3])).
Proof. repeat split; try (repeat constructor; simpl; intuition discriminate); simpl; intros; discriminate. Qed.
Example C04_example :
  cd_add Nat.add (fun _ _ => None) (false, ex_chain [[1; 2]] [1]) (Some (false, ex_chain [[3; 4]; [5; 6]] [2; 3]))
  = Some (VCd false (ex_chain [[1; 2]; [3; 4]; [5; 6]] [1; 2; 3])).
Proof. reflexivity. Qed.

(** * C01 on cdicts: [initial_state[newaxis] + stack[:final]]. *)
Theorem C01_chain_assembly :
  forall (X O Ex : Type) (xadd : X -> X -> X) (oadd : O -> O -> option O)
         (terminate : val X O -> Ex -> bool) (update : val X O -> Ex -> val X O * Ex)
         (init : val X O) (extra : Ex) (max_iter : nat) (stack : val X O),
  wf init ->
  let raw := while_loop_stacked_raw (fun s e => negb (terminate s e)) update (init, extra) max_iter in
  stack_vals init (fst (fst raw)) = Some stack ->
  exists k h sl,
    stops_at (fun s e => negb (terminate s e)) update (init, extra) max_iter k
    /\ getitem_val INew init = Some h
    /\ getitem_val (ISlice None (Some (Z.of_nat (snd raw)))) stack = Some sl
    /\ add_val xadd oadd true h sl
       = stack_vals init (map (fun i => fst (iterate update i (init, extra))) (seq 0 (S k)))
    /\ add_val xadd oadd true h sl <> None.
Proof.
  intros X O Ex xadd oadd t u init e m stack W raw Hs.
  destruct (raw_correct (fun s e => negb (t s e)) u (init, e) m) as (k & Hk & H1 & _ & H3).
  fold raw in H1, H3.
  destruct (chain_assembly xadd oadd init (fst (fst raw)) stack k W Hs) as (h & sl & Hh & Hsl & Ha & Hn).
  exists k, h, sl. rewrite H3. repeat split; auto; try apply Hk.
  rewrite Ha. f_equal. rewrite H1. unfold iterates.
  assert (L : List.length (map (fun j => fst (iterate u (S j) (init, e))) (seq 0 k)) = k)
    by now rewrite map_length, seq_length.
  rewrite <- L at 1. rewrite firstn_app, firstn_all, Nat.sub_diag. simpl.
  rewrite app_nil_r, <- seq_shift, map_map. reflexivity.
Qed.
Print Assumptions C01_chain_assembly.

Example C01_chain_assembly_example :
  let init : val nat string := VCd false [("x", VArr (A0 0)); ("v", VArr (AN [] [[1]; [2]]))] in
  let upd (s : val nat string) (e : nat) :=
    (VCd false [("x", VArr (A0 (S e))); ("v", VArr (AN [] [[e]; [7]]))], S e) in
  stack_vals init (fst (fst (while_loop_stacked_raw (fun s e => negb (Nat.leb 2 e)) upd (init, 0) 4)))
  = Some (VCd false [("x", VArr (AN [] [[1]; [2]; [0]; [0]]));
                     ("v", VArr (AN [2] [[0; 7]; [1; 7]; [1; 2]; [1; 2]]))]).
Proof. reflexivity. Qed.

(** * C05 *)
Theorem C05_flatten_unflatten :
  forall (X O : Type) (v : val X O) (rest : list (val X O)),
  unflatten (structure v) (leaves v ++ rest) = Some (v, rest).
Proof. exact (@flatten_roundtrip). Qed.
Print Assumptions C05_flatten_unflatten.

Theorem C05_tree_map :
  forall (X O : Type) (f : val X O -> val X O) (v : val X O),
  exists v', tree_map f v = Some v'
    /\ forall p w, dyn_path v p = Some w ->
       match w with
       | VCd false d => exists d', at_path v' p = Some (VCd false d') /\ map fst d' = map fst d
       | _ => at_path v' p = Some (f w)
       end.
Proof.
  intros X O f v. exists (map_leaves f v). split.
  - unfold tree_map. rewrite <- (app_nil_r (map f (leaves v))), unflatten_map. reflexivity.
  - intros p w H. exact (tree_map_path f p v w H).
Qed.
Print Assumptions C05_tree_map.

Example C05_example :
  tree_map (fun w => match w with VNum n => VNum (n + 1) | _ => w end) (VCd false ex_cd)
  = Some (VCd false
     [("value", VArr (AN [2] [[1; 2]; [3; 4]; [5; 6]])); ("n", VNum 8);
      ("inner", VCd false [("w", VArr (AN [] [[10]; [20]; [30]])); ("z", VArr (A0 5))]);
      ("fixed", VCd true [("m", VArr (AN [] [[8]; [9]; [7]]))]); ("name", VObj "chain")]).
Proof. reflexivity. Qed.

(** * C06 *)
(** A successful save can be loaded back from the resulting file. *)
Theorem C06_save_then_load :
  forall (D C : Type) (dec : forall a b : D, {a = b} + {a <> b})
         (f : @fs D C) (c : C) (p : @path D) (overwrite : bool),
  snd p <> [] -> snd (save dec f c p overwrite) = true ->
  load (fst (save dec f c p overwrite)) (target p) = Some c.
Proof. exact (@save_load). Qed.
Print Assumptions C06_save_then_load.

(** Saving onto an existing file without overwrite raises, changing nothing;
    in all other cases it succeeds. *)
Theorem C06_no_silent_overwrite :
  forall (D C : Type) (dec : forall a b : D, {a = b} + {a <> b})
         (f : @fs D C) (c : C) (p : @path D),
  match f (target p) with
  | Some _ => save dec f c p false = (f, false) /\ snd (save dec f c p true) = true
  | None => forall ow, snd (save dec f c p ow) = true
  end.
Proof.
  intros D C dec f c p. destruct (f (target p)) as [x|] eqn:E.
  - split; [exact (save_exists dec f c p x E)|].
    destruct (save_target dec f c p true) as [_ H]. now rewrite E in H.
  - intros ow. destruct (save_target dec f c p ow) as [_ H]. now rewrite E in H.
Qed.
Print Assumptions C06_no_silent_overwrite.

(** Any history: what a path holds depends only on the saves whose name has
    the same stem.  Missing from the full property: two different requested
    names are independent only when their stems differ. *)
Theorem C06_history_partial :
  forall (D C : Type) (dec : forall a b : D, {a = b} + {a <> b})
         (h : list (C * @path D * bool)) (f : @fs D C) (d : D) (s : name),
  Forall (fun e => fst (snd (fst e)) = d -> stem (snd (snd (fst e))) <> stem s) h ->
  saves dec f h (target (d, s)) = f (target (d, s)).
Proof.
  intros D C dec h f d s H. apply saves_frame. eapply Forall_impl; [|exact H].
  intros [[c [d' s']] ow]. unfold target. simpl. intros Hs He. inversion He; subst.
  apply Hs; auto. now apply save_name_collision.
Qed.
Print Assumptions C06_history_partial.

(** Two different names can denote the same file: the second save destroys the
    first although the names differ. *)
Theorem C06_distinct_names_refuted :
  exists (s t : name) (f : @fs unit nat) (dec : forall a b : unit, {a = b} + {a <> b}),
    s <> t
    /\ (forall p, f p = None)
    /\ let f1 := fst (save dec f 1 (tt, s) true) in
       let f2 := fst (save dec f1 2 (tt, t) true) in
       load f1 (target (tt, s)) = Some 1 /\ load f2 (target (tt, s)) = Some 2.
Proof.
  exists ["r"; "."; "1"]%char, ["r"; "."; "2"]%char, (fun _ => None).
  assert (dec : forall a b : unit, {a = b} + {a <> b}) by decide equality.
  exists dec. split; [discriminate|]. split; [reflexivity|].
  unfold save, save_ops, load.
  change (target (tt, ["r"; "."; "1"]%char)) with (tt, ["r"; "."; "c"; "d"; "i"; "c"; "t"]%char).
  change (target (tt, ["r"; "."; "2"]%char)) with (tt, ["r"; "."; "c"; "d"; "i"; "c"; "t"]%char).
  cbn [fst snd fold_left do_op]. rewrite !upd_same. cbn [fst snd fold_left do_op].
  rewrite !upd_same. split; reflexivity.
Qed.
Print Assumptions C06_distinct_names_refuted.

Example C06_example_names :
  save_name ["r"; "u"; "n"]%char = ["r"; "u"; "n"; "."; "c"; "d"; "i"; "c"; "t"]%char
  /\ stem ["r"; "."; "1"]%char = ["r"]%char /\ stem ["q"; "."; "1"]%char = ["q"]%char.
Proof. repeat split. Qed.

(** * C07 *)
(** Interrupting an overwrite can lose both versions. *)
Theorem C07_crash_safe_refuted :
  exists (f : @fs unit nat) (dec : forall a b : unit, {a = b} + {a <> b}) (p : @path unit) (k : nat),
    load f (target p) = Some 1
    /\ load (save_crash dec k f 2 p true) (target p) = None.
Proof.
  assert (dec : forall a b : unit, {a = b} + {a <> b}) by decide equality.
  pose (p := (tt, ["r"]%char) : @path unit).
  exists (fun q => if path_eq_dec dec q (target p) then Some (Full 1) else None), dec, p, 1.
  split.
  - unfold load. destruct (path_eq_dec dec (target p) (target p)); [reflexivity|congruence].
  - unfold load. rewrite crash_exact.
    destruct (path_eq_dec dec (target p) (target p)); [reflexivity|congruence].
Qed.
Print Assumptions C07_crash_safe_refuted.

(** What does hold: at every crash point all other files are untouched,
    without overwrite an existing file is untouched, and the outcome at the
    path itself is exactly as tabulated; the old version is lost from the
    first step on and the new one present only after the last. *)
Theorem C07_crash_partial :
  forall (D C : Type) (dec : forall a b : D, {a = b} + {a <> b}) (k : nat)
         (f : @fs D C) (c : C) (p : @path D) (overwrite : bool),
  (forall q, q <> target p -> save_crash dec k f c p overwrite q = f q)
  /\ (f (target p) <> None -> overwrite = false -> save_crash dec k f c p overwrite (target p) = f (target p))
  /\ (f (target p) <> None -> overwrite = true ->
      save_crash dec k f c p overwrite (target p)
      = match k with 0 => f (target p) | 1 => None | 2 => Some Incomplete | _ => Some (Full c) end)
  /\ (f (target p) = None ->
      save_crash dec k f c p overwrite (target p)
      = match k with 0 => None | 1 => Some Incomplete | _ => Some (Full c) end).
Proof.
  intros D C dec k f c p ow. split; [intros q Hq; now apply crash_other|].
  rewrite crash_exact. split; [|split]; intros H.
  - intros ->. destruct (f (target p)); [reflexivity|congruence].
  - intros ->. destruct (f (target p)); [|congruence]. destruct k as [|[|[|k]]]; reflexivity.
  - rewrite H. destruct ow, k as [|[|k]]; reflexivity.
Qed.
Print Assumptions C07_crash_partial.
