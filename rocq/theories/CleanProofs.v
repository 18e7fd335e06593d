(** Proofs about one-dimensional scenarios. *)
From Coq Require Import Reals List Bool Arith Lia Lra.
From Verif Require Import Keys CleanModel CleanSpec.
Import ListNotations.
Open Scope R_scope.

Lemma column_of x : column (atleast_1d x) = Arr [length (dat x); 1%nat] (dat x).
Proof. unfold column, atleast_1d. destruct (sh x); reflexivity. Qed.
Lemma squeeze_entries vs : squeeze (Arr [length vs] vs) = entries vs.
Proof. destruct vs as [|v [|w r]]; reflexivity. Qed.

(** a cleaned user's function *)
Lemma cleaned_value s a f g x k fuel : under s a = Some (User f) -> rowwise f g ->
  call (S (S fuel)) s (Some (Cleaned a)) x (Given k) = Val (entries (map (fun v => g v k) (dat x))).
Proof.
  intros Hu Hf. cbn [call]. rewrite Hu, column_of. cbn [default]. rewrite Hf. cbn [bind].
  rewrite <- (map_length (fun v => g v k) (dat x)), squeeze_entries. reflexivity.
Qed.

Lemma sum_entries t (f g : R -> R) xs :
  tempered_sum t (entries (map f xs)) (entries (map g xs)) = Val (entries (map (fun x => f x + t * g x) xs)).
Proof.
  unfold tempered_sum.
  assert (S : sh (entries (map f xs)) = sh (entries (map g xs))) by (destruct xs as [|x [|y r]]; cbn; rewrite ?map_length; reflexivity).
  destruct (list_eq_dec Nat.eq_dec _ _) as [_|C]; [|contradiction]. f_equal. unfold entries. cbn [sh dat].
  assert (E : map (fun uv => fst uv + t * snd uv) (combine (map f xs) (map g xs)) = map (fun x => f x + t * g x) xs).
  { clear. induction xs as [|x xs IH]; cbn; [reflexivity|]. rewrite IH. reflexivity. }
  rewrite E. f_equal. destruct xs as [|x [|y r]]; cbn; rewrite ?map_length; reflexivity.
Qed.
Lemma sum_zero t (g : R -> R) xs :
  tempered_sum t (Arr [] [0]) (entries (map g xs)) = Val (entries (map (fun x => 0 + t * g x) xs)).
Proof.
  destruct xs as [|x [|y r]]; try reflexivity.
  unfold tempered_sum, entries. cbn -[list_eq_dec Rplus Rmult]. destruct (list_eq_dec _ _ _) as [C|_]; [discriminate C|].
  do 2 f_equal; rewrite ?map_length, ?map_map; reflexivity.
Qed.
