(** The statements of PropsTuple.v. *)
From Coq Require Import List Bool Arith Permutation Lia ListDec.
From Verif Require Import Value TupleAlg TupleSpec Partition PartitionProofs TupleAlgProofs.
Import ListNotations.

Lemma transform_spec (S X Y : Type) (look : Y -> option (list Y)) (p : X -> S -> Y * S) data s log :
  (exists ys, in_order p data s ys (snd (transform look data p s)) /\
     ((forall y, ys = [y] -> look y = None) -> fst (transform look data p s) = ys)) /\
  snd (snd (transform look data (logging p) (s, log))) = log ++ data.
Proof. split; [apply transform_in_order|apply transform_log]. Qed.

Lemma ex_C22 :
  transform as_tuple [10; 20; 30] (fun x n => (VAtom (x + n), n + 1)) 1
  = ([VAtom 11; VAtom 22; VAtom 33], 4) /\
  (forall y : val nat, [VAtom 11; VAtom 22; VAtom 33] = [y] -> as_tuple y = None).
Proof. split; [reflexivity|discriminate]. Qed.

Lemma ex_C22_pair :
  transform as_tuple [1] (pure1 (fun x => VPair (VAtom x) (VAtom x))) tt
  = ([VAtom 1; VAtom 1], tt).
Proof. reflexivity. Qed.

Lemma ex_C23 :
  any [1; 3; 4; 5] (logging (fun x n => (Nat.even x, n + 1))) (0, []) = (true, (3, [1; 3; 4])) /\
  any [1; 3] (logging (fun x n => (Nat.even x, n + 1))) (0, []) = (false, (2, [1; 3])) /\
  any [] (pure1 Nat.even) tt = (false, tt).
Proof. now repeat split. Qed.

Lemma ex_C24 :
  apply (fun xs log => (length xs, log ++ [xs])) [7; 8; 9] [] = Some (3, [[7; 8; 9]]).
Proof. reflexivity. Qed.

Lemma ex_C25 :
  enumerate_pack (fun items log => (tt, log ++ [items])) [VTuple [VAtom 1; VAtom 2]] []
  = Some (tt, [[mkItem 0 (VTuple [VAtom 1; VAtom 2])]]) /\
  enumerate_n 3 (fun items log => (tt, log ++ [items])) []
  = Some (tt, [[mkItem 0 0; mkItem 1 1; mkItem 2 2]]).
Proof. now split. Qed.

Lemma partition_spec (T : Type) (l : list T) (p : Predicate T) :
  filter_if l p = filter (call_predicate p) l /\
  partition l p = filter_if l p ++ filter_if l (negate p) /\
  (forall t, call_predicate (negate p) t = negb (call_predicate p t)) /\
  negate (negate p) = p /\
  Permutation (partition l p) l /\
  (exists yes no, partition l p = yes ++ no /\
     subsequence yes l /\ subsequence no l /\
     Forall (fun t => call_predicate p t = true) yes /\
     Forall (fun t => call_predicate p t = false) no).
Proof.
  repeat split.
  - apply filter_if_filter.
  - rewrite partition_filters, !filter_if_filter. f_equal. apply filter_ext.
    intros t. symmetry. apply call_negate.
  - apply call_negate.
  - apply negate_negate.
  - apply partition_permutation.
  - eexists _, _. split; [apply partition_filters|].
    split; [apply filter_subsequence|]. split; [apply filter_subsequence|]. split.
    + apply Forall_forall. intros t Ht. now apply filter_In in Ht.
    + apply Forall_forall. intros t Ht. apply filter_In in Ht as [_ Ht].
      now apply negb_true_iff.
Qed.

Lemma ex_C26 :
  partition [1; 2; 3; 4; 4; 5] (predicate Nat.even) = [2; 4; 4; 1; 3; 5] /\
  filter_if [1; 2; 3; 4; 4; 5] (negate (predicate Nat.even)) = [1; 3; 5] /\
  filter_if [2] (predicate Nat.even) = [2].
Proof. now repeat split. Qed.

Lemma overload_msvc_spec (T V : Type) (teq : forall x y : T, {x = y} + {x <> y}) (e : T -> bool)
    (fs : list (T * V)) :
  (NoDup (map fst fs) ->
     exists bs, overload_msvc teq e fs = Some bs /\ Permutation bs fs /\
       exists es ns, bs = es ++ ns /\ Forall (fun b => e (fst b) = true) es /\
         Forall (fun b => e (fst b) = false) ns /\ subsequence es fs /\ subsequence ns fs) /\
  (~ NoDup (map fst fs) -> overload_msvc teq e fs = None).
Proof.
  split; [|apply overload_msvc_dup]. intros Hn.
  exists (filter (fun b => e (fst b)) fs ++ filter (fun b => negb (e (fst b))) fs).
  split; [now apply overload_msvc_ok|].
  split; [apply (filters_permutation (fun b => e (fst b)))|].
  eexists _, _. split; [reflexivity|]. repeat split; try apply filter_subsequence.
  - apply Forall_forall. intros t Ht. now apply filter_In in Ht.
  - apply Forall_forall. intros t Ht. apply filter_In in Ht as [_ Ht].
    now apply negb_true_iff.
Qed.

Lemma ex_C27 :
  NoDup (map fst [(1, true); (2, false); (5, true); (4, false)]) /\
  overload_msvc Nat.eq_dec Nat.even [(1, true); (2, false); (5, true); (4, false)]
  = Some [(2, false); (4, false); (1, true); (5, true)] /\
  ~ NoDup (map fst [(1, true); (2, false); (1, false)]) /\
  overload_msvc Nat.eq_dec Nat.even [(1, true); (2, false); (1, false)] = None.
Proof.
  repeat split.
  - repeat constructor; cbn; intuition discriminate.
  - intros H. inversion H; subst. apply H2. cbn; auto.
Qed.

Lemma overload_versions_agree (T V : Type) (teq : forall x y : T, {x = y} + {x <> y}) (e : T -> bool)
    (viable : T -> bool) (better : T -> T -> bool) (fs : list (T * V)) :
  (forall x y, better x y = true -> better y x = false) ->
  (overload_msvc teq e fs = None <-> overload_std teq fs = None) /\
  forall bs gs, overload_msvc teq e fs = Some bs -> overload_std teq fs = Some gs ->
    best_of teq viable better bs = best_of teq viable better gs.
Proof.
  intros Ha. split.
  - destruct (overload_std_spec teq fs) as [S1 S2].
    destruct (overload_msvc_spec T V teq e fs) as [M1 M2].
    destruct (ListDec.NoDup_dec teq (map fst fs)) as [D|D].
    + destruct (M1 D) as (bs & -> & _). rewrite (S1 D). split; discriminate.
    + rewrite (M2 D), (S2 D). now split.
  - intros bs gs H1 H2. destruct (same_resolution teq e viable better fs bs Ha H1) as [E1 E2].
    rewrite E1 in H2. now injection H2 as <-.
Qed.

Lemma ex_C49 :
  (forall x y, (x <? y) = true -> (y <? x) = false) /\
  overload_msvc Nat.eq_dec Nat.even [(1, true); (3, false); (2, true)]
  = Some [(2, true); (1, true); (3, false)] /\
  overload_std Nat.eq_dec [(1, true); (3, false); (2, true)]
  = Some [(1, true); (3, false); (2, true)] /\
  best_of Nat.eq_dec (fun t => negb (t =? 1)) Nat.ltb [(2, true); (1, true); (3, false)]
  = Some (2, true).
Proof.
  repeat split. intros x y H. apply Nat.ltb_lt in H. apply Nat.ltb_ge. lia.
Qed.
