(** The properties of the tuple, pack and type list algorithms (C22-C27, C49).
    Statements only: each is closed by a lemma proved elsewhere.  After each
    theorem an example shows a concrete case that meets its hypotheses. *)
From Coq Require Import List Bool Arith Permutation.
From Verif Require Import Value TupleAlg TupleSpec Partition PartitionProofs TupleAlgProofs TupleThms.
Import ListNotations.

(** C22: [transform] applies the projection to every element once, in order
    (first part; second part: as seen in a log), and yields the results, unless
    there is a single result that is a tuple or pair. *)
Theorem C22_transform_in_order :
  forall (S X Y : Type) (look : Y -> option (list Y)) (p : X -> S -> Y * S) data s log,
  (exists ys, in_order p data s ys (snd (transform look data p s)) /\
     ((forall y, ys = [y] -> look y = None) -> fst (transform look data p s) = ys)) /\
  snd (snd (transform look data (logging p) (s, log))) = log ++ data.
Proof. exact @transform_spec. Qed.
Print Assumptions C22_transform_in_order.

(** A projection that numbers its calls. *)
Example C22_case :
  transform as_tuple [10; 20; 30] (fun x n => (VAtom (x + n), n + 1)) 1
  = ([VAtom 11; VAtom 22; VAtom 33], 4) /\
  (forall y : val nat, [VAtom 11; VAtom 22; VAtom 33] = [y] -> as_tuple y = None).
Proof. exact ex_C22. Qed.

(** The exception is real: a single projected pair becomes two elements. *)
Example C22_single_pair_spreads :
  transform as_tuple [1] (pure1 (fun x => VPair (VAtom x) (VAtom x))) tt
  = ([VAtom 1; VAtom 1], tt).
Proof. exact ex_C22_pair. Qed.

(** C23: [any] applies the predicate to the first [k] elements, in order; if it
    answers yes, the predicate said yes to the last of them only; if it answers
    no, it said no to all elements.  For a pure predicate: yes iff some element
    satisfies it. *)
Theorem C23_any_short_circuits :
  forall (S X : Type) (p : X -> S -> bool * S) data s,
  exists k ys,
    k <= length data /\
    in_order p (firstn k data) s ys (snd (any data p s)) /\
    (fst (any data p s) = true -> exists l, ys = l ++ [true] /\ Forall (eq false) l) /\
    (fst (any data p s) = false -> k = length data /\ Forall (eq false) ys).
Proof. exact @any_in_order. Qed.
Print Assumptions C23_any_short_circuits.

Theorem C23_any_iff_some :
  forall (X : Type) (f : X -> bool) data,
  fst (any data (pure1 f) tt) = true <-> exists x, In x data /\ f x = true.
Proof. exact @any_pure_iff. Qed.
Print Assumptions C23_any_iff_some.

Example C23_case :
  any [1; 3; 4; 5] (logging (fun x n => (Nat.even x, n + 1))) (0, []) = (true, (3, [1; 3; 4])) /\
  any [1; 3] (logging (fun x n => (Nat.even x, n + 1))) (0, []) = (false, (2, [1; 3])) /\
  any [] (pure1 Nat.even) tt = (false, tt).
Proof. exact ex_C23. Qed.

(** C24: [apply] is one call with all elements in order. *)
Theorem C24_apply :
  forall (S X R : Type) (f : list X -> S -> R * S) t s, apply f t s = Some (f t s).
Proof. exact @apply_all. Qed.
Print Assumptions C24_apply.

Example C24_case :
  apply (fun xs log => (length xs, log ++ [xs])) [7; 8; 9] [] = Some (3, [[7; 8; 9]]).
Proof. exact ex_C24. Qed.

(** C25: one call with the elements and their positions. *)
Theorem C25_enumerate_pack :
  forall (S X R : Type) (f : list (Item X) -> S -> R * S) pack s,
  exists items,
    enumerate_pack f pack s = Some (f items s) /\
    length items = length pack /\
    forall i it, nth_error items i = Some it ->
      index it = i /\ nth_error pack i = Some (value it).
Proof. exact @enumerate_pack_all. Qed.
Print Assumptions C25_enumerate_pack.

Theorem C25_enumerate_n :
  forall (S R : Type) (n : nat) (f : list (Item nat) -> S -> R * S) s,
  exists items,
    enumerate_n n f s = Some (f items s) /\
    length items = n /\
    forall i, i < n -> nth_error items i = Some (mkItem i i).
Proof. exact @enumerate_n_all. Qed.
Print Assumptions C25_enumerate_n.

(** A single tuple counts as one element. *)
Example C25_case :
  enumerate_pack (fun items log => (tt, log ++ [items])) [VTuple [VAtom 1; VAtom 2]] []
  = Some (tt, [[mkItem 0 (VTuple [VAtom 1; VAtom 2])]]) /\
  enumerate_n 3 (fun items log => (tt, log ++ [items])) []
  = Some (tt, [[mkItem 0 0; mkItem 1 1; mkItem 2 2]]).
Proof. exact ex_C25. Qed.

(** C26: [filter_if] keeps exactly the satisfying types, in order; [partition]
    puts them before the others; nothing is lost or invented; negation is an
    involution that flips every answer. *)
Theorem C26_partition_stable :
  forall (T : Type) (l : list T) (p : Predicate T),
  filter_if l p = filter (call_predicate p) l /\
  partition l p = filter_if l p ++ filter_if l (negate p) /\
  (forall t, call_predicate (negate p) t = negb (call_predicate p t)) /\
  negate (negate p) = p /\
  Permutation (partition l p) l /\
  (exists yes no, partition l p = yes ++ no /\
     subsequence yes l /\ subsequence no l /\
     Forall (fun t => call_predicate p t = true) yes /\
     Forall (fun t => call_predicate p t = false) no).
Proof. exact @partition_spec. Qed.
Print Assumptions C26_partition_stable.

Example C26_case :
  partition [1; 2; 3; 4; 4; 5] (predicate Nat.even) = [2; 4; 4; 1; 3; 5] /\
  filter_if [1; 2; 3; 4; 4; 5] (negate (predicate Nat.even)) = [1; 3; 5] /\
  filter_if [2] (predicate Nat.even) = [2].
Proof. exact ex_C26. Qed.

(** C27: the MSVC overload holds every functor once, initialised from its own
    argument, if the types are distinct; it is ill-formed otherwise. *)
Theorem C27_overload_msvc :
  forall (T V : Type) (teq : forall x y : T, {x = y} + {x <> y}) (e : T -> bool)
    (fs : list (T * V)),
  (NoDup (map fst fs) ->
     exists bs, overload_msvc teq e fs = Some bs /\ Permutation bs fs /\
       exists es ns, bs = es ++ ns /\ Forall (fun b => e (fst b) = true) es /\
         Forall (fun b => e (fst b) = false) ns /\ subsequence es fs /\ subsequence ns fs) /\
  (~ NoDup (map fst fs) -> overload_msvc teq e fs = None).
Proof. exact @overload_msvc_spec. Qed.
Print Assumptions C27_overload_msvc.

Example C27_case :
  NoDup (map fst [(1, true); (2, false); (5, true); (4, false)]) /\
  overload_msvc Nat.eq_dec Nat.even [(1, true); (2, false); (5, true); (4, false)]
  = Some [(2, false); (4, false); (1, true); (5, true)] /\
  ~ NoDup (map fst [(1, true); (2, false); (1, false)]) /\
  overload_msvc Nat.eq_dec Nat.even [(1, true); (2, false); (1, false)] = None.
Proof. exact ex_C27. Qed.

(** C49: the two versions of [overload] accept the same functors, and overload
    resolution among their call operators has the same outcome. *)
Theorem C49_overload_versions_agree :
  forall (T V : Type) (teq : forall x y : T, {x = y} + {x <> y}) (e : T -> bool)
    (viable : T -> bool) (better : T -> T -> bool) (fs : list (T * V)),
  (forall x y, better x y = true -> better y x = false) ->
  (overload_msvc teq e fs = None <-> overload_std teq fs = None) /\
  forall bs gs, overload_msvc teq e fs = Some bs -> overload_std teq fs = Some gs ->
    best_of teq viable better bs = best_of teq viable better gs.
Proof. exact @overload_versions_agree. Qed.
Print Assumptions C49_overload_versions_agree.

(** Three candidates, two viable, the smaller type number being the better match. *)
Example C49_case :
  (forall x y, (x <? y) = true -> (y <? x) = false) /\
  overload_msvc Nat.eq_dec Nat.even [(1, true); (3, false); (2, true)]
  = Some [(2, true); (1, true); (3, false)] /\
  overload_std Nat.eq_dec [(1, true); (3, false); (2, true)]
  = Some [(1, true); (3, false); (2, true)] /\
  best_of Nat.eq_dec (fun t => negb (t =? 1)) Nat.ltb [(2, true); (1, true); (3, false)]
  = Some (2, true).
Proof. exact ex_C49. Qed.
