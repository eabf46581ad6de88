(** Which overloads are chosen for dependencies and elements (C75).  Statements only. *)
From Coq Require Import List Bool Arith Sorted.
From Verif Require Import Constraints ConstraintsSpec ConstraintsThms.
Import ListNotations.

(** C75: a constraint subsumes another exactly if it implies it, whatever the atomic
    constraints stand for. *)
Theorem C75_subsumption :
  forall (atom : Type) (eqb : atom -> atom -> bool), (forall a b, eqb a b = true <-> a = b) ->
  forall p q, subsumes eqb p q = true <-> forall v, holds_for v p -> holds_for v q.
Proof. exact @subsumes_iff. Qed.
Print Assumptions C75_subsumption.

Example C75_subsumption_case :
  subsumes Nat.eqb (CAnd (COr (CAtom 0) (CAtom 1)) (CAtom 2)) (COr (CAnd (CAtom 2) (CAtom 0)) (CAnd (CAtom 1) (CAtom 2))) = true /\
  subsumes Nat.eqb (COr (CAtom 0) (CAtom 1)) (CAtom 0) = false.
Proof. split; reflexivity. Qed.

(** Among overloads each of which asks for strictly more than all later ones, the choice
    is never ambiguous: it is the first one whose constraint holds.  Also if constraints
    count only between parameters of the same form ([strict]). *)
Theorem C75_chain :
  forall (atom K : Type) (eqb : atom -> atom -> bool), (forall a b, eqb a b = true <-> a = b) ->
  forall strict (v : atom -> tri) (cs : list (cand atom K)),
  (forall a, v a <> Hard) -> StronglySorted (narrower strict) cs ->
  (exists c, first_holding v cs c /\ resolve eqb strict v cs = Chosen (what c)) \/
  (Forall (fun d => ~ req_holds (yes v) (req d)) cs /\ resolve eqb strict v cs = NoMatch).
Proof. exact @chain. Qed.
Print Assumptions C75_chain.

Example C75_chain_case :
  StronglySorted (narrower true) ensure_lazy_cands /\
  resolve datom_eqb true (check_dep (lazy_type int_type)) ensure_lazy_cands = Chosen KLazy /\
  resolve datom_eqb true (check_dep lvalue_only) (firstn 2 ensure_lazy_cands) = NoMatch.
Proof.
  split; [|split; reflexivity].
  repeat constructor; cbn; try tauto; intros H;
    try (pose proof (H (fun a => datom_eqb a AInvocable)) as H1; cbn in H1; intuition discriminate);
    pose proof (H (fun _ => false)) as H1; cbn in H1; intuition discriminate.
Qed.

(** In general: the one that holds and is narrower than all others that hold is chosen; it
    is an error if there is one among the constraints that are checked on the way. *)
Theorem C75_resolution :
  forall (atom K : Type) (eqb : atom -> atom -> bool), (forall a b, eqb a b = true <-> a = b) ->
  forall strict (v : atom -> tri) (cs : list (cand atom K)),
  (resolve eqb strict v cs = IllFormed <-> Exists (fun c => req_error v (req c)) cs) /\
  (resolve eqb strict v cs = NoMatch <-> Forall (fun c => ~ req_error v (req c) /\ ~ req_holds (yes v) (req c)) cs) /\
  (forall k, resolve eqb strict v cs = Chosen k <->
     Forall (fun c => ~ req_error v (req c)) cs /\ exists c, best strict v cs c /\ what c = k).
Proof. exact @resolution. Qed.
Print Assumptions C75_resolution.

Example C75_resolution_case :
  let v a := match a with 0 => Yes | 1 => No | 2 => Hard | _ => Yes end in
  let a n := CAtom n in
  resolve Nat.eqb true v [mkCand 0 None 10; mkCand 0 (Some (COr (a 0) (a 2))) 20; mkCand 0 (Some (CAnd (a 1) (a 2))) 30] = Chosen 20 /\
  resolve Nat.eqb true v [mkCand 0 None 10; mkCand 0 (Some (COr (a 1) (a 2))) 20] = IllFormed /\
  resolve Nat.eqb true v [mkCand 0 (Some (a 0)) 10; mkCand 0 (Some (a 3)) 20; mkCand 0 (Some (CAnd (a 0) (a 3))) 30] = Chosen 30 /\
  resolve Nat.eqb true v [mkCand 0 (Some (a 0)) 10; mkCand 0 (Some (a 3)) 20] = Ambiguous.
Proof. repeat split. Qed.

(** What [ensure_lazy] takes a dependency for, by what calling it gives.  Generic call
    operators that cannot be instantiated with [nullptr] are errors. *)
Theorem C75_ensure_lazy :
  forall strict d,
  (ensure_lazy_kind strict d = IllFormed <-> d AsLvalue Nullptr = Error \/ d AsRvalue Nothing = Error) /\
  (ensure_lazy_kind strict d = Chosen KLazy <->
   (exists r, d AsLvalue Nullptr = Returns r /\ r_void r = false /\ r_value r = true /\ r_changed r = true) /\
   exists r, d AsRvalue Nothing = Returns r) /\
  (ensure_lazy_kind strict d = Chosen KFunction <->
   d AsLvalue Nullptr <> Error /\
   ~ (exists r, d AsLvalue Nullptr = Returns r /\ r_void r = false /\ r_value r = true /\ r_changed r = true) /\
   exists r, d AsRvalue Nothing = Returns r) /\
  (ensure_lazy_kind strict d = Chosen KValue <-> d AsLvalue Nullptr <> Error /\ d AsRvalue Nothing = NotCallable) /\
  ensure_lazy_kind strict d <> Ambiguous /\ ensure_lazy_kind strict d <> NoMatch.
Proof. exact kind_exact. Qed.
Print Assumptions C75_ensure_lazy.

(** What [pigro::lazy] returns is taken for a lazy function, by copy and by [std::ref];
    what [detail::lazy] returns, for a value. *)
Theorem C75_own_types :
  forall strict r,
  ensure_lazy_kind strict (lazy_type r) = Chosen KLazy /\
  ensure_lazy_kind strict (ref_type (lazy_type r)) = Chosen KLazy /\
  ensure_lazy_kind strict detail_type = Chosen KValue.
Proof. exact own_types. Qed.
Print Assumptions C75_own_types.

(** The dependencies that can be used. *)
Theorem C75_accepted :
  forall strict d,
  (exists k, ensure_lazy_kind strict d = Chosen k /\ can_use d k = true) <->
  d AsLvalue Nullptr <> Error /\
  (d AsRvalue Nothing = NotCallable \/
   (exists r0, d AsRvalue Nothing = Returns r0) /\
   ((exists r, d AsLvalue Nullptr = Returns r /\ r_void r = false /\ r_value r = true /\ r_changed r = true) \/
    exists r, d AsLvalue Nothing = Returns r /\ r_void r = false)).
Proof. exact accepted_exact. Qed.
Print Assumptions C75_accepted.

(** The constraint asks whether an rvalue can be called, and an lvalue is: a function
    object that can be called as lvalue only is taken for a value and never called, *)
Theorem C75_called_refuted : exists d r,
  d AsLvalue Nothing = Returns r /\ r_void r = false /\ d AsLvalue Nullptr = NotCallable /\
  forall strict, ensure_lazy_kind strict d = Chosen KValue.
Proof. exact called_refuted. Qed.
Print Assumptions C75_called_refuted.

(** and one that can be called as rvalue only is taken for a function, and an error. *)
Theorem C75_usable_refuted : exists d r,
  d AsRvalue Nothing = Returns r /\ r_void r = false /\ d AsLvalue Nullptr = NotCallable /\
  forall strict, ensure_lazy_kind strict d = Chosen KFunction /\ can_use d KFunction = false.
Proof. exact usable_refuted. Qed.
Print Assumptions C75_usable_refuted.

(** By [std::ref] it is an lvalue in both cases: what has been chosen can be used, unless
    the function returns [void]. *)
Theorem C75_by_reference :
  forall strict d,
  (ensure_lazy_kind strict (ref_type d) = Chosen KFunction <->
   d AsLvalue Nullptr <> Error /\
   ~ (exists r, d AsLvalue Nullptr = Returns r /\ r_void r = false /\ r_value r = true /\ r_changed r = true) /\
   exists r, d AsLvalue Nothing = Returns r) /\
  (forall k, ensure_lazy_kind strict (ref_type d) = Chosen k -> can_use (ref_type d) k = false ->
   k = KFunction /\ exists r, d AsLvalue Nothing = Returns r /\ r_void r = true).
Proof. exact ref_exact. Qed.
Print Assumptions C75_by_reference.

Example C75_case :
  ensure_lazy_kind false (fun _ g => match g with Nullptr => Error | Nothing => Returns int_type end) = IllFormed /\
  ensure_lazy_kind false (fun _ g => Returns int_type) = Chosen KFunction /\
  ensure_lazy_kind false (fun _ _ => NotCallable) = Chosen KValue /\
  ensure_lazy_kind false (ref_type lvalue_only) = Chosen KFunction /\
  (ensure_lazy_kind false (fun _ g => match g with Nullptr => NotCallable | _ => Returns (mkR true false false) end) = Chosen KFunction /\
   can_use (fun _ g => match g with Nullptr => NotCallable | _ => Returns (mkR true false false) end) KFunction = false).
Proof. repeat split. Qed.

(** It matters that [lazy_function_unwrapped] names the concept [std::invocable]: with the
    type trait in its place every lazy function would be ambiguous. *)
Theorem C75_trait_ambiguous :
  forall strict r, resolve datom_eqb strict (check_dep (lazy_type r)) trait_cands = Ambiguous.
Proof. exact trait_ambiguous. Qed.
Print Assumptions C75_trait_ambiguous.

(** The overloads of [compressed_tuple_element] differ in the form of their parameters: an
    empty element chooses the first one if constraints decide all the same, and is
    ambiguous if they do not. *)
Theorem C75_element :
  forall e,
  element_kind false e = Chosen (if e then KEmpty else KStored) /\
  element_kind true e = if e then Ambiguous else Chosen KStored.
Proof. exact element_exact. Qed.
Print Assumptions C75_element.
