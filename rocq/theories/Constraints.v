(** Choosing among constrained function templates: what the compiler does with the
    constraints of src/pigro/concepts.h:8-24 and the overloads of
    src/pigro/lazy.h:78-90 and src/pigro/compressed_tuple.h:18-35.

    Of the standard: normal forms, satisfaction and subsumption of constraints
    ([temp.constr]), and overload resolution ([over.match.best]) between templates that
    are equally good otherwise. *)
From Coq Require Import List Bool Arith.
Import ListNotations.

(** ** Constraints *)
Section Constraints.
Context {atom : Type}.
Variable eqb : atom -> atom -> bool.

(** Normal forms: names of concepts are replaced by their definitions; atomic constraints
    are the same if they come from the same place in the text ([temp.constr.normal]). *)
Inductive constr :=
| CAtom (a : atom)
| CAnd (p q : constr)
| COr (p q : constr).

(** Checking an atomic constraint: satisfied, not satisfied, or the program is ill-formed
    (an error that is not in the immediate context, as in the body of a generic lambda). *)
Inductive tri := Yes | No | Hard.

(** [temp.constr.op]: from left to right, and no further than necessary. *)
Fixpoint check (v : atom -> tri) (c : constr) : tri :=
  match c with
  | CAtom a => v a
  | CAnd p q => match check v p with Yes => check v q | r => r end
  | COr p q => match check v p with No => check v q | r => r end
  end.

(** [temp.constr.order] *)
Fixpoint dnf (c : constr) : list (list atom) :=
  match c with
  | CAtom a => [[a]]
  | CAnd p q => flat_map (fun x => map (app x) (dnf q)) (dnf p)
  | COr p q => dnf p ++ dnf q
  end.
Fixpoint cnf (c : constr) : list (list atom) :=
  match c with
  | CAtom a => [[a]]
  | CAnd p q => cnf p ++ cnf q
  | COr p q => flat_map (fun x => map (app x) (cnf q)) (cnf p)
  end.
Definition subsumes (p q : constr) : bool :=
  forallb (fun x => forallb (fun y => existsb (fun a => existsb (eqb a) y) x) (cnf q)) (dnf p).

(** ** Overloads *)

(** A candidate: the form of its parameter, its constraint, if any, and what it is. *)
Context {K : Type}.
Record cand := mkCand { form : nat; req : option constr; what : K }.

(** [strict]: constraints decide only between templates whose parameters have the same
    form ([temp.func.order] as of P2113). *)
Variable strict : bool.

Definition at_least (c d : cand) : bool :=
  (negb strict || Nat.eqb (form c) (form d)) &&
  match req d, req c with
  | None, _ => true
  | Some q, Some p => subsumes p q
  | Some _, None => false
  end.
Definition more (c d : cand) : bool := at_least c d && negb (at_least d c).

(** The viable ones; [None]: ill-formed. *)
Fixpoint viable (v : atom -> tri) (cs : list cand) : option (list cand) :=
  match cs with
  | [] => Some []
  | c :: cs' =>
      match (match req c with None => Yes | Some p => check v p end) with
      | Hard => None
      | Yes => option_map (cons c) (viable v cs')
      | No => viable v cs'
      end
  end.

(** Every element with the others. *)
Fixpoint splits {X} (pre l : list X) : list (X * list X) :=
  match l with
  | [] => []
  | x :: l' => (x, rev pre ++ l') :: splits (x :: pre) l'
  end.

Inductive choice := Chosen (k : K) | Ambiguous | NoMatch | IllFormed.
Definition resolve (v : atom -> tri) (cs : list cand) : choice :=
  match viable v cs with
  | None => IllFormed
  | Some [] => NoMatch
  | Some vs =>
      match filter (fun x => forallb (more (fst x)) (snd x)) (splits [] vs) with
      | [x] => Chosen (what (fst x))
      | _ => Ambiguous
      end
  end.
End Constraints.
Arguments constr : clear implicits.
Arguments cand : clear implicits.
Arguments choice : clear implicits.

(** ** Types of dependencies, as far as the constraints and their use can tell *)

(** What an expression has as type: [void], or something with or without members [value]
    and [is_changed]. *)
Record rtype := mkR { r_void : bool; r_value : bool; r_changed : bool }.
Inductive probe := NotCallable | Returns (r : rtype) | Error.
(** An object of the type is called as lvalue or rvalue, with [nullptr] or with nothing. *)
Inductive category := AsLvalue | AsRvalue.
Inductive given := Nullptr | Nothing.
Definition dtype := category -> given -> probe.

(** The atomic constraints: the requires-expressions of [lazy_function] (concepts.h:14-18,
    which includes that of [lazy_result], 8-12) and of [std::invocable], and for a
    difference in the way of writing [std::is_invocable_v<F>]. *)
Inductive datom := ALazy | AInvocable | AIsInvocable.
Definition datom_eqb (a b : datom) : bool :=
  match a, b with
  | ALazy, ALazy | AInvocable, AInvocable | AIsInvocable, AIsInvocable => true
  | _, _ => false
  end.

(** concepts.h:8-18: [f(nullptr)] with [f] an lvalue; its result has the members.
    [std::invocable<F>]: [std::invoke(std::forward<F>(f))], with [F] not a reference: an
    rvalue. *)
Definition check_dep (d : dtype) (a : datom) : tri :=
  match a with
  | ALazy =>
      match d AsLvalue Nullptr with
      | NotCallable => No
      | Error => Hard
      | Returns r => if negb (r_void r) && r_value r && r_changed r then Yes else No
      end
  | AInvocable | AIsInvocable =>
      match d AsRvalue Nothing with
      | NotCallable => No
      | Error => Hard
      | Returns _ => Yes
      end
  end.

(** concepts.h:20-21 *)
Definition lazy_function_unwrapped : constr datom := CAnd (CAtom ALazy) (CAtom AInvocable).

Inductive dkind := KLazy | KFunction | KValue.
(** lazy.h:78, 82, 88: the overloads of [ensure_lazy]; all take their parameter by value. *)
Definition ensure_lazy_cands : list (cand datom dkind) :=
  [mkCand 0 (Some lazy_function_unwrapped) KLazy;
   mkCand 0 (Some (CAtom AInvocable)) KFunction;
   mkCand 0 None KValue].
Definition ensure_lazy_kind (strict : bool) (d : dtype) : choice dkind :=
  resolve datom_eqb strict (check_dep d) ensure_lazy_cands.

(** What the chosen overload, and [detail::lazy] with its result, do with the dependency:
    [f(nullptr)] (lazy.h:51) or [dep()] (lazy.h:84), in both cases with a parameter, so an
    lvalue; the result of [dep()] must not be [void], as it is kept (lazy.h:49). *)
Definition can_use (d : dtype) (k : dkind) : bool :=
  match k with
  | KLazy => match d AsLvalue Nullptr with Returns r => negb (r_void r) && r_value r && r_changed r | _ => false end
  | KFunction => match d AsLvalue Nothing with Returns r => negb (r_void r) | _ => false end
  | KValue => true
  end.

(** [std::reference_wrapper<D>]: calls the object referred to, an lvalue. *)
Definition ref_type (d : dtype) : dtype := fun _ g => d AsLvalue g.

(** What [pigro::lazy] returns (lazy.h:96-103): with [nullptr] a [LazyResult] (36-44), with
    nothing the value, [r] being its type; what [detail::lazy] and [lazy_value] return
    (46-76): with [nullptr] only. *)
Definition lazy_type (r : rtype) : dtype :=
  fun _ g => match g with Nullptr => Returns (mkR false true true) | Nothing => Returns r end.
Definition detail_type : dtype :=
  fun _ g => match g with Nullptr => Returns (mkR false true true) | Nothing => NotCallable end.

(** compressed_tuple.h:18-35: the overloads of [compressed_tuple_element]: by value,
    constrained by [concepts::empty] (concepts.h:23-24), and by forwarding reference. *)
Inductive ekind := KEmpty | KStored.
Definition element_cands : list (cand unit ekind) :=
  [mkCand 0 (Some (CAtom tt)) KEmpty; mkCand 1 None KStored].
Definition element_kind (strict is_empty : bool) : choice ekind :=
  resolve (fun _ _ => true) strict (fun _ => if is_empty then Yes else No) element_cands.
