(** C++ types with const/volatile and references, expressions with value
    categories, and the parts of pigro that only shuffle these:
    src/pigro/forward_like.h, src/pigro/utils.h, src/pigro/fwd_capture.h,
    src/pigro/recursive.h, the element access of src/pigro/compressed_tuple.h,
    src/pigro/to_tuple.h and the tuple protocol.

    Everything here happens at compile time: the functions compute types.
    [None] means that the C++ code does not compile (is ill-formed). *)
From Coq Require Import List Bool Arith.
Import ListNotations.

Inductive refk := NoRef | LRef | RRef.
Inductive cat := LV | XV | PRV.

Section Types.
(** Object types without const/volatile: classes and scalars (no arrays or
    functions, which do not occur as tuple elements). *)
Context {B : Type} (beq : forall x y : B, {x = y} + {x <> y}).

(** [base cv ref]; for a reference type, const/volatile are those of the type
    referred to. *)
Record ty := mkTy { base : B; cst : bool; vol : bool; ref : refk }.

(** ** <type_traits> *)

Definition is_lref (t : ty) : bool := match ref t with LRef => true | _ => false end.
Definition is_rref (t : ty) : bool := match ref t with RRef => true | _ => false end.

Definition remove_reference (t : ty) : ty := mkTy (base t) (cst t) (vol t) NoRef.

(** Top-level only: a reference type has no const/volatile of its own. *)
Definition remove_cv (t : ty) : ty :=
  match ref t with
  | NoRef => mkTy (base t) false false NoRef
  | _ => t
  end.
Definition remove_cvref (t : ty) : ty := remove_cv (remove_reference t).
Definition add_const (t : ty) : ty :=
  match ref t with
  | NoRef => mkTy (base t) true (vol t) NoRef
  | _ => t
  end.
Definition add_volatile (t : ty) : ty :=
  match ref t with
  | NoRef => mkTy (base t) (cst t) true NoRef
  | _ => t
  end.
Definition is_const (t : ty) : bool := match ref t with NoRef => cst t | _ => false end.
Definition is_volatile (t : ty) : bool := match ref t with NoRef => vol t | _ => false end.

(** [T &] and [T &&] with reference collapsing. *)
Definition add_lref (t : ty) : ty := mkTy (base t) (cst t) (vol t) LRef.
Definition add_rref (t : ty) : ty :=
  mkTy (base t) (cst t) (vol t) (match ref t with LRef => LRef | _ => RRef end).

(** ** Expressions *)

(** An expression: its (non-reference) type and its value category. *)
Record expr := mkExpr { etype : ty; ecat : cat }.

(** A call of a function with return type [t]. *)
Definition call_expr (t : ty) : expr :=
  mkExpr (remove_reference t)
         (match ref t with LRef => LV | RRef => XV | NoRef => PRV end).

(** The name of a variable, parameter or member declared with type [t] (the
    members named here are of reference type or belong to non-const lvalues). *)
Definition name_expr (t : ty) : expr := mkExpr (remove_reference t) LV.

(** What [T] is deduced to for a parameter [T &&] (or [auto &&]) ... *)
Definition deduce_fwd (e : expr) : ty :=
  match ecat e with
  | LV => add_lref (etype e)
  | _ => etype e
  end.

(** ... and the type [decltype(param)] of that parameter. *)
Definition fwd_param (e : expr) : ty := add_rref (deduce_fwd e).

(** May a reference to [to] be bound to an object of type [from]
    ([dcl.init.ref]: same class, no const/volatile dropped)? *)
Definition binds (from to : ty) : bool :=
  (if beq (base from) (base to) then true else false)
  && (implb (cst from) (cst to)) && (implb (vol from) (vol to)).

(** [std::forward<U>(e)]: the overload for lvalues, [U && forward(remove_reference_t<U> &)],
    and the one for rvalues, [U && forward(remove_reference_t<U> &&)], which
    rejects lvalue reference types [U].  The result is the return type. *)
Definition std_forward (U : ty) (e : expr) : option ty :=
  if binds (etype e) (remove_reference U) then
    match ecat e with
    | LV => Some (add_rref U)
    | _ => if is_lref U then None else Some (add_rref U)
    end
  else None.

(** ** src/pigro/forward_like.h *)

(** forward_like.h:11-29 [like]. *)
Definition like (From To : ty) : ty :=
  let apply_if (cond : bool) (f : ty -> ty) (t : ty) := if cond then f t else t in
  let bs := remove_cv (remove_reference To) in
  let base_from := remove_reference From in
  let rv := is_rref From in
  let lv := is_lref From in
  let c := is_const base_from in
  let v := is_volatile base_from in
  apply_if lv add_lref
    (apply_if rv add_rref
      (apply_if c add_const
        (apply_if v add_volatile bs))).

(** forward_like.h:36-42 [forward_like<Like>(t)]; the result is the return type. *)
Definition forward_like (Like : ty) (t : expr) : option ty :=
  let T := deduce_fwd t in
  match std_forward T (name_expr (fwd_param t)) with
  | Some r => std_forward (like Like T) (call_expr r)
  | None => None
  end.

(** ** src/pigro/utils.h *)

(** utils.h:18-26 [as_nonconst]: for an lvalue the overload [T &] (more
    specialised than [T &&]), for an rvalue the overload [T &&]. *)
Definition as_nonconst (value : expr) : ty :=
  match ecat value with
  | LV => add_lref (remove_cv (etype value))
  | _ => add_rref (remove_cv (etype value))
  end.

(** ** src/pigro/fwd_capture.h *)

(** fwd_capture.h:12-15 [fwd_capture(x)]: the [T] of the returned [std::tuple<T>]. *)
Definition fwd_capture (x : expr) : ty := deduce_fwd x.

(** [std::get<I>] on a [std::tuple] whose [I]-th element has type [T], for a
    tuple expression that is const or not and an lvalue or rvalue ([tuple.elem]). *)
Definition std_get (T : ty) (q : bool * cat) : ty :=
  let T' := if fst q then add_const T else T in
  match snd q with
  | LV => add_lref T'
  | _ => add_rref T'
  end.

(** ** src/pigro/recursive.h *)

(** The qualifiers of a member function: const or not, [&] or [&&]. *)
Record qual := mkQual { qconst : bool; qrv : bool }.

(** The overloads of [operator()] in recursive.h:15-33 that a call expression
    on an object can bind to, best first: same constness before added const,
    [&&] before [&] for rvalues ([over.ics.rank]). *)
Definition recursive_candidates (is_cst : bool) (c : cat) : list qual :=
  match is_cst, c with
  | false, LV => [mkQual false false; mkQual true false]
  | true, LV => [mkQual true false]
  | false, _ => [mkQual false true; mkQual true true; mkQual true false]
  | true, _ => [mkQual true true; mkQual true false]
  end.

(** recursive.h:15-33: the overload that is called.  An overload takes part only if
    its trailing return type is valid, i.e. if [F], qualified like the overload,
    can be invoked with the object, qualified alike, and the arguments
    ([callable]).  The body then makes exactly this invocation. *)
Definition recursive_call (callable : qual -> bool) (is_cst : bool) (c : cat) : option qual :=
  find callable (recursive_candidates is_cst c).

(** The whole call [r(args...)] for [r] an object [this] of class
    [recursive<F>].  [F q self args] is the invocation of [F] qualified as [q] with
    [self] (to be read as qualified likewise) and [args]; [None] if it is ill-formed. *)
Definition recursive_operator {O A R : Type} (F : qual -> O -> list A -> option R)
    (this : O) (is_cst : bool) (c : cat) (args : list A) : option R :=
  match recursive_call
          (fun q => match F q this args with Some _ => true | None => false end) is_cst c with
  | Some q => F q this args
  | None => None
  end.

(** The object that is passed as first argument: [*this] or [std::move( *this )]. *)
Definition self_expr (t : B) (q : qual) : expr :=
  mkExpr (mkTy t (qconst q) false NoRef) (if qrv q then XV else LV).

(** ** Elements of a compressed_tuple *)

Variable is_empty : B -> bool.

(** What compressed_tuple_element returns: a lambda without captures for an
    empty class (compressed_tuple.h:18-23), an overload of two lambdas with a stored
    [std::tuple<T>] otherwise (compressed_tuple.h:25-35). *)
Inductive element :=
| ElEmpty (e : B)
| ElValue (T : ty).

(** compressed_tuple.h:18-35 [compressed_tuple_element(value)].  The overload for
    empty classes is more constrained than the other one. *)
Definition compressed_tuple_element (value : expr) : option element :=
  if is_empty (base (etype value)) then Some (ElEmpty (base (etype value)))
  else
    let T := deduce_fwd value in
    match std_forward T (name_expr (fwd_param value)) with
    | Some r => Some (ElValue (fwd_capture (call_expr r)))
    | None => None
    end.

(** compressed_tuple.h:37-46 [make_compressed_tuple_base<Ts...>(values...)], one
    element of it: parameter [Ts &&], forwarded to enumerate_pack
    (pack_algorithms.h:15-24), whose [Item] holds a reference of type
    [decltype(pack)], forwarded to compressed_tuple_element. *)
Definition make_element (T : ty) : option element :=
  let values_t := add_rref T in
  match std_forward values_t (name_expr values_t) with
  | Some r1 =>
      let pack_t := fwd_param (call_expr r1) in
      match std_forward pack_t (name_expr pack_t) with
      | Some item_t =>
          match std_forward item_t (name_expr item_t) with
          | Some r2 => compressed_tuple_element (call_expr r2)
          | None => None
          end
      | None => None
      end
  | None => None
  end.

(** A lambda of an element: does its call operator accept a const closure? *)
Inductive lambda := LamEmpty (e : B) | LamConst | LamMutable (T : ty).

(** Overload resolution between the lambdas of one element, on a closure that is
    const or not: [mutable] ones need a non-const closure and are then preferred
    (their implicit object parameter needs no added const). *)
Definition pick_lambda (el : element) (is_cst : bool) : lambda :=
  match el, is_cst with
  | ElEmpty e, _ => LamEmpty e
  | ElValue T, false => LamMutable T
  | ElValue _, true => LamConst
  end.

(** compressed_tuple.h:31-33, the mutable lambda: [access(forward_like<decltype(self)>(value))]
    where [value] is the stored [std::tuple<T>]; [access] is
    [std::get<0>(std::forward<...>(x))] (fwd_capture.h:17-20).  [V] stands for the type
    [std::tuple<T>]. *)
Definition mutable_lambda (V : B) (self : expr) (T : ty) : option ty :=
  match forward_like (fwd_param self) (name_expr (mkTy V false false NoRef)) with
  | Some r =>
      let x := call_expr r in
      match std_forward (deduce_fwd x) (name_expr (fwd_param x)) with
      | Some r' => let y := call_expr r' in Some (std_get T (cst (etype y), ecat y))
      | None => None
      end
  | None => None
  end.

(** [get<I>(t)] (compressed_tuple.h:83-86) for an element [el] of a tuple of
    class [CT]: [std::forward<T>(t)(idx<I>)], i.e. recursive's [operator()], which
    invokes the lambda with the tuple as [self].  The const lambda
    (compressed_tuple.h:28-30) calls the tuple again, as a non-const one.  All
    lambdas accept every [self], so every overload of recursive is callable
    unless the body of a lambda is ill-formed, which is an error.  [fuel]
    bounds the number of such nested calls. *)
Fixpoint get_call (fuel : nat) (V CT : B) (el : element) (is_cst : bool) (c : cat) : option ty :=
  match fuel with
  | 0 => None
  | S n =>
      match recursive_call (fun _ => true) is_cst c with
      | None => None
      | Some q =>
          let self := self_expr CT q in
          match pick_lambda el (qconst q) with
          | LamEmpty e => Some (mkTy e false false NoRef)
          | LamMutable T => mutable_lambda V self T
          | LamConst =>
              match std_forward (fwd_param self) (name_expr (fwd_param self)) with
              | None => None
              | Some r =>
                  let callee := call_expr (as_nonconst (call_expr r)) in
                  match get_call n V CT el (cst (etype callee)) (ecat callee) with
                  | Some res => forward_like (fwd_param self) (call_expr res)
                  | None => None
                  end
              end
          end
      end
  end.

(** [get<I>] on [compressed_tuple<..., T, ...>], the return type. *)
Definition get (V CT : B) (T : ty) (is_cst : bool) (c : cat) : option ty :=
  match make_element T with
  | Some el => get_call 2 V CT el is_cst c
  | None => None
  end.

(** ** The tuple protocol *)

(** compressed_tuple.h:92-94 [std::tuple_size]: that of [std::tuple<Ts...>]. *)
Definition tuple_size (Ts : list ty) : nat := length Ts.

(** compressed_tuple.h:96-98 [std::tuple_element<I, T>] for a non-const
    compressed_tuple; for a const one the standard's partial specialisation
    for [const T] is more specialised and adds const. *)
Definition tuple_element (is_cst : bool) (I : nat) (Ts : list ty) : option ty :=
  match nth_error Ts I with
  | Some T => Some (if is_cst then add_const T else T)
  | None => None
  end.

(** concepts.h:26-41 [tuple_like] for a compressed_tuple. *)
Definition tuple_like (is_cst : bool) (Ts : list ty) : bool :=
  forallb (fun I => match tuple_element is_cst I Ts with Some _ => true | None => false end)
          (seq 0 (tuple_size Ts)).

Fixpoint all_some {X : Type} (l : list (option X)) : option (list X) :=
  match l with
  | [] => Some []
  | Some x :: l' => match all_some l' with Some xs => Some (x :: xs) | None => None end
  | None :: _ => None
  end.

(** to_tuple.h:11-17 [to_tuple(t)]: the element types of the returned
    [std::tuple].  apply passes [get<I>(t)...] to parameters [auto &&...values],
    which are forwarded to [std::forward_as_tuple], giving
    [std::tuple<decltype(values)...>]. *)
Definition to_tuple (V CT : B) (Ts : list ty) (is_cst : bool) (c : cat) : option (list ty) :=
  all_some
    (map (fun T =>
            match get V CT T is_cst c with
            | Some r =>
                let values_t := fwd_param (call_expr r) in
                match std_forward values_t (name_expr values_t) with
                | Some r' => Some (fwd_param (call_expr r'))
                | None => None
                end
            | None => None
            end) Ts).

End Types.
Arguments ty : clear implicits.
Arguments expr : clear implicits.
Arguments element : clear implicits.
