(** Which calls of bound functions compile, and with what type: the trailing return
    types of src/pigro/bind_tuple.h and src/pigro/apply.h against the bodies.

    A declaration with a trailing return type [-> decltype(e)] drops out of overload
    resolution if [e] is ill-formed; if it is chosen and its body is ill-formed, the
    program does not compile.  The names in the trailing return types of the lambdas in
    bind_tuple.h are the parameters of the enclosing functions, not the captures and
    variables of the same names in the bodies (C++20 [basic.lookup.unqual]). *)
From Coq Require Import List Bool Arith.
From Verif Require Import CppTypes.
Import ListNotations.

Section Bind.
Context {B : Type} (beq : forall x y : B, {x = y} + {x <> y}).
Notation ty := (ty B).
Notation expr := (expr B).

(** What becomes of an expression that is a call: not viable (where it is only asked,
    the asking declaration drops out), an error that stops the compilation in any case,
    or an expression with the given (return) type. *)
Inductive verdict := NotViable | HardError | Accepted (t : ty).

(** [std::invoke(f, args...)] for the callables of the user. *)
Variable invoke : expr -> list expr -> verdict.

(** Can [return e;] be written in a function of return type [to] if [e] is a call with
    return type [from]? *)
Variable converts : ty -> ty -> bool.

(** The types of [get<I>(t)...], all [I], if they exist: for [std::tuple],
    [compressed_tuple] or what else is tuple-like. *)
Variable gets : expr -> option (list ty).

(** utils.h:41 [FWD(x)] for a parameter [auto &&x] that was given [e]. *)
Definition FWD (e : expr) : option expr :=
  option_map (@call_expr B) (std_forward beq (fwd_param e) (name_expr (fwd_param e))).

Definition FWDs (es : list expr) : option (list expr) := all_some (map FWD es).

(** The body of a function with trailing return type [R] returns a call [b]. *)
Definition returns (R : ty) (b : verdict) : verdict :=
  match b with
  | Accepted R' => if converts R' R then Accepted R else HardError
  | _ => HardError
  end.

(** ** bind_tuple.h:13-18 [bind_back] *)

(** fwd_capture.h:22 [FWD_CAPTURE(x)], the [T] of the captured [std::tuple<T>]. *)
Definition captured (e : expr) : option ty := option_map (@fwd_capture B) (FWD e).

(** fwd_capture.h:17-20 [access(x)] for such a capture in the [mutable] lambda.  [V] is
    the class [std::tuple<T>]. *)
Definition accessed (V : B) (T : ty) : option expr :=
  let x := name_expr (mkTy V false false NoRef) in
  match std_forward beq (deduce_fwd x) (name_expr (fwd_param x)) with
  | Some r => let y := call_expr r in Some (call_expr (std_get T (cst (etype y), ecat y)))
  | None => None
  end.

Variable V : B.

Definition stored_arg (e : expr) : option expr :=
  match captured e with Some T => accessed V T | None => None end.

(** bind_tuple.h:15 [decltype(std::invoke(FWD(f), FWD(front_args)..., FWD(back_args)...))] *)
Definition bind_back_decl (f : expr) (back front : list expr) : verdict :=
  match FWD f, FWDs front, FWDs back with
  | Some f', Some front', Some back' => invoke f' (front' ++ back')
  | _, _, _ => NotViable
  end.

(** bind_tuple.h:14-17, [bind_back(f, back...)(front...)]. *)
Definition bind_back_call (f : expr) (back front : list expr) : verdict :=
  match bind_back_decl f back front with
  | Accepted R =>
      returns R
        match stored_arg f, FWDs front, all_some (map stored_arg back) with
        | Some f', Some front', Some back' => invoke f' (front' ++ back')
        | _, _, _ => HardError
        end
  | v => v
  end.

(** ** [std::bind_front(f, bound...)], called as an rvalue ([func.bind.front])

    It holds objects of the decayed types and passes them on as rvalues.  Copying them
    there is taken to compile. *)
Definition decayed (e : expr) : expr := mkExpr (remove_cvref (etype e)) XV.

Definition std_bind_front (f : expr) (bound : list expr) (args : list expr) : verdict :=
  match FWDs args with
  | Some args' => invoke (decayed f) (map decayed bound ++ args')
  | None => NotViable
  end.

(** ** apply.h:8-17 [apply(f, t)]

    [decl] and [call] say what becomes of calls of [f]: of the declaration of its call
    operator alone, and of the whole. *)
Definition applied (callee : list expr -> verdict) (t : expr) : option verdict :=
  match FWD t with
  | Some t1 =>
      match FWD t1 with
      | Some t2 => option_map (fun gs => callee (map (@call_expr B) gs)) (gets t2)
      | None => None
      end
  | None => None
  end.

Definition apply_decl (decl : list expr -> verdict) (t : expr) : verdict :=
  match applied decl t with Some v => v | None => NotViable end.

Definition apply_call (decl call : list expr -> verdict) (t : expr) : verdict :=
  match apply_decl decl t with
  | Accepted R => returns R match applied call t with Some v => v | None => HardError end
  | v => v
  end.

(** ** bind_tuple.h:20-50 [bind_front_tuple] and [bind_back_tuple], that is [t >> f] and
    [t << f] *)
Inductive side := Front | Back.

(** bind_tuple.h:26 and 42, with [f] and [t] what the names stand for. *)
Definition inner_decl (s : side) (f t : expr) (args : list expr) : verdict :=
  match FWDs args with
  | Some args' =>
      match s with
      | Front => apply_decl (bind_back_decl f args') t
      | Back => apply_decl (std_bind_front f args') t
      end
  | None => NotViable
  end.

(** bind_tuple.h:30 and 46 *)
Definition inner_call (s : side) (f t : expr) (args : list expr) : verdict :=
  match FWDs args with
  | Some args' =>
      match s with
      | Front => apply_call (bind_back_decl f args') (bind_back_call f args') t
      | Back => apply_call (std_bind_front f args') (std_bind_front f args') t
      end
  | None => NotViable
  end.

(** bind_tuple.h:26 and 42: here [f] and [t] are the parameters of the enclosing
    function, given [F] and [T]. *)
Definition binder_decl (s : side) (F T : expr) (args : list expr) : verdict :=
  inner_decl s (name_expr (fwd_param F)) (name_expr (fwd_param T)) args.

Variable is_empty : B -> bool.
(** The class of the binder, and of [idx<i>] (utils.h:12-16). *)
Variable CT : B.
Variable idx_t : nat -> B.

Definition idx (i : nat) : expr := mkExpr (mkTy (idx_t i) true false NoRef) LV.

(** bind_tuple.h:27-28 and 43-44 [auto &&f = self(idx<0>);], [auto &&t = self(idx<1>);]: the
    element made from [e] by compressed_tuple_element(FWD(e)) (lines 23-24, 39-40) and
    called on an lvalue, const or not.  [None] if ill-formed. *)
Definition member (is_cst : bool) (e : expr) : option expr :=
  match FWD e with
  | Some e' =>
      match compressed_tuple_element beq is_empty e' with
      | Some el =>
          match get_call beq 2 V CT el is_cst LV with
          | Some r => Some (name_expr (fwd_param (call_expr r)))
          | None => None
          end
      | None => None
      end
  | None => None
  end.

(** [self(idx<i>)] is resolved among the lambdas of the overload: the one of the element
    is more specialised than the generic one, but the return type of the latter is
    instantiated for this question. *)
Definition probe (s : side) (F T : expr) (i : nat) : bool :=
  match binder_decl s F T [idx i] with HardError => false | _ => true end.

(** The call of a binder [t >> f] or [t << f], const or not and of the given value
    category (bind_tuple.h:21-33, 37-49), with arguments other than an [idx<i>].  The
    lambda takes any [self] and has no captures, so recursive (recursive.h:15-33) picks
    its overload by the trailing return type alone. *)
Definition binder_call (s : side) (F T : expr) (is_cst : bool) (c : cat) (args : list expr) : verdict :=
  match binder_decl s F T args with
  | Accepted R =>
      match recursive_call (fun _ => true) is_cst c with
      | Some q =>
          let self := name_expr (fwd_param (self_expr CT q)) in
          returns R
            (if probe s F T 0 && probe s F T 1 then
               match member (cst (etype self)) F, member (cst (etype self)) T with
               | Some f, Some t => inner_call s f t args
               | _, _ => HardError
               end
             else HardError)
      | None => NotViable
      end
  | v => v
  end.

End Bind.
Arguments verdict : clear implicits.

(** ** Tuples *)
Section Tuples.
Context {B : Type}.

(** [get<I>] on an expression of class [std::tuple<Ts...>] *)
Definition std_gets (Ts : list (ty B)) (t : expr B) : option (list (ty B)) :=
  Some (map (fun T => std_get T (cst (etype t), ecat t)) Ts).

(** [get<I>] on an expression of class [compressed_tuple<Ts...>] *)
Definition compressed_gets (beq : forall x y : B, {x = y} + {x <> y}) (is_empty : B -> bool)
    (V CT : B) (Ts : list (ty B)) (t : expr B) : option (list (ty B)) :=
  all_some (map (fun T => get beq is_empty V CT T (cst (etype t)) (ecat t)) Ts).

End Tuples.

(** ** Function objects with one call operator that is not a template *)
Section Functions.
Context {B : Type} (beq : forall x y : B, {x = y} + {x <> y}).

(** Can objects of a class be copied?  They can be moved. *)
Variable copyable : B -> bool.

(** [ret operator()(params...)] with const or not, and [&], [&&] or neither. *)
Record fobj := mkF {
  fclass : B;
  fparams : list (ty B);
  fret : ty B;
  fconst : bool;
  fref : refk
}.

(** Can a parameter of type [p] be initialised with [e], without conversion to another
    class ([dcl.init.ref], [over.ics.user])? *)
Definition takes (p : ty B) (e : expr B) : bool :=
  match ref p with
  | NoRef =>
      (if beq (base (etype e)) (base p) then true else false) && negb (vol (etype e))
      && match ecat e with
         | PRV => true
         | XV => copyable (base p) || negb (cst (etype e))
         | LV => copyable (base p)
         end
  | LRef =>
      binds beq (etype e) p && match ecat e with LV => true | _ => cst p && negb (vol p) end
  | RRef => binds beq (etype e) p && match ecat e with LV => false | _ => true end
  end.

Fixpoint takes_all (ps : list (ty B)) (es : list (expr B)) : bool :=
  match ps, es with
  | [], [] => true
  | p :: ps', e :: es' => takes p e && takes_all ps' es'
  | _, _ => false
  end.

(** The implicit object parameter; one without [&] or [&&] takes rvalues as well. *)
Definition callee_ok (o : fobj) (f : expr B) : bool :=
  (if beq (base (etype f)) (fclass o) then true else false)
  && implb (cst (etype f)) (fconst o) && negb (vol (etype f))
  && match fref o with
     | NoRef => true
     | LRef => match ecat f with LV => true | _ => fconst o end
     | RRef => match ecat f with LV => false | _ => true end
     end.

Definition fobj_invoke (o : fobj) (f : expr B) (args : list (expr B)) : verdict B :=
  if callee_ok o f && takes_all (fparams o) args then Accepted (fret o) else NotViable.

End Functions.
Arguments fobj : clear implicits.
