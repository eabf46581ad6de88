(** Specification for the machine: the objects that [pigro::lazy] builds, as trees
    of function objects, and what evaluating such a tree from scratch does. *)
From Coq Require Import List Bool Arith.
From Verif Require Import Value Machine.
Import ListNotations.

Section Spec.
Context {A W F S : Type}.
Notation value := (val A).
Notation obj := (obj A F S).
Notation mevent := (mevent A F).
Variable U : muser A W F S.

(** The arguments and dependencies of [pigro::lazy], as the caller gave them: a
    function object with its state, and dependencies that are lazy functions, plain
    function objects or values. *)
Inductive lexp := LExp (f : F) (s : option S) (deps : list ldep)
with ldep := DepLazy (e : lexp) | DepFun (f : F) (s : option S) | DepValue (v : value).

(** What a user function does when called with values: the values its parameters
    end up with do not matter to the caller, unless it returns one of them. *)
Fixpoint overwrite (vs vs' : list value) : list value :=
  match vs, vs' with
  | v :: vs, v' :: vs' => v' :: overwrite vs vs'
  | _, _ => vs
  end.

(** The result ([None]: [void]), the new world and the one action of a user function. *)
Definition ucall (f : F) (s : option S) (vs : list value) (w : W)
    : outcome (option value) * W * list mevent :=
  let '(_, vs', r, w') := usem U f s vs w in
  (match r with
   | URet v => Done (Some v)
   | UVoid => Done None
   | UThrow => Err Throw
   | URefArg i =>
       match nth_error (overwrite vs vs') i with
       | Some v => Done (Some v)
       | None => Err IllFormed
       end
   end, w', [MCall f vs]).

(** A wrapped function's result as a value. *)
Definition fcall (f : F) (s : option S) (vs : list value) (w : W)
    : outcome value * W * list mevent :=
  let '(r, w', l) := ucall f s vs w in
  (match r with Done (Some v) => Done v | Done None => Done VVoid | Err e => Err e end, w', l).

(** A plain function dependency's result; it must not be [void]. *)
Definition dcall (f : F) (s : option S) (w : W) : outcome value * W * list mevent :=
  let '(r, w', l) := ucall f s [] w in
  (match r with Done (Some v) => Done v | Done None => Err IllFormed | Err e => Err e end, w', l).

(** Evaluation from scratch: the dependencies from left to right, then the
    function; a single tuple or pair is spread (see C19). *)
Definition seqs {D} (ev : D -> W -> outcome value * W * list mevent) :=
  fix go (ds : list D) (w : W) : outcome (list value) * W * list mevent :=
    match ds with
    | [] => (Done [], w, [])
    | d :: ds' =>
        match ev d w with
        | (Done v, w1, l1) =>
            match go ds' w1 with
            | (Done vs, w2, l2) => (Done (v :: vs), w2, l1 ++ l2)
            | (Err e, w2, l2) => (Err e, w2, l1 ++ l2)
            end
        | (Err e, w1, l1) => (Err e, w1, l1)
        end
    end.

Definition apply_all {D} (fn : list value -> W -> outcome value * W * list mevent)
    (ev : D -> W -> outcome value * W * list mevent) (ds : list D) (w : W)
    : outcome value * W * list mevent :=
  match seqs ev ds w with
  | (Done vs, w1, l1) =>
      let '(r, w2, l2) := fn (ctad_tuple as_tuple vs) w1 in (r, w2, l1 ++ l2)
  | (Err e, w1, l1) => (Err e, w1, l1)
  end.

(** The same where the values of the dependencies are read through references to dead
    objects before the function is called; this is undefined unless [ok]. *)
Definition apply_read {D} (ok : value -> bool) (fn : list value -> W -> outcome value * W * list mevent)
    (ev : D -> W -> outcome value * W * list mevent) (ds : list D) (w : W)
    : outcome value * W * list mevent :=
  match seqs ev ds w with
  | (Done vs, w1, l1) =>
      if forallb ok vs then
        let '(r, w2, l2) := fn (ctad_tuple as_tuple vs) w1 in (r, w2, l1 ++ l2)
      else (Err Undefined, w1, l1)
  | (Err e, w1, l1) => (Err e, w1, l1)
  end.

Fixpoint ecall (e : lexp) (w : W) {struct e} : outcome value * W * list mevent :=
  match e with
  | LExp f s deps =>
      apply_all (fcall f s)
        (fun d w => match d with
                    | DepLazy e' => ecall e' w
                    | DepFun g t => dcall g t w
                    | DepValue v => (Done v, w, [])
                    end) deps w
  end.

Definition dep_call (d : ldep) (w : W) : outcome value * W * list mevent :=
  match d with
  | DepLazy e => ecall e w
  | DepFun g t => dcall g t w
  | DepValue v => (Done v, w, [])
  end.

(** Evaluation from scratch, with undefined behaviour: a plain function dependency
    first reads an [int] (lazy.h:84). *)
Fixpoint scall (ok : value -> bool) (e : lexp) (w : W) {struct e} : outcome value * W * list mevent :=
  match e with
  | LExp f s deps =>
      apply_read ok (fcall f s)
        (fun d w => match d with
                    | DepLazy e' => scall ok e' w
                    | DepFun g t => if ok (VAtom (uint0 U)) then dcall g t w else (Err Undefined, w, [])
                    | DepValue v => (Done v, w, [])
                    end) deps w
  end.

Definition sdep_call (ok : value -> bool) (d : ldep) (w : W) : outcome value * W * list mevent :=
  match d with
  | DepLazy e => scall ok e w
  | DepFun g t => if ok (VAtom (uint0 U)) then dcall g t w else (Err Undefined, w, [])
  | DepValue v => (Done v, w, [])
  end.

(** A call by the user: the result is read as well. *)
Definition tcall (ok : value -> bool) (e : lexp) (w : W) : outcome value * W * list mevent :=
  let '(o, w', l) := scall ok e w in
  (match o with
   | Done v => if ok v then Done v else Err Undefined
   | Err x => Err x
   end, w', l).

(** ** The objects *)
Definition fun_obj (f : F) (s : option S) : obj := Node (KFun f s) [].
Definition ct (os : list obj) : obj := Node KCT (map SVal os).
Definition right_obj (closure : obj) (os : list obj) : obj :=
  Node KFrontTuple [SVal closure; SVal (ct os)].
Definition left_obj (closure : obj) (os : list obj) : obj :=
  Node KBackTuple [SVal closure; SVal (ct os)].

(** [regularized_void(f)], regular_void.h:15-26. *)
Definition reg_obj (f : obj) : obj := right_obj (Node KReg []) [f].
(** [detail::lazy(g, deps...)] with the cache [c], lazy.h:46-67. *)
Definition cache_obj (c : option value) : obj :=
  Node KOpt (match c with Some v => [SVal (data v)] | None => [] end).
Definition core_obj (c : option value) : obj := Node KCore [SVal (cache_obj c)].
Definition node_obj (c : option value) (g : obj) (deps : list obj) : obj :=
  left_obj (core_obj c) (g :: deps).
(** [lazy_value(v, ch)], lazy.h:69-76. *)
Definition lazy_value_obj (v : value) (ch : bool) : obj :=
  left_obj (Node KLazyVal []) [data v; Node (KFlag ch) []].
(** [compressed_tuple{ dep } << [](auto, auto dep) mutable { return dep(); }], lazy.h:84. *)
Definition sample_fn (f : obj) : obj := left_obj (Node KSample []) [f].
(** [ensure_lazy] of a plain function, lazy.h:82-86. *)
Definition sample_obj (c : option value) (f : obj) : obj :=
  node_obj c (sample_fn f) [lazy_value_obj (VAtom (uint0 U)) true].
(** [unregularized_void(unwrap_value(node))], lazy.h:101-102. *)
Definition unwrap_obj (node : obj) : obj :=
  Node KUnwrap [SVal (left_obj (Node KUnwrapCall []) [node])].
Definition wrap_obj (node : obj) : obj := right_obj (Node KUnreg []) [unwrap_obj node].

(** [pigro::lazy(f, deps...)], lazy.h:96-103. *)
Fixpoint lazy_obj (e : lexp) : obj :=
  match e with
  | LExp f s deps =>
      wrap_obj (node_obj None (reg_obj (fun_obj f s))
                  (map (fun d => match d with
                                 | DepLazy e' => lazy_obj e'
                                 | DepFun g t => sample_obj None (fun_obj g t)
                                 | DepValue v => lazy_value_obj v false
                                 end) deps))
  end.

Definition dep_obj (d : ldep) : obj :=
  match d with
  | DepLazy e => lazy_obj e
  | DepFun g t => sample_obj None (fun_obj g t)
  | DepValue v => lazy_value_obj v false
  end.

(** The node inside [lazy_obj e]. *)
Definition inner_obj (e : lexp) : obj :=
  match e with LExp f s deps => node_obj None (reg_obj (fun_obj f s)) (map dep_obj deps) end.

(** Nesting depth. *)
Fixpoint height (e : lexp) : nat :=
  match e with
  | LExp _ _ deps =>
      Datatypes.S (list_max (map (fun d => match d with DepLazy e' => height e' | _ => 0 end) deps))
  end.

End Spec.
Arguments lexp : clear implicits.
Arguments ldep : clear implicits.

Section Induction.
Context {A F S : Type}.
Variable P : lexp A F S -> Prop.
Definition Pdep (d : ldep A F S) : Prop := match d with DepLazy e => P e | _ => True end.
Hypothesis H : forall f s deps, Forall Pdep deps -> P (LExp f s deps).
Fixpoint lexp_ind' (e : lexp A F S) : P e :=
  match e with
  | LExp f s deps =>
      H f s deps
        ((fix go (ds : list (ldep A F S)) : Forall Pdep ds :=
            match ds with
            | [] => Forall_nil Pdep
            | d :: ds' =>
                Forall_cons d
                  (match d return Pdep d with
                   | DepLazy e' => lexp_ind' e'
                   | DepFun _ _ => I
                   | DepValue _ => I
                   end) (go ds')
            end) deps)
  end.
End Induction.
