(** A small C++ abstract machine, and pigro's function objects as written, object
    by object: fwd_capture.h, compressed_tuple.h (elements), bind_tuple.h,
    regular_void.h and lazy.h.

    The machine has objects with identity and lifetime, references, copies,
    exceptions and undefined behaviour.  Everything that matters for "which object
    is called, which object is read, is it still alive" is kept.  Simplifications:
    - a move is a copy (moved-from objects are not looked at again);
    - objects are not split into bytes; constness is only kept for arguments;
    - types are not checked statically: code that would not compile shows up as the
      outcome [IllFormed];
    - user copy constructors and destructors do nothing observable. *)
From Coq Require Import List Bool Arith.
From Verif Require Import Value.
From Verif Require LazyModel.
Notation update := LazyModel.update.
Import ListNotations.

Section Machine.
Context {A W F S : Type}.
Notation value := (val A).

(** ** Objects *)

(** A reference designates a part of an object in the store: the object's
    location, then member numbers. *)
Definition ref := (nat * list nat)%type.

(** Classes of objects, with the data that is not an object of its own. *)
Inductive kind :=
| KData (v : value)              (* a user value; [KData VVoid] is [regular_void{}] *)
| KNull                          (* [nullptr] *)
| KFlag (b : bool)               (* [std::true_type{}] / [std::false_type{}] *)
| KBool (b : bool)               (* a [bool] *)
| KFun (f : F) (s : option S)    (* a user function object; [None]: an empty class *)
| KTuple                         (* [std::tuple] *)
| KCT                            (* [compressed_tuple], compressed_tuple.h:51-61 *)
| KBindFront                     (* result of [std::bind_front]: function, bound arguments *)
| KBindBack                      (* closure of bind_tuple.h:14-17: function, bound arguments *)
| KFrontTuple                    (* result of bind_front_tuple, bind_tuple.h:20-34: function, tuple *)
| KBackTuple                     (* result of bind_back_tuple, bind_tuple.h:36-50: function, tuple *)
| KReg                           (* closure of regular_void.h:16 *)
| KUnreg                         (* closure of regular_void.h:29 *)
| KUnwrapCall                    (* first closure of lazy.h:38 *)
| KUnwrap                        (* result of unwrap_value, lazy.h:35-44: the [<<] object *)
| KCore                          (* closure of lazy.h:50: its [cache] *)
| KLazyVal                       (* closure of lazy.h:70 *)
| KSample                        (* closure of lazy.h:84 *)
| KRefWrap                       (* [std::reference_wrapper], the result of [std::ref] *)
| KOpt                           (* [std::optional]: nothing, or the value *)
| KResult.                       (* [LazyResult], lazy.h:17-21: value, is_changed *)

(** An object is its class and its members; a member is an object or a
    reference. *)
Inductive obj := Node (k : kind) (ms : list slot)
with slot := SVal (o : obj) | SRef (r : ref).

Definition kind_of (o : obj) : kind := match o with Node k _ => k end.
Definition members (o : obj) : list slot := match o with Node _ ms => ms end.

Definition data (v : value) : obj := Node (KData v) [].
Definition null : obj := Node KNull [].

(** Which user values are of an empty class ([std::is_empty]); [regular_void] is. *)
Variable vempty : value -> bool.
Definition data_empty (v : value) : bool := match v with VVoid => true | _ => vempty v end.

(** [std::is_empty], by class: closures without captures are empty, closures with
    captures are not; compressed tuples and the results of [>>], [<<] and
    [unwrap_value] are when everything they hold is (C36). *)
Definition kind_empty (k : kind) : bool :=
  match k with
  | KData v => data_empty v
  | KFlag _ => true
  | KFun _ None => true
  | KCT | KFrontTuple | KBackTuple | KUnwrap => true
  | KReg | KUnreg | KUnwrapCall | KLazyVal | KSample => true
  | _ => false
  end.

Fixpoint obj_empty (o : obj) : bool :=
  match o with
  | Node k ms =>
      kind_empty k &&
      (fix all (ms : list slot) : bool :=
         match ms with
         | [] => true
         | SVal o' :: ms' => obj_empty o' && all ms'
         | SRef _ :: _ => false
         end) ms
  end.

(** The part of [o] at path [p]; and [o] with that part replaced. *)
Fixpoint sub (o : obj) (p : list nat) : option obj :=
  match p with
  | [] => Some o
  | i :: p' =>
      match nth_error (members o) i with
      | Some (SVal o') => sub o' p'
      | _ => None
      end
  end.

Fixpoint put (o : obj) (p : list nat) (x : obj) : obj :=
  match p with
  | [] => x
  | i :: p' =>
      match nth_error (members o) i with
      | Some (SVal o') => Node (kind_of o) (update i (SVal (put o' p' x)) (members o))
      | _ => o
      end
  end.

Definition at_ (r : ref) (i : nat) : ref := (fst r, snd r ++ [i]).

(** ** States and programs *)

(** Observable actions: a user function is called with these argument values; two
    results are compared. *)
Inductive mevent := MCall (f : F) (args : list value) | MCmp (old new : value).

(** The store: every object that ever lived, with whether it still does.  *)
Record mstate := mkSt { store : list (bool * obj); mworld : W; trace : list mevent }.

(** Outcomes: a value; or an exception, undefined behaviour, ill-formed code, or not
    enough fuel given to the interpreter. *)
Inductive err := Throw | Undefined | IllFormed | NoFuel.
Inductive outcome (X : Type) := Done (x : X) | Err (e : err).
Arguments Done {X} _.
Arguments Err {X} _.

Definition M (X : Type) := mstate -> outcome X * mstate.

Definition ret {X} (x : X) : M X := fun s => (Done x, s).
Definition fail {X} (e : err) : M X := fun s => (Err e, s).
Definition bind {X Y} (m : M X) (k : X -> M Y) : M Y := fun s =>
  match m s with
  | (Done x, s') => k x s'
  | (Err e, s') => (Err e, s')
  end.
Local Notation "x <- m ;; k" := (bind m (fun x => k)) (at level 61, m at next level, right associativity).
Local Notation "m ;;; k" := (bind m (fun _ => k)) (at level 61, right associativity).

Fixpoint mapM {X Y} (f : X -> M Y) (l : list X) : M (list Y) :=
  match l with
  | [] => ret []
  | x :: l' => y <- f x ;; ys <- mapM f l' ;; ret (y :: ys)
  end.

(** Two readings of C++ that the theorems are stated for:
    - [strict]: using an object after its lifetime is undefined behaviour, as the
      standard says; otherwise dead objects keep their last contents.
    - [byref]: if set, bound functions, dependencies and values are handed on by
      reference instead of by copy.  This is NOT the code; it is the wiring under
      which the objects keep their state, see [Rewired.v]. *)
Record config := mkCfg { strict : bool; byref : bool }.
Variable C : config.

(** What user functions do: given the function object's state and the argument
    values, the new state, the new values of the arguments (for arguments taken by
    non-const reference), what is returned, and the new outside world.
    [URefArg i] returns a reference to the [i]-th argument. *)
Inductive ures := URet (v : value) | URefArg (i : nat) | UVoid | UThrow.
Record muser := mkMUser {
  usem : F -> option S -> list value -> W -> option S * list value * ures * W;
  ueq : A -> A -> bool;
  uint0 : A }.
Variable U : muser.

(** ** Lifetimes *)

(** A new object (a local variable or a temporary). *)
Definition alloc (o : obj) : M ref := fun s =>
  (Done (length (store s), []), mkSt (store s ++ [(true, o)]) (mworld s) (trace s)).

(** The end of the lifetime of every object created since the store had [n]
    objects. *)
Definition kill_from (n : nat) (l : list (bool * obj)) : list (bool * obj) :=
  firstn n l ++ map (fun c => (false, snd c)) (skipn n l).

(** A function body or a full expression: locals and temporaries die at its end,
    also when it throws. *)
Definition scoped {X} (m : M X) : M X := fun s =>
  let '(r, s') := m s in
  (r, mkSt (kill_from (length (store s)) (store s')) (mworld s') (trace s')).

(** Is the object that [r] is a part of alive?  Required to call it, to write to it
    or to form a reference to a part of it. *)
Definition alive (r : ref) : M unit := fun s =>
  match nth_error (store s) (fst r) with
  | Some (true, _) => (Done tt, s)
  | Some (false, _) => if strict C then (Err Undefined, s) else (Done tt, s)
  | None => (Err Undefined, s)
  end.

(** What [r] designates, without using it (its class is known statically). *)
Definition peek (r : ref) : M obj := fun s =>
  match nth_error (store s) (fst r) with
  | Some (_, root) =>
      match sub root (snd r) with Some o => (Done o, s) | None => (Err IllFormed, s) end
  | None => (Err Undefined, s)
  end.

(** Read [r] (lvalue-to-rvalue conversion, or a copy of a class object).  Copying an
    object of an empty class accesses no memory. *)
Definition read (r : ref) : M obj :=
  o <- peek r ;;
  if obj_empty o then ret o else alive r ;;; ret o.

Definition write (r : ref) (x : obj) : M unit :=
  alive r ;;; peek r ;;;
  (fun s =>
     match nth_error (store s) (fst r) with
     | Some (b, root) =>
         (Done tt, mkSt (update (fst r) (b, put root (snd r) x) (store s)) (mworld s) (trace s))
     | None => (Err Undefined, s)
     end).

Definition log (e : mevent) : M unit := fun s =>
  (Done tt, mkSt (store s) (mworld s) (trace s ++ [e])).

(** ** Calls *)

(** An argument: an object and how it is passed: non-const lvalue, const lvalue, or
    rvalue. *)
Inductive cat := LV | CLV | RV.
Record arg := mkArg { aref : ref; acat : cat }.

(** What a call yields: a prvalue, a reference, or [void]. *)
Inductive result := RVal (o : obj) | RRef (r : ref) | RVoid.

(** The value of a result, copied (return type [auto], [const auto x = ...]). *)
Definition to_obj (r : result) : M obj :=
  match r with
  | RVal o => ret o
  | RRef r => read r
  | RVoid => fail IllFormed
  end.

(** A result as an argument; a prvalue is materialised. *)
Definition as_arg (r : result) : M arg :=
  match r with
  | RVal o => r <- alloc o ;; ret (mkArg r RV)
  | RRef r => ret (mkArg r LV)
  | RVoid => fail IllFormed
  end.

(** A parameter [auto x]: a copy. *)
Definition by_value (a : arg) : M ref := o <- read (aref a) ;; alloc o.
(** The parameters [f], [deps], [dep] and [value] of the lambdas: copies, unless
    [byref]. *)
Definition param (a : arg) : M ref := if byref C then ret (aref a) else by_value a.

(** src/pigro/fwd_capture.h:12-15 [fwd_capture] applied to a forwarding reference:
    [std::tuple<T &>] for an lvalue, [std::tuple<T>] for an rvalue. *)
Definition capture (a : arg) : M slot :=
  match acat a with
  | RV => o <- read (aref a) ;; ret (SVal o)
  | _ => ret (SRef (aref a))
  end.

(** src/pigro/fwd_capture.h:17-20 [access] of member [i] of the object at [r]. *)
Definition access (r : ref) (i : nat) : M ref :=
  o <- peek r ;;
  match nth_error (members o) i with
  | Some (SVal _) => ret (at_ r i)
  | Some (SRef r') => ret r'
  | None => fail IllFormed
  end.

(** src/pigro/compressed_tuple.h:18-35 [compressed_tuple_element], called on an
    lvalue: a copy for an element of empty class (:20-22), else the element (:31-33). *)
Definition element (r : ref) (i : nat) : M result :=
  alive r ;;; o <- peek r ;;
  match nth_error (members o) i with
  | Some (SVal e) => if obj_empty e then ret (RVal e) else ret (RRef (at_ r i))
  | Some (SRef r') => ret (RRef r')
  | None => fail IllFormed
  end.

(** [get<i>] of an lvalue tuple: compressed_tuple.h:83-86, or [std::get]. *)
Definition get (r : ref) (i : nat) : M result :=
  o <- peek r ;;
  match kind_of o with
  | KCT => element r i
  | KTuple => alive r ;;; r' <- access r i ;; ret (RRef r')
  | _ => fail IllFormed
  end.

(** All elements, as the arguments of [pigro::apply] (apply.h:8-17). *)
Definition elements (r : ref) : M (list arg) :=
  o <- peek r ;;
  mapM (fun i => e <- get r i ;; as_arg e) (seq 0 (length (members o))).

Definition value_of (o : obj) : M value :=
  match o with Node (KData v) _ => ret v | _ => fail IllFormed end.

(** Pairwise assignment to the arguments taken by reference. *)
Fixpoint write_args (args : list arg) (vs : list value) : M unit :=
  match args, vs with
  | a :: args', v :: vs' =>
      (match acat a with CLV => ret tt | _ => write (aref a) (data v) end) ;;; write_args args' vs'
  | _, _ => ret tt
  end.

Definition new_state (old new : option S) : option S :=
  match old, new with Some _, Some s => Some s | _, _ => old end.

(** A call of the user function object [f] with state [s], living at [callee]. *)
Definition call_user (callee : ref) (f : F) (s : option S) (args : list arg) : M result :=
  vs <- mapM (fun a => o <- read (aref a) ;; value_of o) args ;;
  log (MCall f vs) ;;;
  r <- (fun m =>
          let '(s', vs', r, w') := usem U f s vs (mworld m) in
          (Done (s', vs', r), mkSt (store m) w' (trace m))) ;;
  let '(s', vs', r) := r in
  write callee (Node (KFun f (new_state s s')) []) ;;;
  write_args args vs' ;;;
  match r with
  | URet v => ret (RVal (data v))
  | URefArg i => match nth_error args i with Some a => ret (RRef (aref a)) | None => fail IllFormed end
  | UVoid => ret RVoid
  | UThrow => fail Throw
  end.

(** src/pigro/bind_tuple.h:13-18: the closure of [bind_back] calls the captured
    function with the arguments of the call, then the bound ones (as lvalues). *)
Definition call_bind_back (invoke : ref -> list arg -> M result) (callee : ref) (n : nat)
    (args : list arg) : M result :=
  f <- access callee 0 ;;
  bs <- mapM (access callee) (seq 1 (n - 1)) ;;
  invoke f (args ++ map (fun r => mkArg r LV) bs).

(** [std::bind_front(f, ...)] called as an rvalue: the bound function with the
    bound arguments moved, then the arguments of the call. *)
Definition call_bind_front (invoke : ref -> list arg -> M result) (callee : ref) (n : nat)
    (args : list arg) : M result :=
  f <- access callee 0 ;;
  bs <- mapM (access callee) (seq 1 (n - 1)) ;;
  invoke f (map (fun r => mkArg r RV) bs ++ args).

(** [auto &&x = self(idx<i>);] *)
Definition bind_elem (callee : ref) (i : nat) : M ref :=
  e <- element callee i ;; a <- as_arg e ;; ret (aref a).

(** src/pigro/bind_tuple.h:25-31. *)
Definition call_front_tuple (invoke : ref -> list arg -> M result) (callee : ref)
    (args : list arg) : M result :=
  scoped (
    f <- bind_elem callee 0 ;;
    t <- bind_elem callee 1 ;;
    (* bind_back(f, FWD(args)...): [f] is an lvalue here *)
    cs <- mapM capture args ;;
    b <- alloc (Node KBindBack (SRef f :: cs)) ;;
    es <- elements t ;;
    invoke b es).

(** src/pigro/bind_tuple.h:41-47. *)
Definition call_back_tuple (invoke : ref -> list arg -> M result) (callee : ref)
    (args : list arg) : M result :=
  scoped (
    f <- bind_elem callee 0 ;;
    t <- bind_elem callee 1 ;;
    (* std::bind_front(f, FWD(args)...): decayed copies of everything *)
    cs <- (if byref C then
             cs <- mapM capture args ;; ret (SRef f :: cs)
           else
             mapM (fun r => o <- read r ;; ret (SVal o)) (f :: map aref args)) ;;
    b <- alloc (Node KBindFront cs) ;;
    es <- elements t ;;
    invoke b es).

(** src/pigro/regular_void.h:16-25. *)
Definition call_reg (invoke : ref -> list arg -> M result) (args : list arg) : M result :=
  match args with
  | fa :: xs =>
      scoped (
        f <- param fa ;;
        ps <- mapM by_value xs ;;
        r <- invoke f (map (fun p => mkArg p LV) ps) ;;
        match r with
        | RVoid => ret (RVal (data VVoid))
        | _ => o <- to_obj r ;; ret (RVal o)
        end)
  | [] => fail IllFormed
  end.

(** src/pigro/regular_void.h:29-38. *)
Definition call_unreg (invoke : ref -> list arg -> M result) (args : list arg) : M result :=
  match args with
  | fa :: xs =>
      scoped (
        f <- param fa ;;
        ps <- mapM by_value xs ;;
        r <- invoke f (map (fun p => mkArg p LV) ps) ;;
        match r with
        | RVal (Node (KData VVoid) _) => ret RVoid
        | RVoid => ret RVoid
        | _ => o <- to_obj r ;; ret (RVal o)
        end)
  | [] => fail IllFormed
  end.

(** [x(nullptr)] *)
Definition call_null (invoke : ref -> list arg -> M result) (r : ref) : M result :=
  n <- alloc null ;; invoke r [mkArg n RV].

(** src/pigro/lazy.h:38, the body of the first lambda. *)
Definition call_unwrap_call (invoke : ref -> list arg -> M result) (args : list arg) : M result :=
  match args with
  | [_; _; fa] =>
      scoped (f <- param fa ;; r <- call_null invoke f ;; o <- to_obj r ;; ret (RVal o))
  | _ => fail IllFormed
  end.

(** [result.value] of a [LazyResult], copied (lazy.h:28 and :40). *)
Definition result_value (o : obj) : M obj :=
  match o with
  | Node KResult [SVal v; _] => ret v
  | Node KResult [SRef r; _] => read r
  | _ => fail IllFormed
  end.

(** [result.is_changed], lazy.h:32. *)
Definition result_flag (o : obj) : M bool :=
  match o with
  | Node KResult [_; SVal (Node (KBool b) [])] => ret b
  | _ => fail IllFormed
  end.

(** src/pigro/lazy.h:37-42: called with [nullptr], the [<<] object gets the call
    (recursive.h passes the object itself first); without arguments, the second
    lambda calls the object with [nullptr]. *)
Definition call_unwrap (invoke : ref -> list arg -> M result) (callee : ref)
    (args : list arg) : M result :=
  match args with
  | [] => scoped (r <- call_null invoke callee ;; o <- to_obj r ;; v <- result_value o ;; ret (RVal v))
  | [_] => invoke (at_ callee 0) (mkArg callee LV :: args)
  | _ => fail IllFormed
  end.

(** What [std::tuple{ ... }] sees in an initialiser (see [Value.as_tuple]). *)
Definition look (o : obj) : option (list obj) :=
  match o with
  | Node (KData v) _ => option_map (map data) (as_tuple v)
  | _ => None
  end.

(** [cache != result], lazy.h:58: [std::optional<T> != T], see [Value.opt_ne]. *)
Definition cache_neq (c result : obj) : M bool :=
  match c with
  | Node KOpt [] =>
      ret (match result with Node (KData new) _ => opt_ne (ueq U) None new | _ => true end)
  | Node KOpt [SVal (Node (KData old) _)] =>
      new <- value_of result ;; log (MCmp old new) ;;; ret (opt_ne (ueq U) (Some old) new)
  | _ => fail IllFormed
  end.

Definition engaged (c : obj) : bool := match members c with [] => false | _ => true end.

(** src/pigro/lazy.h:50-66, the body of the lambda; [callee] is the closure that
    holds the cache. *)
Definition call_core (invoke : ref -> list arg -> M result) (callee : ref)
    (args : list arg) : M result :=
  match args with
  | _ :: fa :: das =>
      scoped (
        f <- param fa ;;
        ds <- mapM param das ;;
        (* const auto args = std::tuple{ deps(nullptr)... }; *)
        rs <- mapM (fun d => scoped (r <- call_null invoke d ;; to_obj r)) ds ;;
        (* auto changed = !cache || any(args, is_changed); *)
        c <- read (at_ callee 0) ;;
        flags <- mapM result_flag rs ;;
        let changed := negb (engaged c) || existsb (fun b => b) flags in
        changed <-
          (if changed then
             scoped (
               (* const auto values = transform(args, value); *)
               vs <- mapM result_value rs ;;
               t <- alloc (Node KTuple (map SVal (ctad_tuple look vs))) ;;
               (* const auto result = std::apply(f, values); *)
               es <- mapM (access t) (seq 0 (length (ctad_tuple look vs))) ;;
               r <- invoke f (map (fun e => mkArg e CLV) es) ;;
               result <- to_obj r ;;
               (* changed = cache != result; cache = std::move(result); *)
               ch <- cache_neq c result ;;
               write (at_ callee 0) (Node KOpt [SVal result]) ;;;
               ret ch)
           else ret changed) ;;
        (* return LazyResult{ *cache, changed }; *)
        c' <- read (at_ callee 0) ;;
        v <- match c' with
             | Node KOpt [SVal (Node (KData VVoid) _)] => alloc (data VVoid) (* regular_void.h:59 *)
             | Node KOpt [SVal _] => ret (at_ (at_ callee 0) 0)
             | _ => fail Undefined
             end ;;
        ret (RVal (Node KResult [SRef v; SVal (Node (KBool changed) [])])))
  | _ => fail IllFormed
  end.

(** src/pigro/lazy.h:70-75: [LazyResult{ value, changed }] with lvalues, hence
    [LazyResult<const T &>] (lazy.h:23-24). *)
Definition call_lazy_val (args : list arg) : M result :=
  match args with
  | [_; va; ca] =>
      scoped (
        v <- param va ;;
        c <- by_value ca ;;
        o <- read c ;;
        match kind_of o with
        | KFlag b => ret (RVal (Node KResult [SRef v; SVal (Node (KBool b) [])]))
        | _ => fail IllFormed
        end)
  | _ => fail IllFormed
  end.

(** src/pigro/lazy.h:84. *)
Definition call_sample (invoke : ref -> list arg -> M result) (args : list arg) : M result :=
  match args with
  | [xa; da] =>
      scoped (by_value xa ;;; d <- param da ;; r <- invoke d [] ;; o <- to_obj r ;; ret (RVal o))
  | _ => fail IllFormed
  end.

(** [std::reference_wrapper::operator()]: call what is referred to.  Not pigro's code;
    what a user writes to share a function object instead of copying it. *)
Definition call_ref_wrap (invoke : ref -> list arg -> M result) (callee : ref) (args : list arg) : M result :=
  f <- access callee 0 ;; invoke f args.

(** Call the object at [callee]. *)
Fixpoint invoke (fuel : nat) (callee : ref) (args : list arg) : M result :=
  match fuel with
  | 0 => fail NoFuel
  | Datatypes.S fuel' =>
      alive callee ;;; o <- peek callee ;;
      match kind_of o with
      | KFun f s => call_user callee f s args
      | KBindBack => call_bind_back (invoke fuel') callee (length (members o)) args
      | KBindFront => call_bind_front (invoke fuel') callee (length (members o)) args
      | KFrontTuple => call_front_tuple (invoke fuel') callee args
      | KBackTuple => call_back_tuple (invoke fuel') callee args
      | KReg => call_reg (invoke fuel') args
      | KUnreg => call_unreg (invoke fuel') args
      | KUnwrapCall => call_unwrap_call (invoke fuel') args
      | KUnwrap => call_unwrap (invoke fuel') callee args
      | KCore => call_core (invoke fuel') callee args
      | KLazyVal => call_lazy_val args
      | KSample => call_sample (invoke fuel') args
      | KRefWrap => call_ref_wrap (invoke fuel') callee args
      | _ => fail IllFormed
      end
  end.

(** ** Construction *)

(** Member of [recursive{ overload{ compressed_tuple_element<i>(FWD(x)), ... } }]
    (bind_tuple.h:23-24, 39-40): nothing for an empty class, else [fwd_capture]. *)
Definition element_capture (a : arg) : M slot :=
  o <- peek (aref a) ;;
  if obj_empty o then ret (SVal o) else capture a.

(** src/pigro/compressed_tuple.h:63-64, [compressed_tuple{ us... }]: every element
    is a copy. *)
Definition make_ct (args : list arg) : M obj :=
  os <- mapM (fun a => read (aref a)) args ;; ret (Node KCT (map SVal os)).

(** [compressed_tuple<Ts...>{ us... }]: [true] marks the elements whose type is an
    lvalue reference (compressed_tuple.h:56-60, 31). *)
Definition make_ct_as (args : list (bool * arg)) : M obj :=
  ss <- mapM (fun x : bool * arg =>
                let (isref, a) := x in
                if isref then ret (SRef (aref a)) else (o <- read (aref a) ;; ret (SVal o))) args ;;
  ret (Node KCT ss).

(** src/pigro/bind_tuple.h:13-18. *)
Definition bind_back (f : arg) (bs : list arg) : M obj :=
  c <- capture f ;; cs <- mapM capture bs ;; ret (Node KBindBack (c :: cs)).

(** src/pigro/bind_tuple.h:20-34, 52-54: [t >> f]. *)
Definition shift_right (t f : arg) : M obj :=
  c <- element_capture f ;; d <- element_capture t ;; ret (Node KFrontTuple [c; d]).
(** src/pigro/bind_tuple.h:36-50, 56-58: [t << f]. *)
Definition shift_left (t f : arg) : M obj :=
  c <- element_capture f ;; d <- element_capture t ;; ret (Node KBackTuple [c; d]).

(** A temporary as an argument. *)
Definition temp (o : obj) : M arg := r <- alloc o ;; ret (mkArg r RV).

(** [compressed_tuple{ xs... } >> closure] and [<< closure]. *)
Definition ct_right (xs : list arg) (closure : obj) : M obj :=
  t <- make_ct xs ;; ta <- temp t ;; fa <- temp closure ;; shift_right ta fa.
Definition ct_left (xs : list arg) (closure : obj) : M obj :=
  t <- make_ct xs ;; ta <- temp t ;; fa <- temp closure ;; shift_left ta fa.

Definition lv (r : ref) : arg := mkArg r LV.

(** src/pigro/regular_void.h:15-26 and 28-39. *)
Definition regularized_void (f : arg) : M obj :=
  scoped (p <- by_value f ;; ct_right [lv p] (Node KReg [])).
Definition unregularized_void (f : arg) : M obj :=
  scoped (p <- by_value f ;; ct_right [lv p] (Node KUnreg [])).

(** src/pigro/lazy.h:35-44. *)
Definition unwrap_value (f : arg) : M obj :=
  scoped (p <- by_value f ;; o <- ct_left [lv p] (Node KUnwrapCall []) ;;
          ret (Node KUnwrap [SVal o])).

(** src/pigro/lazy.h:46-67 [detail::lazy]. *)
Definition detail_lazy (f : arg) (deps : list arg) : M obj :=
  scoped (p <- by_value f ;; ps <- mapM by_value deps ;;
          ct_left (map lv (p :: ps)) (Node KCore [SVal (Node KOpt [])])).

(** src/pigro/lazy.h:69-76. *)
Definition lazy_value (v : arg) (changed : bool) : M obj :=
  scoped (p <- by_value v ;; q <- alloc (Node (KFlag changed) []) ;;
          ct_left [lv p; lv q] (Node KLazyVal [])).

(** How a dependency's type answers the concepts of lazy.h:78-90 (see C18). *)
Inductive dep_class := CLazy | CInvocable | COther.

(** src/pigro/lazy.h:78-90. *)
Definition ensure_lazy (c : dep_class) (d : arg) : M obj :=
  scoped (
    p <- by_value d ;;
    match c with
    | CLazy => read p
    | CInvocable =>
        g <- ct_left [lv p] (Node KSample []) ;; ga <- temp g ;;
        z <- temp (data (VAtom (uint0 U))) ;; lvz <- lazy_value z true ;; la <- temp lvz ;;
        detail_lazy ga [la]
    | COther => lazy_value (lv p) false
    end).

(** src/pigro/lazy.h:96-103 [pigro::lazy(f, deps...)]. *)
Definition pigro_lazy (f : arg) (deps : list (dep_class * arg)) : M obj :=
  scoped (
    p <- by_value f ;;
    ps <- mapM (fun x : dep_class * arg => q <- by_value (snd x) ;; ret (fst x, lv q)) deps ;;
    r <- regularized_void (lv p) ;; ra <- temp r ;;
    ds <- mapM (fun x : dep_class * arg => o <- ensure_lazy (fst x) (snd x) ;; temp o) ps ;;
    l <- detail_lazy ra ds ;; la <- temp l ;;
    u <- unwrap_value la ;; ua <- temp u ;;
    unregularized_void ua).

End Machine.

Arguments Done {X} _.
Arguments Err {X} _.
Arguments kind : clear implicits.
Arguments obj : clear implicits.
Arguments slot : clear implicits.
Arguments mevent : clear implicits.
Arguments mstate : clear implicits.
Arguments M : clear implicits.
Arguments result : clear implicits.
Arguments ures : clear implicits.
Arguments muser : clear implicits.

Declare Scope machine_scope.
Delimit Scope machine_scope with machine.
Notation "x <- m ;; k" := (bind m (fun x => k))
  (at level 61, m at next level, right associativity) : machine_scope.
Notation "m ;;; k" := (bind m (fun _ => k))
  (at level 61, right associativity) : machine_scope.
