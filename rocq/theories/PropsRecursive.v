(** The property about recursive functions at run time (C64).  Statements only.

    [F x] is what the callable does for argument [x]; [s] are its captured variables. *)
From Coq Require Import List Bool Arith.
From Verif Require Import Recursive RecursiveSpec RecursiveThms RecursiveExamples.
Import ListNotations.

(** C64 (1): if the callable only reads its captured variables and recurs on smaller
    arguments, [recursive{ F }(x)] is what the function that satisfies [F]'s
    equation is at [x], however [self] is passed. *)
Theorem C64_equation :
  forall (X R S : Type) (F : X -> body X R S) p (lt : X -> X -> Prop) (g : X -> option R) (s : S),
  well_founded lt -> (forall x, smaller lt x (F x)) -> (forall x, readonly (F x)) ->
  (forall x, g x = denotes g (F x) s) ->
  forall x, exists n, forall m, n <= m -> call F p m s x = Some (g x, s).
Proof. exact @ties_the_knot. Qed.
Print Assumptions C64_equation.

Example C64_case_equation :
  well_founded lt /\ (forall n, smaller lt n (fib_body n)) /\ (forall n, readonly (fib_body n)) /\
  (forall n, Some (fib 1 n) = denotes (fun x => Some (fib 1 x)) (fib_body n) 1) /\
  map (fun n => call fib_body ByValue 9 1 n) [0; 1; 2; 3; 4]
  = map (fun r => Some (Some r, 1)) [1; 1; 2; 3; 5].
Proof. exact ex_fib. Qed.

(** C64 (2): with [self] by reference the captured variables are one global variable of
    a recursive procedure. *)
Theorem C64_by_reference :
  forall (X R S : Type) (F : X -> body X R S) (s : S) x o s',
  (exists n, call F ByRef n s x = Some (o, s')) <-> runs F (F x) s o s'.
Proof. exact @by_reference. Qed.
Print Assumptions C64_by_reference.

Example C64_case_by_reference :
  runs count_body (count_body 3) 0 (Some 12) 4 /\ call count_body ByRef 9 0 3 = Some (Some 12, 4) /\
  call count_body ByRef 9 0 8 = Some (Some 100, 2).
Proof. exact ex_count_ref. Qed.

(** C64 (3): with [self] by value every invocation works on a copy of the object, and
    nested calls influence the object only through their outcomes. *)
Theorem C64_by_value :
  forall (X R S : Type) (F : X -> body X R S) (s : S) x o s',
  ((exists n, call F ByValue n s x = Some (o, s')) <-> runs_local F (F x) s s o s') /\
  forall n, call F ByValue n s x = Some (o, s') ->
    exists answers, own (F x) answers s = Some (o, s').
Proof. exact @by_value_all. Qed.
Print Assumptions C64_by_value.

Example C64_case_by_value :
  runs_local count_body (count_body 3) 0 0 (Some 3) 1 /\ call count_body ByValue 9 0 3 = Some (Some 3, 1) /\
  own (count_body 3) [Some 2] 0 = Some (Some 3, 1) /\
  call count_body ByValue 9 0 8 = Some (Some 100, 1).
Proof. exact ex_count_val. Qed.

(** C64 (4): recursion on smaller arguments ends, whatever happens to the variables; and
    no call has two outcomes. *)
Theorem C64_ends :
  forall (X R S : Type) (F : X -> body X R S) p (lt : X -> X -> Prop),
  (well_founded lt -> (forall x, smaller lt x (F x)) ->
     forall x s, exists n r, call F p n s x = Some r) /\
  (forall n m s x r r', call F p n s x = Some r -> call F p m s x = Some r' -> r = r').
Proof. exact @ends. Qed.
Print Assumptions C64_ends.

(** C64 (5): calling an rvalue is the same if [self] is a reference; by value the body
    runs on what is left of the object after it was moved to [self]. *)
Theorem C64_rvalue :
  forall (X R S : Type) (F : X -> body X R S) (moved : S -> S),
  (forall n s x, call_rvalue F ByRef moved n s x = call F ByRef n s x) /\
  (forall n s x, moved s = s -> call_rvalue F ByValue moved n s x = call F ByValue n s x) /\
  (forall s x o s',
     (exists n, call_rvalue F ByValue moved n s x = Some (o, s')) <->
     runs_local F (F x) (moved s) s o s').
Proof. exact @rvalue_all. Qed.
Print Assumptions C64_rvalue.

(** C64 (6): so that a temporary and a variable may behave differently. *)
Theorem C64_rvalue_as_lvalue_refuted :
  exists (F : nat -> body nat nat nat) (moved : nat -> nat) (s x : nat),
  (forall y, readonly (F y)) /\
  forall n, call F ByValue (S n) s x = Some (Some 3, s) /\
            call_rvalue F ByValue moved (S n) s x = Some (Some 0, moved s).
Proof. exact ex_rvalue. Qed.
Print Assumptions C64_rvalue_as_lvalue_refuted.
