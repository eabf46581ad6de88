(** The properties of the results of [to_tuple] and of default-constructed tuples (C57).
    Statements only. *)
From Coq Require Import List Bool Arith.
From Verif Require Import Value Machine MachineLib TupleOps ViewOps ViewOpsProofs MachineExamples ViewExamples.
Import ListNotations.

(** C57: any history as in C35, with default-constructed tuples and with reading and
    assigning the elements of [to_tuple(t)], shows what it shows on plain values, where
    an element of [to_tuple(t)] is that element of [t] itself. *)
Theorem C57_view_histories :
  forall (A W F S : Type) (ve : val A -> bool) (C : config) ops (st : mstate A W F S),
  vops_ok ve no_vars ops ->
  exists sto', vmach_run ve C [] [] [] ops st =
    (Done (snd (venv_run ve no_vars ops)), mkSt sto' (mworld st) (trace st)).
Proof. exact @view_histories. Qed.
Print Assumptions C57_view_histories.

Example C57_case :
  vops_ok full no_vars ex_views /\
  fst (vmach_run full std [] [] [] ex_views (start []))
  = Done [None; None; None; None; None; None; n_ 5; n_ 6; n_ 6; None; n_ 7;
          None; None; None; None; n_ 0; None; n_ 3; n_ 9; None; None; n_ 8; n_ 8].
Proof. exact ex_C57. Qed.

(** C57: except the elements of empty class, and those of a temporary that are not
    references: the references to them dangle, and to assign through them, or to read
    unless the class is empty, is undefined. *)
Theorem C57_dangling :
  forall (A W F S : Type) (ve : val A -> bool) (C : config) ops (st : mstate A W F S) w i u v,
  strict C = true ->
  vops_ok ve no_vars ops ->
  view_of (fst (venv_run ve no_vars ops)) w i = Some (Gone u) ->
  fst (vmach_run ve C [] [] [] (ops ++ [SetView w i v]) st) = Err Undefined /\
  (data_empty ve u = false -> fst (vmach_run ve C [] [] [] (ops ++ [GetView w i]) st) = Err Undefined).
Proof. exact @view_gone. Qed.
Print Assumptions C57_dangling.

Example C57_dangling_case :
  view_of (fst (venv_run full no_vars ex_views)) 0 2 = Some (Gone VVoid) /\
  fst (vmach_run full std [] [] [] (ex_views ++ [SetView 0 2 VVoid]) (start [])) = Err Undefined /\
  view_of (fst (venv_run full no_vars ex_views)) 2 0 = Some (Gone (VAtom 7)) /\
  fst (vmach_run full std [] [] [] (ex_views ++ [GetView 2 0]) (start [])) = Err Undefined.
Proof. exact ex_C57_gone. Qed.
