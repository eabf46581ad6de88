(** Lazy functions as functions on sequences of moments (C62).

    Statements only; proofs in StreamThms.v. *)
From Coq Require Import List Bool Arith.
From Verif Require Import Value TupleAlg LazyModel LazySpec LazySpec2 LazyExamples StreamSpec StreamThms.
Import ListNotations.

(** C62: the results, the change flags and the actions of all calls of a lazy function,
    in whatever worlds they are made, are those of [behaviour] (StreamSpec.v), which
    has no caches: it is defined part by part, and what a part does at a call depends on
    what its dependencies do at that call, and on what the part itself returned before.
    The functions may throw and the equality may be any. *)
Theorem C62_behaviour :
  forall (A W fid did : Type) (U : user A W fid did),
  readonly_user U ->
  forall p w s outs es x e l ws,
  no_call p -> run U p (mkState [] w) = Some (s, outs) -> shapes p [] = Some es ->
  nth_error es x = Some e -> nth_error (vars s) x = Some l ->
  call_seq U l ws = behaviour U e ws.
Proof. exact @created_behaviour. Qed.
Print Assumptions C62_behaviour.

(** A sum of a parity, an input and 10.  At the second call reading the input throws,
    after the parity has been updated, so that the third and fourth return the outdated
    14 (not 13).  At the sixth the sum throws, after the input has been updated, so that
    the seventh, in the same world, returns the outdated 14. *)
Example C62_case :
  readonly_user throw_user /\ no_call ex_new /\
  exists s outs es e l,
  run throw_user ex_new (mkState [] (5, 3)) = Some (s, outs) /\ shapes ex_new [] = Some es /\
  nth_error es 1 = Some e /\ nth_error (vars s) 1 = Some l /\
  let ws := [(5, 3); (6, 98); (6, 3); (8, 3); (8, 4); (8, 99); (8, 99); (7, 4); (9, 4)] in
  map (fun r => (fst r, evaluations (snd r))) (behaviour throw_user e ws) =
    [(Ok (VAtom 14, true), [inr true; inl 2; inr false; inl 0]);
     (Exc, [inr true; inl 2; inr false]);
     (Ok (VAtom 14, false), [inr true; inr false]);
     (Ok (VAtom 14, false), [inr true; inl 2; inr false]);
     (Ok (VAtom 14, false), [inr true; inr false; inl 0]);
     (Exc, [inr true; inr false; inl 0]);
     (Ok (VAtom 14, false), [inr true; inr false]);
     (Ok (VAtom 15, true), [inr true; inl 2; inr false; inl 0]);
     (Ok (VAtom 15, false), [inr true; inl 2; inr false])] /\
  call_seq throw_user l ws = behaviour throw_user e ws.
Proof.
  split; [split; intros; cbn; auto|]. split; [repeat constructor|].
  do 5 eexists. repeat (split; [vm_compute; reflexivity|]). vm_compute; reflexivity.
Qed.
