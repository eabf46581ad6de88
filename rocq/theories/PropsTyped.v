(** The property about types of values (C89).  Statements only: each is closed by a lemma proved
    elsewhere.  After each theorem an example shows a concrete case. *)
From Coq Require Import List Bool Arith.
From Verif Require Import Value LazyModel TypedModel TypedSpec TypedThms.
Import ListNotations.

(** C89 (1): a program runs exactly if it compiles, and then its outputs have the types that were
    computed: results of calls, arguments of functions, what is compared.  Conversions, exceptions
    and effects are allowed. *)
Theorem C89_sound :
  forall (A W fid did : Type) (aty : A -> nat) (TU : typed_user A W fid did), respects aty TU ->
  forall p w, Forall (consts_ok aty) p ->
  match compile TU p [], trun TU p (mkTState [] w) with
  | Some env, Some (s, outs) => Forall2 (output_ok aty TU env) p outs
  | None, None => True
  | _, _ => False
  end.
Proof. exact @typed_ok. Qed.
Print Assumptions C89_sound.

(** C89 (2): if every wrapped function has the same return type for its dependencies as for what it is
    called with, the outputs are those of the program without types, which makes its decisions by
    looking at values. *)
Theorem C89_without_types :
  forall (A W fid did : Type) (aty : A -> nat) (TU : typed_user A W fid did), respects aty TU ->
  forall p env w, Forall (consts_ok aty) p -> compile TU p [] = Some env -> same_types TU p [] ->
  exists s s' outs, trun TU p (mkTState [] w) = Some (s, outs) /\
    run (untyped TU) (map erase p) (mkState [] w) = Some (s', outs) /\ world s' = tworld s.
Proof. exact @erased_runs. Qed.
Print Assumptions C89_without_types.

(** C89 (3): that is so if no lazy function has a [std::tuple] or [std::pair] as its only
    dependency. *)
Theorem C89_no_single_tuple :
  forall (A W fid did : Type) (TU : typed_user A W fid did) p env, no_single_tuple TU p env -> same_types TU p env.
Proof. exact @single_tuple_types. Qed.
Print Assumptions C89_no_single_tuple.

(** The sum of the element of a tuple and what an optional has, and a function that returns nothing. *)
Example C89_case :
  respects tx_aty tx_user /\ Forall (consts_ok tx_aty) tx_program /\ no_single_tuple tx_user tx_program [] /\
  compile tx_user tx_program [] = Some [TAtom 0; TVoid] /\
  exists s outs, trun tx_user tx_program (mkTState [] 3) = Some (s, outs) /\
    map fst outs = [None; None; Some (Ok None); Some (Ok (Some (VAtom (0, 6)))); None; Some (Ok None); Some (Ok (Some (VAtom (0, 0))))] /\
    (exists out, nth_error outs 5 = Some out /\
       snd out = [EvSample true; EvCmp (VTuple [VAtom (0, 3)]) (VTuple [VAtom (0, 0)]);
                  EvSample false; EvCmp (VOpt (Some (VAtom (0, 3)))) (VOpt None);
                  EvCall 1 [VTuple [VAtom (0, 0)]; VOpt None]; EvCmp (VAtom (0, 6)) (VAtom (0, 0));
                  EvCall 2 [VAtom (0, 0)]; EvCmp VVoid VVoid]).
Proof.
  split; [exact tx_respects|]. split; [repeat constructor|]. split; [|split; [reflexivity|]].
  - cbn. split; [exact I|]. intros env E. injection E as <-. split; [intros t E; injection E as <-; reflexivity|].
    intros env E. injection E as <-. do 5 (split; [exact I|]; intros env E; injection E as <-). exact I.
  - do 2 eexists. split; [vm_compute; reflexivity|]. split; [reflexivity|]. eexists. split; reflexivity.
Qed.
(** A program that does not compile: there is no sum of an optional alone. *)
Example C89_case_error : compile tx_user [TNew 1 [TDFun false]] [] = None /\ trun tx_user [TNew 1 [TDFun false]] (mkTState [] 3) = None.
Proof. split; reflexivity. Qed.

(** Not so otherwise: the type of the cache is that for the tuple, but the function is called with its
    elements, and what it returns is converted.  The call returns 3 where the function returned 3.5. *)
Theorem C89_converted_refuted : exists (TU : typed_user (nat * nat) nat nat bool) aty p w s outs s' outs',
  respects aty TU /\ Forall (consts_ok aty) p /\ compile TU p [] = Some [TAtom 0] /\
  trun TU p (mkTState [] w) = Some (s, outs) /\ run (untyped TU) (map erase p) (mkState [] w) = Some (s', outs') /\
  outs = [(None, []); (Some (Ok (Some (VAtom (0, 3)))), [EvSample true; EvCall 0 [VAtom (0, 3)]])] /\
  outs' = [(None, []); (Some (Ok (Some (VAtom (1, 7)))), [EvSample true; EvCall 0 [VAtom (0, 3)]])].
Proof. exact tx_converted. Qed.
Print Assumptions C89_converted_refuted.
