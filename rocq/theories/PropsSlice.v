(** The property about parts of programs (C85).  Statements only: each is closed by a lemma proved
    elsewhere.  After each theorem an example shows a concrete case. *)
From Coq Require Import List Bool Arith.
From Verif Require Import Value LazyModel LazySpec LazySpec2 LazyExamples LawThms SliceSpec SliceThms.
Import ListNotations.

(** C85 (1): whatever user functions do, lazy functions that are created and copied but not
    called (nor used by others that are) make no difference: without them, the rest of the
    program has the same outputs, and leaves the same outside world. *)
Theorem C85_unused :
  forall (A W fid did : Type) (U : user A W fid did) p ks q w s outs,
  part False [] 0 p ks q -> run U p (mkState [] w) = Some (s, outs) ->
  exists s', run U q (mkState [] w) = Some (s', marked ks outs) /\ world s' = world s.
Proof. exact @unused. Qed.
Print Assumptions C85_unused.

(** Functions that count. *)
Example C85_unused_case :
  let p : list (op nat nat nat nat) :=
    [New 0 []; New 0 [DVar 0]; Call 0; New 0 [DFun 5]; Copy 0; Copy 2; New 0 [DVar 2; DVar 0]; Call 3; Call 5] in
  let ks := [true; false; true; true; true; false; true; true; true] in
  let q : list (op nat nat nat nat) := [New 0 []; Call 0; New 0 [DFun 5]; Copy 0; New 0 [DVar 1; DVar 0]; Call 2; Call 3] in
  part False [] 0 p ks q /\
  exists s outs, run count_user p (mkState [] 0) = Some (s, outs) /\
    map fst (marked ks outs) = [None; Some (Ok (Some (VAtom 0))); None; None; None; Some (Ok (Some (VAtom 0))); Some (Ok (Some (VAtom 3)))] /\
    world s = 4.
Proof.
  cbv zeta. split.
  - apply part_new; [constructor|]. apply skip_new. apply part_call; [reflexivity|].
    apply part_new; [repeat constructor|]. apply part_copy; [reflexivity|]. apply skip_copy.
    apply part_new; [repeat constructor|]. apply part_call; [reflexivity|]. apply part_call; [reflexivity|].
    apply part_end.
  - do 2 eexists. split; [vm_compute; reflexivity|]. split; reflexivity.
Qed.

(** C85 (2): if user functions do not modify the outside world (they may read it and throw), then
    calls of other lazy functions make no difference either. *)
Theorem C85_independent :
  forall (A W fid did : Type) (U : user A W fid did), readonly_user U ->
  forall p ks q w s outs,
  part True [] 0 p ks q -> run U p (mkState [] w) = Some (s, outs) ->
  exists s', run U q (mkState [] w) = Some (s', marked ks outs) /\ world s' = world s.
Proof. exact @independent. Qed.
Print Assumptions C85_independent.

(** C85 (3): what is observed of a lazy function is determined by its own creation and calls and
    those of what it was created from: two programs that have them in common agree on them. *)
Theorem C85_history :
  forall (A W fid did : Type) (U : user A W fid did), readonly_user U ->
  forall p1 ks1 p2 ks2 q w s1 outs1 s2 outs2,
  part True [] 0 p1 ks1 q -> part True [] 0 p2 ks2 q ->
  run U p1 (mkState [] w) = Some (s1, outs1) -> run U p2 (mkState [] w) = Some (s2, outs2) ->
  marked ks1 outs1 = marked ks2 outs2.
Proof. exact @same_part. Qed.
Print Assumptions C85_history.

(** A sum of a parity and an input, in programs that do other things too, some of which throw
    (two functions of different programs, in different positions). *)
Example C85_case :
  let e : op nat (nat * nat) nat bool := Env (fun _ => (1, 25)) in
  let p1 := [New 2 [DFun true]; New 0 [DVar 0; DFun false]; Copy 1; Call 1; Call 2; e; Call 1; Call 2] in
  let ks1 := [true; true; false; true; false; true; true; false] in
  let p2 := [New 0 [DFun false]; New 2 [DFun true]; Call 0; Call 0; New 0 [DVar 1; DFun false]; Call 2; e; Call 0; Call 2] in
  let ks2 := [false; true; false; false; true; true; true; false; true] in
  let q := [New 2 [DFun true]; New 0 [DVar 0; DFun false]; Call 1; e; Call 1] in
  readonly_user law_user /\ part True [] 0 p1 ks1 q /\ part True [] 0 p2 ks2 q /\
  exists s1 outs1 s2 outs2, run law_user p1 (mkState [] (1, 2)) = Some (s1, outs1) /\
    run law_user p2 (mkState [] (1, 2)) = Some (s2, outs2) /\
    map fst (marked ks1 outs1) = [None; None; Some (Ok (Some (VAtom 3))); None; Some Exc] /\
    map fst outs2 = [None; None; Some (Ok (Some (VAtom 2))); Some (Ok (Some (VAtom 2))); None; Some (Ok (Some (VAtom 3))); None; Some Exc; Some Exc].
Proof.
  cbv zeta. split; [split; reflexivity|]. split.
  - apply part_new; [repeat constructor|]. apply part_new; [repeat constructor|]. apply skip_copy.
    apply part_call; [reflexivity|]. apply skip_call; [exact I|reflexivity|]. apply part_env.
    apply part_call; [reflexivity|]. apply skip_call; [exact I|reflexivity|]. apply part_end.
  - split.
    + apply skip_new. apply part_new; [repeat constructor|]. do 2 (apply skip_call; [exact I|reflexivity|]).
      apply part_new; [repeat constructor|]. apply part_call; [reflexivity|]. apply part_env.
      apply skip_call; [exact I|reflexivity|]. apply part_call; [reflexivity|]. apply part_end.
    + do 4 eexists. split; [vm_compute; reflexivity|]. split; [vm_compute; reflexivity|]. split; reflexivity.
Qed.

(** C85 (4): calls of two lazy functions can be swapped: the same final state, and the same
    outputs. *)
Theorem C85_swap :
  forall (A W fid did : Type) (U : user A W fid did), readonly_user U ->
  forall x y p s s' outs, x <> y -> run U (Call x :: Call y :: p) s = Some (s', outs) ->
  exists o1 o2 os, outs = o1 :: o2 :: os /\ run U (Call y :: Call x :: p) s = Some (s', o2 :: o1 :: os).
Proof. exact @swap. Qed.
Print Assumptions C85_swap.

Example C85_swap_case :
  exists s outs s' outs',
    run law_user ([New 2 [DFun true]; New 0 [DVar 0; DFun false]] : list (op nat (nat * nat) nat bool)) (mkState [] (1, 2)) = Some (s, outs) /\
    run law_user [Call 0; Call 1; Call 1] s = Some (s', outs') /\
    map fst outs' = [Some (Ok (Some (VAtom 1))); Some (Ok (Some (VAtom 3))); Some (Ok (Some (VAtom 3)))] /\
    map (fun o => evaluations (snd o)) outs' = [[inr true; inl 2]; [inr true; inl 2; inr false; inl 0]; [inr true; inr false]].
Proof. do 4 eexists. split; [vm_compute; reflexivity|]. split; [vm_compute; reflexivity|]. split; reflexivity. Qed.

(** Not so, of course, if user functions modify the outside world that others read. *)
Theorem C85_swap_effects_refuted : exists (U : user nat nat nat nat) x y p s s1 outs1 s2 outs2, x <> y /\
  run U (p ++ [Call x; Call y]) s = Some (s1, outs1) /\ run U (p ++ [Call y; Call x]) s = Some (s2, outs2) /\
  nth_error outs2 (S (length p)) <> nth_error outs1 (length p) /\
  option_map fst (nth_error outs1 (length p)) = Some (Some (Ok (Some (VAtom 0)))) /\
  option_map fst (nth_error outs2 (S (length p))) = Some (Some (Ok (Some (VAtom 1)))).
Proof. exact swap_effects. Qed.
Print Assumptions C85_swap_effects_refuted.
