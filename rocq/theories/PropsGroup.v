(** The property about groups of lazy functions that share nothing (C86).  Statements only: each is
    closed by a lemma proved elsewhere.  After each theorem an example shows a concrete case. *)
From Coq Require Import List Bool Arith.
From Verif Require Import Value LazyModel LazySpec LazySpec2 LazyExamples LawThms SharedModel SliceSpec SliceThms GroupSpec GroupThms.
Import ListNotations.

(** C86 (1): as C85 (1), for programs with [std::ref]: whatever user functions do, lazy functions
    that are not called make no difference, even if they refer to others that are. *)
Theorem C86_unused :
  forall (A W fid did : Type) (U : user A W fid did) p ks q w s outs,
  group False [] 0 p ks q -> srun U p (mkSState [] w) = Some (s, outs) ->
  exists s', srun U q (mkSState [] w) = Some (s', marked ks outs) /\ sworld s' = sworld s.
Proof. exact @group_unused. Qed.
Print Assumptions C86_unused.

(** Functions that count. *)
Example C86_unused_case :
  let p : list (sop nat nat nat nat) :=
    [SNew 0 []; SNew 0 [SDRef 0]; SCopy 1; SNew 0 [SDRef 1; SDRef 0]; SCall 0; SNew 0 [SDRef 0; SDep (DVar 1)]; SCall 0; SCall 4] in
  let ks := [true; true; false; false; true; true; true; true] in
  let q : list (sop nat nat nat nat) := [SNew 0 []; SNew 0 [SDRef 0]; SCall 0; SNew 0 [SDRef 0; SDep (DVar 1)]; SCall 0; SCall 2] in
  group False [] 0 p ks q /\
  exists s outs, srun count_user p (mkSState [] 0) = Some (s, outs) /\ length (marked ks outs) = 6 /\
    map fst (marked ks outs) = [None; None; Some (Ok (Some (VAtom 0))); None; Some (Ok (Some (VAtom 0))); Some (Ok (Some (VAtom 2)))].
Proof.
  cbv zeta. split.
  - apply group_new; [constructor|]. apply group_new; [repeat econstructor|]. apply omit_copy; [tauto|]. apply omit_new; [tauto|].
    apply group_call; [repeat econstructor|]. apply group_new; [repeat econstructor|].
    do 2 (apply group_call; [repeat econstructor|]). apply group_end.
  - do 2 eexists. split; [vm_compute; reflexivity|]. split; reflexivity.
Qed.

(** C86 (2): if user functions do not modify the outside world, then calls make no difference
    either to lazy functions that they share nothing with: what is called has no reference to
    anything in the group, nor has anything it refers to.  (It may have been created from
    something in the group that has no references, by value.) *)
Theorem C86_independent :
  forall (A W fid did : Type) (U : user A W fid did), readonly_user U ->
  forall p ks q w s outs,
  group True [] 0 p ks q -> srun U p (mkSState [] w) = Some (s, outs) ->
  exists s', srun U q (mkSState [] w) = Some (s', marked ks outs) /\ sworld s' = sworld s.
Proof. exact @group_independent. Qed.
Print Assumptions C86_independent.

(** C86 (3): two programs that have a group in common agree on it. *)
Theorem C86_history :
  forall (A W fid did : Type) (U : user A W fid did), readonly_user U ->
  forall p1 ks1 p2 ks2 q w s1 outs1 s2 outs2,
  group True [] 0 p1 ks1 q -> group True [] 0 p2 ks2 q ->
  srun U p1 (mkSState [] w) = Some (s1, outs1) -> srun U p2 (mkSState [] w) = Some (s2, outs2) ->
  marked ks1 outs1 = marked ks2 outs2.
Proof. exact @group_same. Qed.
Print Assumptions C86_history.

(** The same sum of two inputs, of which one is shared with its copy, in a program with another
    group, and by itself. *)
Example C86_case :
  let ks := [true; false; true; false; true; false; true; true; false; false; true; true] in
  let q : list (sop nat (nat * nat) nat bool) :=
    [SNew 0 [SDep (DFun true)]; SNew 0 [SDRef 0; SDep (DFun false)]; SCall 1; SCopy 1; SEnv (fun w => (fst w, S (snd w))); SCall 2; SCall 1] in
  readonly_user law_user /\ group True [] 0 groups ks q /\
  exists s outs, srun law_user groups (mkSState [] (1, 2)) = Some (s, outs) /\
    map fst (marked ks outs) = [None; None; Some (Ok (Some (VAtom 3))); None; None; Some (Ok (Some (VAtom 4))); Some (Ok (Some (VAtom 4)))] /\
    map fst outs = [None; None; None; None; Some (Ok (Some (VAtom 3))); Some (Ok (Some (VAtom 1))); None; None;
                    Some (Ok (Some (VAtom 2))); Some (Ok (Some (VAtom 1))); Some (Ok (Some (VAtom 4))); Some (Ok (Some (VAtom 4)))].
Proof.
  cbv zeta. split; [split; reflexivity|]. split.
  - apply group_new; [repeat econstructor|]. apply omit_new; [repeat constructor|]. apply group_new; [repeat econstructor|].
    apply omit_new; [intros _; constructor; [now exists true|]; constructor; [now right|constructor]|].
    apply group_call; [repeat econstructor|]. apply omit_call; [exact I|now exists false|]. apply group_copy; [repeat econstructor|].
    apply group_env. apply omit_call; [exact I|now exists false|]. apply omit_call; [exact I|now exists true|].
    do 2 (apply group_call; [repeat econstructor|]). apply group_end.
  - do 2 eexists. split; [vm_compute; reflexivity|]. split; reflexivity.
Qed.

(** C86 (4): after a program, calls of two lazy functions of which nothing refers, directly or
    indirectly, to the same object, can be swapped: the same final state, and the same outputs. *)
Theorem C86_swap :
  forall (A W fid did : Type) (U : user A W fid did), readonly_user U ->
  forall p w s outs x y rest s' outs', srun U p (mkSState [] w) = Some (s, outs) ->
  (forall z, touches (refers p []) x z -> touches (refers p []) y z -> False) ->
  srun U (SCall x :: SCall y :: rest) s = Some (s', outs') ->
  exists o1 o2 os, outs' = o1 :: o2 :: os /\ srun U (SCall y :: SCall x :: rest) s = Some (s', o2 :: o1 :: os).
Proof. exact @group_swap. Qed.
Print Assumptions C86_swap.

Example C86_swap_case :
  let p := firstn 4 groups in
  (forall z, touches (refers p []) 2 z -> touches (refers p []) 3 z -> False) /\
  refers p [] = [[]; []; [0]; [1]] /\
  exists s outs s' outs', srun law_user p (mkSState [] (1, 2)) = Some (s, outs) /\
    srun law_user [SCall 2; SCall 3; SCall 1] s = Some (s', outs') /\
    map fst outs' = [Some (Ok (Some (VAtom 3))); Some (Ok (Some (VAtom 1))); Some (Ok (Some (VAtom 0)))].
Proof.
  cbv zeta. split.
  - assert (H0 : forall z, touches (refers (firstn 4 groups) []) 0 z -> z = 0).
    { intros z H. inversion H as [|? y ? Hy]; subst; [reflexivity|destruct Hy]. }
    assert (H1 : forall z, touches (refers (firstn 4 groups) []) 1 z -> z = 1).
    { intros z H. inversion H as [|? y ? Hy]; subst; [reflexivity|destruct Hy]. }
    intros z H2 H3. inversion H2 as [|? y ? Hy Hz]; inversion H3 as [|? y' ? Hy' Hz']; subst; try discriminate.
    + destruct Hy' as [<-|[]]. apply H1 in Hz'. discriminate.
    + destruct Hy as [<-|[]]. apply H0 in Hz. discriminate.
    + destruct Hy as [<-|[]]. destruct Hy' as [<-|[]]. apply H0 in Hz. apply H1 in Hz'. congruence.
  - split; [reflexivity|]. do 4 eexists. split; [vm_compute; reflexivity|]. split; [vm_compute; reflexivity|]. reflexivity.
Qed.

(** Not so for two that share something, even if neither refers to the other, and all user
    functions are pure: it matters which is called first... *)
Theorem C86_swap_sharing_refuted : exists (U : user nat (nat * nat) nat bool) pf rd x y p s s1 outs1 s2 outs2,
  pure_user U pf rd /\ x <> y /\ ~ touches (refers p []) x y /\ ~ touches (refers p []) y x /\
  srun U (p ++ [SCall x; SCall y]) s = Some (s1, outs1) /\ srun U (p ++ [SCall y; SCall x]) s = Some (s2, outs2) /\
  option_map fst (nth_error outs1 (length p)) = Some (Some (Ok (Some (VAtom 1)))) /\
  option_map fst (nth_error outs2 (S (length p))) = Some (Some (Ok (Some (VAtom 0)))).
Proof. exact swap_sharing. Qed.
Print Assumptions C86_swap_sharing_refuted.

(** ... and whether the one is called matters for the other. *)
Theorem C86_independent_sharing_refuted : exists (U : user nat (nat * nat) nat bool) pf rd x y p s s1 outs1 s2 outs2,
  pure_user U pf rd /\ x <> y /\ ~ touches (refers p []) x y /\ ~ touches (refers p []) y x /\
  srun U (p ++ [SCall x; SCall y]) s = Some (s1, outs1) /\ srun U (p ++ [SCall y]) s = Some (s2, outs2) /\
  option_map fst (nth_error outs1 (S (length p))) = Some (Some (Ok (Some (VAtom 0)))) /\
  option_map fst (nth_error outs2 (length p)) = Some (Some (Ok (Some (VAtom 1)))).
Proof. exact omit_sharing. Qed.
Print Assumptions C86_independent_sharing_refuted.
