(** The property about dependencies in another order, left out or repeated (C84).  Statements only:
    each is closed by a lemma proved elsewhere.  After each theorem an example shows a concrete
    case. *)
From Coq Require Import List Bool Arith Permutation.
From Verif Require Import Value LazyModel LazySpec LazySpec2 LazyExamples ArrangeSpec ArrangeThms.
Import ListNotations.

(** C84 (1): if in an expression some functions get their arguments in another order, then every
    call returns the same value and the same flag, and evaluates the same functions (with their
    arguments in the other order), each as many times as before. *)
Theorem C84_reordered :
  forall (A W fid did : Type) (U : user A W fid did) pf rd, pure_user U pf rd -> exact_eq U ->
  forall e e2 l l2 ws, created U e l -> created U e2 l2 -> arranged pf reordered e e2 ->
  regular pf rd e -> never_null pf rd e -> regular pf rd e2 -> never_null pf rd e2 ->
  Forall2 (fun r r2 => fst r = fst r2 /\
             exists log, Permutation (evaluations (snd r)) log /\
                         Forall2 (counterpart pf) log (evaluations (snd r2)))
    (call_seq U l ws) (call_seq U l2 ws).
Proof. exact @reordered_calls. Qed.
Print Assumptions C84_reordered.

(** [a - b] with the arguments swapped, [a] being twice an input. *)
Example C84_reordered_case :
  let e := EApp 0 [EApp 4 [EFun 0]; EFun 1] in
  let e2 := EApp 1 [EFun 1; EApp 4 [EFun 0]] in
  pure_user arr_user arr_pf arr_rd /\ exact_eq arr_user /\ arranged arr_pf reordered e e2 /\
  regular arr_pf arr_rd e /\ never_null arr_pf arr_rd e /\ regular arr_pf arr_rd e2 /\ never_null arr_pf arr_rd e2 /\
  exists l l2, created arr_user e l /\ created arr_user e2 l2 /\
    let ws := [[3; 1]; [3; 1]; [4; 3]; [4; 8]] in
    map (fun r => (fst r, evaluations (snd r))) (call_seq arr_user l ws) =
      [(Ok (VAtom 5, true), [inr 0; inl 4; inr 1; inl 0]); (Ok (VAtom 5, false), [inr 0; inr 1]);
       (Ok (VAtom 5, false), [inr 0; inl 4; inr 1; inl 0]); (Ok (VAtom 0, true), [inr 0; inr 1; inl 0])] /\
    map (fun r => (fst r, evaluations (snd r))) (call_seq arr_user l2 ws) =
      [(Ok (VAtom 5, true), [inr 1; inr 0; inl 4; inl 1]); (Ok (VAtom 5, false), [inr 1; inr 0]);
       (Ok (VAtom 5, false), [inr 1; inr 0; inl 4; inl 1]); (Ok (VAtom 0, true), [inr 1; inr 0; inl 1])].
Proof.
  cbv zeta. split; [exact arr_pure|]. split; [exact arr_exact|]. split.
  { apply arranged_app with [1; 0] [EFun 1; EApp 4 [EFun 0]]; [exact arr_swap|apply perm_swap|repeat constructor|].
    repeat constructor. }
  do 4 (split; [cbn; repeat split; reflexivity|]).
  do 2 eexists. split.
  { exists [New 4 [DFun 0]; New 0 [DVar 0; DFun 1]], []. do 3 eexists. exists 1. split; [repeat constructor|].
    do 2 (split; [reflexivity|]). split; reflexivity. }
  split.
  { exists [New 4 [DFun 0]; New 1 [DFun 1; DVar 0]], []. do 3 eexists. exists 1. split; [repeat constructor|].
    do 2 (split; [reflexivity|]). split; reflexivity. }
  cbv zeta. split; vm_compute; reflexivity.
Qed.

(** Not so if functions throw: then the dependencies to the right are not called, and a change of
    those to the left is forgotten (C15). *)
Theorem C84_reordered_throws_refuted : exists (U : user nat (nat * bool) nat bool) f d1 d2 w h s1 o1 s2 o2,
  readonly_user U /\ exact_eq U /\ (forall x y w, sem U f [y; x] w = sem U f [x; y] w) /\
  run U [New f [DFun d1; DFun d2]; Call 0; Env h; Call 0; Env (fun w => (fst w, false)); Call 0] (mkState [] w) = Some (s1, o1) /\
  run U [New f [DFun d2; DFun d1]; Call 0; Env h; Call 0; Env (fun w => (fst w, false)); Call 0] (mkState [] w) = Some (s2, o2) /\
  map fst o1 <> map fst o2.
Proof. exact reordered_throws. Qed.
Print Assumptions C84_reordered_throws_refuted.

(** C84 (2): a dependency that a function does not look at can be left out: every call returns
    the same value and the same flag, and evaluates nothing more often than before. *)
Theorem C84_left_out :
  forall (A W fid did : Type) (U : user A W fid did) pf rd, pure_user U pf rd -> exact_eq U ->
  forall e e2 l l2 ws, created U e l -> created U e2 l2 -> arranged pf left_out e e2 ->
  regular pf rd e -> never_null pf rd e -> regular pf rd e2 -> never_null pf rd e2 ->
  Forall2 (fun r r2 => fst r = fst r2 /\
             exists log more, Permutation (evaluations (snd r)) (log ++ more) /\
                              Forall2 (counterpart pf) log (evaluations (snd r2)))
    (call_seq U l ws) (call_seq U l2 ws).
Proof. exact @left_out_calls. Qed.
Print Assumptions C84_left_out.

(** A sum that leaves out its second argument. *)
Example C84_left_out_case :
  let e := EApp 2 [EFun 0; EApp 4 [EFun 1]; EFun 2] in
  let e2 := EApp 3 [EFun 0; EFun 2] in
  arranged arr_pf left_out e e2 /\
  regular arr_pf arr_rd e /\ never_null arr_pf arr_rd e /\ regular arr_pf arr_rd e2 /\ never_null arr_pf arr_rd e2 /\
  exists l l2, created arr_user e l /\ created arr_user e2 l2 /\
    let ws := [[3; 1; 2]; [3; 7; 2]; [1; 7; 2]] in
    map (fun r => (fst r, evaluations (snd r))) (call_seq arr_user l ws) =
      [(Ok (VAtom 5, true), [inr 0; inr 1; inl 4; inr 2; inl 2]);
       (Ok (VAtom 5, false), [inr 0; inr 1; inl 4; inr 2; inl 2]); (Ok (VAtom 3, true), [inr 0; inr 1; inr 2; inl 2])] /\
    map (fun r => (fst r, evaluations (snd r))) (call_seq arr_user l2 ws) =
      [(Ok (VAtom 5, true), [inr 0; inr 2; inl 3]); (Ok (VAtom 5, false), [inr 0; inr 2]);
       (Ok (VAtom 3, true), [inr 0; inr 2; inl 3])].
Proof.
  cbv zeta. split.
  { apply arranged_app with [0; 2] [EFun 0; EFun 2]; [exact arr_drop| |repeat constructor|repeat constructor].
    constructor; [intros [H|[]]; discriminate|]. constructor; [intros []|constructor]. }
  do 4 (split; [cbn; repeat split; reflexivity|]).
  do 2 eexists. split.
  { exists [New 4 [DFun 1]; New 2 [DFun 0; DVar 0; DFun 2]], []. do 3 eexists. exists 1. split; [repeat constructor|].
    do 2 (split; [reflexivity|]). split; reflexivity. }
  split.
  { exists [New 3 [DFun 0; DFun 2]], []. do 3 eexists. exists 0. split; [repeat constructor|].
    do 2 (split; [reflexivity|]). split; reflexivity. }
  cbv zeta. split; vm_compute; reflexivity.
Qed.

(** C84 (3): dependencies can also be given twice: every call returns the same value and the same
    flag, and evaluates nothing that is not evaluated otherwise. *)
Theorem C84_repeated :
  forall (A W fid did : Type) (U : user A W fid did) pf rd, pure_user U pf rd -> exact_eq U ->
  forall e e2 l l2 ws, created U e l -> created U e2 l2 -> arranged pf anyhow e e2 ->
  regular pf rd e -> never_null pf rd e -> regular pf rd e2 -> never_null pf rd e2 ->
  Forall2 (fun r r2 => fst r = fst r2 /\
             forall y, In y (evaluations (snd r2)) ->
             exists z, In z (evaluations (snd r)) /\ counterpart pf z y)
    (call_seq U l ws) (call_seq U l2 ws).
Proof. exact @anyhow_calls. Qed.
Print Assumptions C84_repeated.

(** Twice a number, and the sum of the number and itself. *)
Example C84_repeated_case :
  let e := EApp 4 [EApp 4 [EFun 0]] in
  let e2 := EApp 3 [EApp 3 [EFun 0; EFun 0]; EApp 4 [EFun 0]] in
  arranged arr_pf anyhow e e2 /\
  regular arr_pf arr_rd e /\ never_null arr_pf arr_rd e /\ regular arr_pf arr_rd e2 /\ never_null arr_pf arr_rd e2 /\
  exists l l2, created arr_user e l /\ created arr_user e2 l2 /\
    let ws := [[3]; [3]] in
    map (fun r => (fst r, evaluations (snd r))) (call_seq arr_user l ws) =
      [(Ok (VAtom 12, true), [inr 0; inl 4; inl 4]); (Ok (VAtom 12, false), [inr 0])] /\
    map (fun r => (fst r, evaluations (snd r))) (call_seq arr_user l2 ws) =
      [(Ok (VAtom 12, true), [inr 0; inr 0; inl 3; inr 0; inl 4; inl 3]); (Ok (VAtom 12, false), [inr 0; inr 0; inr 0])].
Proof.
  cbv zeta. split.
  { apply arranged_app with [0; 0] [EApp 4 [EFun 0]; EApp 4 [EFun 0]]; [exact arr_twice|exact I|repeat constructor|].
    constructor; [|constructor; [|constructor]].
    - apply arranged_app with [0; 0] [EFun 0; EFun 0]; [exact arr_twice|exact I|repeat constructor|repeat constructor].
    - apply arranged_same. repeat constructor. }
  do 4 (split; [cbn; repeat split; reflexivity|]).
  do 2 eexists. split.
  { exists [New 4 [DFun 0]; New 4 [DVar 0]], []. do 3 eexists. exists 1. split; [repeat constructor|].
    do 2 (split; [reflexivity|]). split; reflexivity. }
  split.
  { exists [New 3 [DFun 0; DFun 0]; New 4 [DFun 0]; New 3 [DVar 0; DVar 1]], []. do 3 eexists. exists 2. split; [repeat constructor|].
    do 2 (split; [reflexivity|]). split; reflexivity. }
  cbv zeta. split; vm_compute; reflexivity.
Qed.
