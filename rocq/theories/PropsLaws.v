(** The property about refactoring laws (C82).  Statements only: each is closed by a lemma proved
    elsewhere.  After each theorem an example shows a concrete case. *)
From Coq Require Import List Bool Arith.
From Verif Require Import Value LazyModel LazySpec LazySpec2 LazyExamples LawSpec LawThms.
Import ListNotations.

(** C82 (1): passing a constant to [lazy] is the same as binding it to the function: a program
    in which some [lazy(f, xs..., v, ys...)] are replaced by [lazy(g, xs..., ys...)], where
    [g(xs..., ys...)] does what [f(xs..., v, ys...)] does, has the same results and the same
    actions, in the same order.  The functions may throw and have effects, and the equality may
    be any. *)
Theorem C82_bind_constant :
  forall (A W fid did : Type) (U : user A W fid did) p1 p2,
  Forall2 (bind_op U) p1 p2 -> forall w s1 outs1,
  run U p1 (mkState [] w) = Some (s1, outs1) ->
  exists s2 outs2, run U p2 (mkState [] w) = Some (s2, outs2) /\ world s2 = world s1 /\
    map fst outs2 = map fst outs1 /\ Forall2 (fun o1 o2 => Forall2 (bind_event U) (snd o1) (snd o2)) outs1 outs2.
Proof. exact @bind_run. Qed.
Print Assumptions C82_bind_constant.

(** A sum of a parity, 10 and an input; the sum throws at the second call. *)
Example C82_bind_case :
  let calls : list (op nat (nat * nat) nat bool) :=
    [Call 1; Env (fun _ => (2, 15)); Call 1; Env (fun _ => (3, 1)); Call 1; Call 1] in
  let p1 := [New 2 [DFun true]; New 0 [DVar 0; DConst (VAtom 10); DFun false]] ++ calls in
  let p2 := [New 2 [DFun true]; New 1 [DVar 0; DFun false]] ++ calls in
  Forall2 (bind_op law_user) p1 p2 /\
  exists s1 outs1, run law_user p1 (mkState [] (1, 2)) = Some (s1, outs1) /\
    map fst outs1 = [None; None; Some (Ok (Some (VAtom 13))); None; Some Exc; None;
                     Some (Ok (Some (VAtom 12))); Some (Ok (Some (VAtom 12)))] /\
    map (fun o => evaluations (snd o)) outs1 =
      [[]; []; [inr true; inl 2; inr false; inl 0]; []; [inr true; inl 2; inr false; inl 0]; [];
       [inr true; inl 2; inr false; inl 0]; [inr true; inr false]].
Proof.
  cbv zeta. split.
  - constructor; [constructor|]. constructor.
    + apply (bind_const law_user 0 1 1 (VAtom 10) 1 [DVar 0] [DFun false]);
        [now apply law_binds|reflexivity|reflexivity].
    + repeat constructor.
  - do 2 eexists. split; [vm_compute; reflexivity|]. split; reflexivity.
Qed.

(** Not so if a single dependency remains and its value is a tuple: it is spread (C19). *)
Theorem C82_bind_tuple_refuted : exists (U : user nat nat nat nat) f v g w s1 o1 s2 o2,
  (forall a b w, length a = 1 -> length b = 0 -> sem U g (a ++ b) w = sem U f (a ++ v :: b) w) /\
  run U [New 2 []; New f [DVar 0; DConst v]; Call 1] (mkState [] w) = Some (s1, o1) /\
  run U [New 2 []; New g [DVar 0]; Call 1] (mkState [] w) = Some (s2, o2) /\
  map fst o1 <> map fst o2.
Proof. exact bind_tuple_differs. Qed.
Print Assumptions C82_bind_tuple_refuted.

(** C82 (2): a lazy identity of a lazy function is a copy of it: a program in which some
    [lazy(identity, x)] are replaced by copies of [x] has the same results, and the same actions
    but for the calls of identities and the comparisons of their results (which nothing depends
    on), if values that compare equal are equal.  The functions may throw and have effects. *)
Theorem C82_identity :
  forall (A W fid did : Type) (U : user A W fid did) (ident : fid -> Prop),
  sound_eq U -> simple_user U -> identities U ident ->
  forall p1 p2, Forall2 (ident_op ident) p1 p2 -> forall w s1 outs1,
  run U p1 (mkState [] w) = Some (s1, outs1) ->
  exists s2 outs2, run U p2 (mkState [] w) = Some (s2, outs2) /\ world s2 = world s1 /\
    map fst outs2 = map fst outs1 /\ Forall2 (fun o1 o2 => ident_log ident (snd o1) (snd o2)) outs1 outs2.
Proof. exact @ident_run. Qed.
Print Assumptions C82_identity.

(** An identity of a parity that was called before, and a sum over it. *)
Example C82_identity_case :
  let calls : list (op nat (nat * nat) nat bool) :=
    [New 0 [DVar 1; DFun false]; Call 2; Env (fun _ => (3, 25)); Call 2; Env (fun _ => (4, 5)); Call 2; Call 1] in
  let p1 := [New 2 [DFun true]; Call 0; New 3 [DVar 0]] ++ calls in
  let p2 := [New 2 [DFun true]; Call 0; Copy 0] ++ calls in
  sound_eq law_user /\ simple_user law_user /\ identities law_user (eq 3) /\
  Forall2 (ident_op (eq 3)) p1 p2 /\
  exists s1 outs1 s2 outs2, run law_user p1 (mkState [] (1, 2)) = Some (s1, outs1) /\
    run law_user p2 (mkState [] (1, 2)) = Some (s2, outs2) /\
    map fst outs1 = [None; Some (Ok (Some (VAtom 1))); None; None; Some (Ok (Some (VAtom 3))); None; Some Exc; None;
                     Some (Ok (Some (VAtom 5))); Some (Ok (Some (VAtom 0)))] /\
    map (fun o => evaluations (snd o)) outs1 =
      [[]; [inr true; inl 2]; []; []; [inr true; inl 3; inr false; inl 0]; []; [inr true; inl 2; inr false; inl 0]; [];
       [inr true; inl 2; inl 3; inr false; inl 0]; [inr true; inl 2; inl 3]] /\
    map (fun o => evaluations (snd o)) outs2 =
      [[]; [inr true; inl 2]; []; []; [inr true; inr false; inl 0]; []; [inr true; inl 2; inr false; inl 0]; [];
       [inr true; inl 2; inr false; inl 0]; [inr true; inl 2]].
Proof.
  cbv zeta. split; [exact ex_sound|]. split; [exact law_simple|]. split; [exact law_ident|]. split.
  - do 2 (constructor; [constructor|]). constructor; [now apply ident_copy|]. repeat constructor.
  - do 4 eexists. split; [vm_compute; reflexivity|]. split; [vm_compute; reflexivity|]. repeat split.
Qed.

(** Not so if different values compare equal: the identity keeps the older one. *)
Theorem C82_identity_stale_refuted : exists (U : user nat nat nat nat) ident i w s1 o1 s2 o2,
  simple_user U /\ identities U ident /\ ident i /\
  run U [New 0 [DFun 0]; New i [DVar 0]; Call 1; Env (fun n => n + 1); Call 1] (mkState [] w) = Some (s1, o1) /\
  run U [New 0 [DFun 0]; Copy 0; Call 1; Env (fun n => n + 1); Call 1] (mkState [] w) = Some (s2, o2) /\
  map fst o1 <> map fst o2.
Proof. exact ident_stale_differs. Qed.
Print Assumptions C82_identity_stale_refuted.

(** C82 (3): splitting a function never costs evaluations of what was there before: if in an
    expression some [h(xs..., ys..., zs...)] are replaced by [f(xs..., g(ys...), zs...)], with
    the same meaning, then every call returns the same value and the same flag, and evaluates the
    same functions in the same order, but for [f], [g] and [h]; and [h] is called exactly if [f]
    or [g] is. *)
Theorem C82_fusion :
  forall (A W fid did : Type) (U : user A W fid did) pf rd,
  pure_user U pf rd -> exact_eq U ->
  forall p p2 w w2 s s2 outs outs2 es es2 x x2 e e2 l l2 ws,
  no_call p -> run U p (mkState [] w) = Some (s, outs) -> shapes p [] = Some es ->
  nth_error es x = Some e -> nth_error (vars s) x = Some l ->
  no_call p2 -> run U p2 (mkState [] w2) = Some (s2, outs2) -> shapes p2 [] = Some es2 ->
  nth_error es2 x2 = Some e2 -> nth_error (vars s2) x2 = Some l2 ->
  fused pf e e2 -> regular pf rd e -> never_null pf rd e -> regular pf rd e2 -> never_null pf rd e2 ->
  Forall2 (fun r r2 => fst r = fst r2 /\ fused_log pf (evaluations (snd r)) (evaluations (snd r2)))
    (call_seq U l ws) (call_seq U l2 ws).
Proof. exact @fused_calls. Qed.
Print Assumptions C82_fusion.

(** A sum of an input and the parity of another, in two functions and in one: if only the other
    input changes, from odd to odd, then the sum is not called (but the fused function is). *)
Example C82_fusion_case :
  let p : list (op nat (nat * nat) nat bool) := [New 2 [DFun true]; New 0 [DFun false; DVar 0]] in
  let p2 : list (op nat (nat * nat) nat bool) := [New 4 [DFun false; DFun true]] in
  let e := EApp 0 [EFun false; EApp 2 [EFun true]] in
  let e2 := EApp 4 [EFun false; EFun true] in
  pure_user law_pure_user law_pf ex_rd /\ exact_eq law_pure_user /\
  no_call p /\ no_call p2 /\ shapes p [] = Some [EApp 2 [EFun true]; e] /\ shapes p2 [] = Some [e2] /\
  fused law_pf e e2 /\ regular law_pf ex_rd e /\ never_null law_pf ex_rd e /\
  regular law_pf ex_rd e2 /\ never_null law_pf ex_rd e2 /\
  exists s outs l s2 outs2 l2, run law_pure_user p (mkState [] (0, 0)) = Some (s, outs) /\
    run law_pure_user p2 (mkState [] (0, 0)) = Some (s2, outs2) /\
    nth_error (vars s) 1 = Some l /\ nth_error (vars s2) 0 = Some l2 /\
    let ws := [(1, 2); (3, 2); (4, 2); (4, 1)] in
    map (fun r => (fst r, evaluations (snd r))) (call_seq law_pure_user l ws) =
      [(Ok (VAtom 3, true), [inr false; inr true; inl 2; inl 0]);
       (Ok (VAtom 3, false), [inr false; inr true; inl 2]);
       (Ok (VAtom 2, true), [inr false; inr true; inl 2; inl 0]);
       (Ok (VAtom 1, true), [inr false; inr true; inl 0])] /\
    map (fun r => (fst r, evaluations (snd r))) (call_seq law_pure_user l2 ws) =
      [(Ok (VAtom 3, true), [inr false; inr true; inl 4]);
       (Ok (VAtom 3, false), [inr false; inr true; inl 4]);
       (Ok (VAtom 2, true), [inr false; inr true; inl 4]);
       (Ok (VAtom 1, true), [inr false; inr true; inl 4])].
Proof.
  cbv zeta. split; [exact law_pure|]. split; [exact ex_exact|].
  split; [repeat constructor|]. split; [repeat constructor|]. split; [reflexivity|]. split; [reflexivity|].
  split.
  { apply (fused_call law_pf 0 2 4 [EFun false] [EFun false] [EFun true] [EFun true] [] []);
      [exact law_fuses|repeat constructor..]. }
  do 4 (split; [cbn; repeat split; reflexivity|]).
  do 6 eexists. do 4 (split; [vm_compute; reflexivity|]). cbv zeta. split; vm_compute; reflexivity.
Qed.
