(** Proofs of the examples and refutations stated in PropsLazy.v. *)
From Coq Require Import List Bool Arith Lia.
From Verif Require Import Value TupleAlg LazyModel LazySpec LazySpec2 LazyProofs LazyGeneral LazyThms SharedModel LazyExamples.
Import ListNotations.

Ltac vmr := vm_compute; reflexivity.
Ltac reg := cbn; repeat (constructor || reflexivity || intro || split).

Lemma ex_C01 :
  pure_user ex_user ex_pf ex_rd /\ sound_eq ex_user /\
  exists es, eager ex_pf ex_rd ex_program [] (5, 3) =
    Some (es, [Some (VAtom 14); Some (VAtom 13); Some (VAtom 14); Some (VAtom 14); Some (VAtom 1)]) /\
  Forall (regular ex_pf ex_rd) es /\ Forall (unnested ex_pf ex_rd) es.
Proof. split; [exact ex_pure|split; [exact ex_sound|]]. eexists. split; [vmr|]. reg. Qed.

Lemma ex_C02 :
  pure_user ex_user ex_pf ex_rd /\ exact_eq ex_user /\
  (exists es vals, eager ex_pf ex_rd ex_program [] (5, 3) = Some (es, vals) /\
     Forall (regular ex_pf ex_rd) es /\ Forall (never_null ex_pf ex_rd) es) /\
  exists ts o3 o4 o5 o6 o7 o8,
  tracked_run ex_pf ex_rd (veq (aeq ex_user)) (ex_program ++ [Call 1]) [] (5, 3) = Some (ts,
    [(None, []); (None, []);
     (Some (Ok (Some (VAtom 14))),
      [EvSample true; EvCall 2 [VAtom 5]; EvSample false; EvCall 0 [VAtom 1; VAtom 3; VAtom 10]]);
     o3; o4; o5; o6; o7; o8;
     (Some (Ok (Some (VAtom 1))), [EvSample true; EvCall 2 [VAtom 7]]);
     (Some (Ok (Some (VAtom 14))),
      [EvSample true; EvCmp (VAtom 7) (VAtom 7); EvSample false; EvCmp (VAtom 3) (VAtom 3)])]).
Proof.
  split; [exact ex_pure|split; [exact ex_exact|split]].
  - destruct ex_C01 as (_ & _ & es & H1 & H2 & _). exists es. eexists. split; [exact H1|]. split; [exact H2|].
    vm_compute in H1. injection H1 as <-. reg.
  - repeat eexists.
Qed.

Lemma ex_C03 :
  exists s1 o s' outs,
  exec counter_user (New 0 []) (mkState [] (5, 0)) = Some (s1, o) /\
  run counter_user [Call 0; Env (set_first 9); Call 0; Call 0] s1 = Some (s', outs) /\
  outputs_of 0 [Call 0; Env (set_first 9); Call 0; Call 0] outs =
    [(Some (Ok (Some (VAtom 5))), [EvCall 0 []]); (Some (Ok (Some (VAtom 5))), []);
     (Some (Ok (Some (VAtom 5))), [])].
Proof. do 4 eexists. split; [vmr|]. split; vmr. Qed.

Lemma ex_C04 :
  exists s outs,
  run counter_user [New 0 []; Call 0; New 1 [DVar 0; DConst (VAtom 7)]; Copy 1; Call 1] (mkState [] (5, 0)) = Some (s, outs) /\
  map (fun o => length (snd o)) outs = [0; 1; 0; 0; 1] /\
  Forall (fun o => match o with New _ _ | Copy _ => True | _ => False end)
    [New 1 [DVar 0; DConst (VAtom 7)]; Copy 1 : op nat (nat * nat) nat bool].
Proof. do 2 eexists. split; [vmr|]. split; [vmr|repeat constructor]. Qed.

Lemma ex_C05 :
  pure_user ex_user ex_pf ex_rd /\ exact_eq ex_user /\
  exists es vals ds s outs,
  eager ex_pf ex_rd [New 2 [DFun true]] [] (5, 3) = Some (es, vals) /\
  Forall (regular ex_pf ex_rd) es /\ Forall (never_null ex_pf ex_rd) es /\
  spec_deps EConst EFun es [DVar 0; DFun false] = Some ds /\
  regular ex_pf ex_rd (EApp 0 ds) /\ never_null ex_pf ex_rd (EApp 0 ds) /\ ~ In (inl 0) (flat_map postorder ds) /\
  run ex_user ([New 2 [DFun true]] ++ [New 0 [DVar 0; DFun false]]) (mkState [] (5, 3)) = Some (s, outs) /\
  ex_pf 2 [ex_rd true (5, 3)] = ex_pf 2 [ex_rd true (7, 3)] /\
  ex_pf 2 [ex_rd true (5, 3)] <> ex_pf 2 [ex_rd true (6, 3)].
Proof.
  split; [exact ex_pure|split; [exact ex_exact|]]. do 5 eexists.
  split; [vmr|]. split; [reg|]. split; [reg|]. split; [vmr|]. split; [reg|]. split; [reg|].
  split; [cbn; intuition discriminate|]. split; [vmr|]. split; [vmr|discriminate].
Qed.

Lemma ex_C06 :
  let p := [New 0 []; New 2 [DVar 0; DConst (VAtom 4)]] in
  no_call p /\
  exists s outs es e s1 v lg s2 outs2,
  run counter_user p (mkState [] (5, 3)) = Some (s, outs) /\ shapes p [] = Some es /\
  nth_error es 1 = Some e /\ const_only e /\ postorder e = [inl 0; inl 2] /\
  exec counter_user (Call 1) s = Some (s1, (Some (Ok v), lg)) /\
  run counter_user [Env (set_first 9); Call 1; Call 1] s1 = Some (s2, outs2) /\
  length (outputs_of 1 [Env (set_first 9); Call 1; Call 1] outs2) = 2.
Proof.
  split; [repeat constructor|]. do 9 eexists. split; [vmr|]. split; [vmr|].
  split; [vmr|]. split; [reg|]. split; [vmr|]. split; [vmr|]. split; vmr.
Qed.

Lemma ex_C07 :
  exists s outs es e s' v lg,
  run ex_user ex_program (mkState [] (5, 3)) = Some (s, outs) /\ shapes ex_program [] = Some es /\
  nth_error es 1 = Some e /\
  exec ex_user (Call 1) s = Some (s', (Some (Ok v), lg)) /\ plain_functions e = [true; false].
Proof. do 7 eexists. do 3 (split; [vmr|]). split; vmr. Qed.

Lemma ex_C08 :
  let ds := [LCore (FnUser 2) (Some (VAtom 1))
               [LCore (FnSample true) (Some (VAtom 5)) [LValue (VAtom 0) true]]; LValue (VAtom 10) false] in
  (exists ds' lg, called_all ex_user ds (7, 3) [VAtom 1; VAtom 10] ds' (7, 3) lg /\
    In (EvCall 2 [VAtom 7]) lg /\
    Forall2 (same_as_before ex_user) ds [VAtom 1; VAtom 10]) /\
  (exists ds' lg, called_all ex_user ds (6, 3) [VAtom 0; VAtom 10] ds' (6, 3) lg /\
    ~ Forall2 (same_as_before ex_user) ds [VAtom 0; VAtom 10]) /\
  (forall a, aeq ex_user a a = true).
Proof.
  split; [|split].
  - do 2 eexists. split; [repeat (econstructor; try vmr)|].
    split; [cbn; auto|]. repeat (constructor || split).
  - do 2 eexists. split; [repeat (econstructor; try vmr)|].
    intros H. inversion H as [|? ? ? ? Hd]; subst. destruct Hd. discriminate.
  - exact ex_refl.
Qed.

Lemma ex_C09 :
  (exists s outs s' r lg,
   run ex_user ex_program (mkState [] (5, 3)) = Some (s, outs) /\
   exec ex_user (Call 1) s = Some (s', (Some r, lg)) /\
   comparisons lg = [(VAtom 7, VAtom 7); (VAtom 3, VAtom 3)]) /\
  no_call ex_new /\
  exists s outs s' r lg, run ex_user ex_new (mkState [] (5, 3)) = Some (s, outs) /\
   exec ex_user (Call 1) s = Some (s', (Some r, lg)) /\ length lg = 4.
Proof.
  split; [|split].
  - do 5 eexists. split; [vmr|]. split; vmr.
  - repeat constructor.
  - do 5 eexists. split; [vmr|]. split; vmr.
Qed.

Lemma ex_C10 :
  (forall a, aeq throw_user a a = true) /\
  map fst (call_seq throw_user (mk_lazy throw_user 0 [ObjPlain true])
             [(5, 0); (5, 0); (6, 99); (7, 0); (7, 0)]) =
    [Ok (VAtom 5, true); Ok (VAtom 5, false); Exc; Ok (VAtom 7, true); Ok (VAtom 7, false)] /\
  map fst (call_seq ex_user (mk_lazy ex_user 0 [ObjPlain true]) [(5, 0); (5, 0); (6, 99)]) =
    [Ok (VAtom 5, true); Ok (VAtom 5, false); Ok (VAtom 6, true)].
Proof. split; [intros a; apply Nat.eqb_refl|]. split; vmr. Qed.

Lemma ex_C10_delivered :
  call_seq parity_sum_user (mk_lazy parity_sum_user 0 [ObjPlain true; ObjPlain false]) [(5, 3); (6, 4); (6, 4)] =
    [(Ok (VAtom 8, true), [EvSample true; EvSample false; EvCall 0 [VAtom 5; VAtom 3]]);
     (Ok (VAtom 10, false), [EvSample true; EvCmp (VAtom 5) (VAtom 6); EvSample false; EvCmp (VAtom 3) (VAtom 4);
                             EvCall 0 [VAtom 6; VAtom 4]; EvCmp (VAtom 8) (VAtom 10)]);
     (Ok (VAtom 10, false), [EvSample true; EvCmp (VAtom 6) (VAtom 6); EvSample false; EvCmp (VAtom 4) (VAtom 4)])].
Proof. vmr. Qed.

Lemma ex_C11 :
  exists s outs es e s' r lg,
  run throw_user ex_program (mkState [] (5, 3)) = Some (s, outs) /\ shapes ex_program [] = Some es /\
  nth_error es 1 = Some e /\
  exec throw_user (Call 1) (mkState (vars s) (6, 99)) = Some (s', (Some r, lg)) /\
  r = Exc /\ evaluations lg = [inr true; inl 2; inr false; inl 0] /\
  postorder e = [inr true; inl 2; inr false; inl 0].
Proof. do 7 eexists. do 4 (split; [vmr|]). split; [vmr|]. split; vmr. Qed.

Lemma ex_C12 :
  void_function ex_user 1 /\
  call_seq ex_user (mk_lazy ex_user 1 [ObjPlain true]) [(5, 0); (6, 0)] =
    [(Ok (VVoid, true), [EvSample true; EvCall 1 [VAtom 5]]);
     (Ok (VVoid, false), [EvSample true; EvCmp (VAtom 5) (VAtom 6); EvCall 1 [VAtom 6]; EvCmp VVoid VVoid])].
Proof. split; [intros args w; left; vmr|vmr]. Qed.

Lemma ex_C13 :
  readonly_user ex_user /\ not_copied 0 ([Call 1; Env (set_first 6); Call 0; Call 1; Call 2] : list (op nat (nat * nat) nat bool)) /\
  exists s outs s1 o1 s1' outs1,
  run ex_user [New 0 [DFun true]; New 3 [DVar 0]; Copy 0] (mkState [] (5, 0)) = Some (s, outs) /\
  exec ex_user (Call 0) s = Some (s1, o1) /\
  run ex_user [Call 1; Env (set_first 6); Call 0; Call 1; Call 2] s1 = Some (s1', outs1) /\
  length (outputs_except 0 [Call 1; Env (set_first 6); Call 0; Call 1; Call 2] outs1) = 4.
Proof.
  split; [split; vmr|]. split; [repeat constructor|].
  do 6 eexists. do 3 (split; [vmr|]). vmr.
Qed.

Lemma ex_C14 :
  exists s outs s' lg l s2 v lg2,
  run throw_user ex_new (mkState [] (5, 99)) = Some (s, outs) /\
  exec throw_user (Call 1) s = Some (s', (Some Exc, lg)) /\
  nth_error (vars s') 1 = Some l /\ pending l = [inl 0] /\
  run throw_user (ex_new ++ [Call 1; Env (fun _ => (5, 3))]) (mkState [] (5, 99)) =
    Some (mkState (vars s') (5, 3), outs ++ [(Some Exc, lg); (None, [])]) /\
  exec throw_user (Call 1) (mkState (vars s') (5, 3)) = Some (s2, (Some (Ok v), lg2)) /\
  v = Some (VAtom 14).
Proof. do 8 eexists. do 6 (split; [vmr|]). vmr. Qed.

Lemma refuted_C15 :
  exists (U : user nat (nat * nat) nat bool) pf rd w1 w2 l,
  pure_or_throw U pf rd /\ sound_eq U /\
  l = mk_lazy U 0 [ObjPlain true] /\
  map fst (call_seq U l [w1; w2; (fst w2, 0)]) =
    [Ok (eval pf rd (EApp 0 [EFun true]) w1, true); Exc; Ok (eval pf rd (EApp 0 [EFun true]) w1, false)] /\
  eval pf rd (EApp 0 [EFun true]) (fst w2, 0) <> eval pf rd (EApp 0 [EFun true]) w1.
Proof.
  exists throw_user, ex_pf, ex_rd, (5, 0), (6, 99). eexists.
  split; [exact throw_pure_or_throw|]. split; [exact throw_sound|]. split; [vmr|].
  split; [vmr|]. discriminate.
Qed.

Lemma refuted_C15_dep :
  exists (U : user nat (nat * nat) nat bool) pf rd w1 w2 w3 l,
  pure_or_throw U pf rd /\ sound_eq U /\
  l = mk_lazy U 0 [ObjPlain true; ObjPlain false] /\
  map fst (call_seq U l [w1; w2; w3]) =
    [Ok (eval pf rd (EApp 0 [EFun true; EFun false]) w1, true); Exc;
     Ok (eval pf rd (EApp 0 [EFun true; EFun false]) w1, false)] /\
  eval pf rd (EApp 0 [EFun true; EFun false]) w3 <> eval pf rd (EApp 0 [EFun true; EFun false]) w1.
Proof.
  exists throw_user, ex_pf, ex_rd, (5, 0), (6, 98), (6, 0). eexists.
  split; [exact throw_pure_or_throw|]. split; [exact throw_sound|]. split; [vmr|].
  split; [vmr|]. discriminate.
Qed.

Lemma failed_ok (U : user nat (nat * nat) nat bool) l w v ch l' w' lg l2 path g :
  step U l w = (Ok (v, ch), l', w', lg) -> ~ failed U l w l2 path g.
Proof. intros Hs Hf. destruct (failed_step U _ _ _ _ _ Hf) as (w2 & lg2 & H). congruence. Qed.

Lemma failed_fresh (U : user nat (nat * nat) nat bool) l w l' path g :
  failed U l w l' path g -> fresh l -> Forall (fun c => c = None) path.
Proof.
  induction 1 as [g c ds w vs ds' w1 lg1 args w2 ev Hc Hp Hf Hs|g c ds1 d ds2 w vs ds1' w1 lg1 d' path g' Hc Hf IH];
    intros Hfr; apply fresh_core in Hfr as [-> Hfr]; constructor; auto.
  apply IH. apply Forall_app in Hfr as [_ Hfr]. now inversion Hfr.
Qed.

Lemma ex_C15 :
  pure_or_throw throw_user ex_pf ex_rd /\ sound_eq throw_user /\ no_call ex_new /\
  exists s outs es e l,
  run throw_user ex_new (mkState [] (5, 99)) = Some (s, outs) /\ shapes ex_new [] = Some es /\
  nth_error es 1 = Some e /\ regular ex_pf ex_rd e /\ unnested ex_pf ex_rd e /\ nth_error (vars s) 1 = Some l /\
  safe_calls throw_user l [(5, 99); (6, 98); (6, 3); (7, 4)] /\
  map fst (call_seq throw_user l [(5, 99); (6, 98); (6, 3); (7, 4)]) =
    [Exc; Exc; Ok (VAtom 13, true); Ok (VAtom 15, true)].
Proof.
  split; [exact throw_pure_or_throw|]. split; [exact throw_sound|]. split; [repeat constructor|].
  do 5 eexists. do 3 (split; [vmr|]). split; [reg|]. split; [reg|]. split; [vmr|].
  split; [|vmr].
  cbn. split; [|split; [|split; [|split; [|exact I]]]].
  - intros path g Hf.
    assert (Hall : Forall (fun c => c = None) path) by (eapply failed_fresh; [exact Hf|repeat constructor]).
    destruct g; cbn; auto. clear Hf. induction Hall as [|c path -> Hall IH]; [constructor|].
    destruct path; constructor; auto.
  - intros path g Hf.
    inversion Hf as [|g0 c ds1 d ds2 w vs ds1' w1 lg1 d' path' g' Hc Hf' Heq]; subst.
    + exfalso. match goal with H : called_all _ _ _ _ _ _ _ |- _ =>
        destruct (called_all_steps _ _ _ _ _ _ _ H) as (rs & Hst & _) end.
      vm_compute in Hst. discriminate Hst.
    + match goal with H : ds1 ++ d :: ds2 = _ |- _ => rename H into Heq1 end.
      destruct ds1 as [|d0 [|d1 [|d2 ds1]]]; cbn in Heq1; injection Heq1; intros; subst.
      * inversion Hc; subst. exfalso. eapply failed_ok; [|exact Hf']. vmr.
      * inversion Hf' as [|g0 c ds1 d ds2' w vs' ds1'' w1' lg1' d'' path'' g'' Hc' Hf'' Heq']; subst.
        -- cbn. repeat constructor.
        -- match goal with H : ds1 ++ d :: ds2' = _ |- _ => rename H into Heq2 end.
           destruct ds1 as [|d1 [|d2 ds1]]; cbn in Heq2; try discriminate.
           injection Heq2; intros; subst. inversion Hf''.
      * inversion Hf'.
      * destruct ds1; discriminate.
  - intros path g Hf. exfalso. eapply failed_ok; [|exact Hf]. vmr.
  - intros path g Hf. exfalso. eapply failed_ok; [|exact Hf]. vmr.
Qed.

Lemma parity_veq x y : veq parity_eq x y = true -> Nat.even (atom x) = Nat.even (atom y).
Proof.
  destruct x as [| | | |[]], y as [| | | |[]]; cbn; try discriminate; auto. intros H. now apply eqb_prop in H.
Qed.

Lemma ex_C16 :
  let U := parity_sum_user in
  pure_user U sum_pf ex_rd /\ (forall a, aeq U a a = true) /\
  (forall a b, aeq U a b = aeq U b a) /\
  (forall a b c, aeq U a b = true -> aeq U b c = true -> aeq U a c = true) /\
  (forall f xs ys, Forall2 (fun x y => veq (aeq U) x y = true) xs ys ->
     veq (aeq U) (fval sum_pf f xs) (fval sum_pf f ys) = true) /\
  exists es s outs,
  eager sum_pf ex_rd [New 0 [DFun true; DConst (VAtom 10)]; Call 0; Env (set_first 7); Call 0] [] (5, 3) =
    Some (es, [Some (VAtom 15); Some (VAtom 17)]) /\
  Forall (regular sum_pf ex_rd) es /\ Forall (unnested sum_pf ex_rd) es /\
  run U [New 0 [DFun true; DConst (VAtom 10)]; Call 0; Env (set_first 7); Call 0] (mkState [] (5, 3)) = Some (s, outs) /\
  results outs = [Ok (Some (VAtom 15)); Ok (Some (VAtom 15))].
Proof.
  cbv zeta. split; [split; vmr|]. split; [intros a; cbn; unfold parity_eq; apply eqb_reflx|].
  split; [intros a b; cbn; unfold parity_eq; destruct (Nat.even a), (Nat.even b); vmr|].
  split; [intros a b c; cbn; unfold parity_eq; destruct (Nat.even a), (Nat.even b), (Nat.even c); auto|].
  split.
  - intros f xs ys H. cbn. unfold parity_eq.
    assert (He : Nat.even (sum_of xs) = Nat.even (sum_of ys)).
    { induction H as [|x y xs ys Hxy H IH]; [reflexivity|].
      change (sum_of (x :: xs)) with (atom x + sum_of xs). change (sum_of (y :: ys)) with (atom y + sum_of ys).
      rewrite !Nat.even_add, IH, (parity_veq x y Hxy). reflexivity. }
    rewrite He. apply eqb_reflx.
  - do 3 eexists. split; [vmr|]. split; [reg|]. split; [reg|]. split; vmr.
Qed.

Lemma refuted_C16 :
  exists (U : user nat (nat * nat) nat bool) pf rd p w es v1 v2 s outs r,
  pure_user U pf rd /\ (forall a, aeq U a a = true) /\
  (forall a b, aeq U a b = aeq U b a) /\
  (forall a b c, aeq U a b = true -> aeq U b c = true -> aeq U a c = true) /\
  eager pf rd p [] w = Some (es, [Some v1; Some v2]) /\ Forall (regular pf rd) es /\ Forall (never_null pf rd) es /\
  run U p (mkState [] w) = Some (s, outs) /\
  results outs = [Ok (Some v1); Ok (Some r)] /\ veq (aeq U) r v2 = false.
Proof.
  exists parity_user, ex_pf, ex_rd, [New 3 [DFun true]; Call 0; Env (set_first 7); Call 0], (5, 3).
  do 6 eexists. split; [split; vmr|]. split; [intros a; cbn; unfold parity_eq; apply eqb_reflx|].
  split; [intros a b; cbn; unfold parity_eq; destruct (Nat.even a), (Nat.even b); vmr|].
  split; [intros a b c; cbn; unfold parity_eq; destruct (Nat.even a), (Nat.even b), (Nat.even c); auto|].
  split; [vmr|]. split; [reg|]. split; [reg|]. split; [vmr|]. split; vmr.
Qed.

Lemma ex_C17 :
  pure_user nan_user ex_pf ex_rd /\ sound_eq nan_user /\ veq (aeq nan_user) (VAtom 7) (VAtom 7) = false /\
  (let ds := [LCore (FnSample true) (Some (VAtom 7)) [LValue (VAtom (int0 nan_user)) true]] in
   exists ds' lg, called_all nan_user ds (7, 0) [VAtom 7] ds' (7, 0) lg) /\
  (let ds0 := [LCore (FnSample true) (Some (VAtom 7)) [LValue (VAtom (int0 nan_user)) true]] in
   exists ds0' lg0 d' rest,
     called_all nan_user ds0 (7, 0) [VAtom 7] ds0' (7, 0) lg0 /\
     step nan_user (LCore (FnUser 0) (Some (VAtom 7)) ds0) (7, 0) =
       (Ok (VAtom 7, true), d', (7, 0), lg0 ++ EvCall 0 [VAtom 7] :: rest)).
Proof.
  split; [split; vmr|]. split; [|split; [vmr|split]].
  - intros a b H. apply andb_true_iff in H as [H _]. now apply Nat.eqb_eq.
  - do 2 eexists. repeat (econstructor; try vmr).
  - exists [LCore (FnSample true) (Some (VAtom 7)) [LValue (VAtom 0) true]], [EvSample true; EvCmp (VAtom 7) (VAtom 7)].
    do 2 eexists. split; [|vmr].
    change [EvSample true; EvCmp (VAtom 7) (VAtom 7)] with ([@EvSample nat nat bool true; EvCmp (VAtom 7) (VAtom 7)] ++ []).
    econstructor; [vmr|constructor].
Qed.

Lemma ex_C18 :
  map fst (call_seq ex_user (ensure_lazy ex_user (ObjPlain true)) [(5, 0); (6, 0); (6, 0)]) =
    [Ok (VAtom 5, true); Ok (VAtom 6, true); Ok (VAtom 6, false)] /\
  map fst (call_seq ex_user (ensure_lazy ex_user (ObjValue (VAtom 3))) [(5, 0); (6, 0)]) =
    [Ok (VAtom 3, false); Ok (VAtom 3, false)].
Proof. split; vmr. Qed.

Lemma refuted_C19 :
  exists (U : user nat (nat * nat) nat bool) f d w r l' w' lg args,
  step U (mk_lazy U f [ObjPlain d]) w = (r, l', w', lg) /\
  In (EvCall f args) lg /\ length args = 2.
Proof.
  exists pair_user, 4, true, (1, 2). do 5 eexists. split; [vmr|].
  split; [right; left; vmr|vmr].
Qed.

Lemma ex_C19 :
  exists ds ds' lg r l' w2 lg2,
  ds = map (ensure_lazy pair_user) [ObjPlain true; ObjValue (VAtom 3)] /\
  called_all pair_user ds (1, 2) [VPair (VAtom 1) (VAtom 2); VAtom 3] ds' (1, 2) lg /\
  step pair_user (LCore (FnUser 4) None ds) (1, 2) = (r, l', w2, lg2) /\
  lg2 = lg ++ [EvCall 4 [VPair (VAtom 1) (VAtom 2); VAtom 3]].
Proof.
  do 7 eexists. split; [vmr|]. split; [repeat (econstructor; try vmr)|].
  split; vmr.
Qed.

Lemma refuted_C20 :
  exists (U : user nat (nat * nat) nat bool) pf rd p w s outs es vals,
  pure_user U pf rd /\ exact_eq U /\
  srun U p (mkSState [] w) = Some (s, outs) /\
  eager pf rd (map by_value p) [] w = Some (es, vals) /\ Forall (regular pf rd) es /\ Forall (never_null pf rd) es /\
  results outs <> map Ok vals /\
  p = [SNew 0 [SDep (DFun true)]; SNew 0 [SDRef 0]; SNew 3 [SDRef 0];
       SCall 1; SCall 2; SEnv (set_first 9); SCall 1; SCall 2].
Proof.
  exists ex_user, ex_pf, ex_rd, [SNew 0 [SDep (DFun true)]; SNew 0 [SDRef 0]; SNew 3 [SDRef 0];
       SCall 1; SCall 2; SEnv (set_first 9); SCall 1; SCall 2], (5, 3).
  do 4 eexists. split; [exact ex_pure|]. split; [exact ex_exact|]. split; [vmr|].
  split; [vmr|]. split; [reg|]. split; [reg|]. split; [discriminate|vmr].
Qed.

Lemma refuted_C20_diamond :
  exists (U : user nat (nat * nat) nat bool) pf rd p w s outs es vals,
  pure_user U pf rd /\ exact_eq U /\
  srun U p (mkSState [] w) = Some (s, outs) /\
  eager pf rd (map by_value p) [] w = Some (es, vals) /\ Forall (regular pf rd) es /\ Forall (never_null pf rd) es /\
  results outs <> map Ok vals /\
  p = [SNew 0 [SDep (DFun true)]; SNew 0 [SDRef 0]; SNew 3 [SDRef 0]; SNew 0 [SDep (DVar 1); SDep (DVar 2)];
       SCall 3; SEnv (set_first 9); SCall 3].
Proof.
  exists ex_user, ex_pf, ex_rd, [SNew 0 [SDep (DFun true)]; SNew 0 [SDRef 0]; SNew 3 [SDRef 0]; SNew 0 [SDep (DVar 1); SDep (DVar 2)];
       SCall 3; SEnv (set_first 9); SCall 3], (5, 3).
  do 4 eexists. split; [exact ex_pure|]. split; [exact ex_exact|]. split; [vmr|].
  split; [vmr|]. split; [reg|]. split; [reg|]. split; [discriminate|vmr].
Qed.

Lemma ex_C20 :
  let p := [SNew 0 [SDep (DFun true)]; SNew 3 [SDRef 0; SDep (DFun false)]; SNew 0 [SDRef 1; SDep (DConst (VAtom 1))];
            SCall 2; SEnv (set_first 9); SCall 2] in
  single_user p 0 [] [] /\
  exists s' outs, run ex_user (map by_value p) (mkState [] (5, 3)) = Some (s', outs) /\
  results outs = [Ok (Some (VAtom 5)); Ok (Some (VAtom 7))].
Proof.
  split.
  - cbn. repeat split; repeat (constructor; cbn); intuition discriminate.
  - do 2 eexists. split; vmr.
Qed.

Lemma ex_C21 :
  pure_user ex_user ex_pf ex_rd /\ exact_eq ex_user /\
  exists es vals s outs s1 v lg s2 outs2 r lg2 s3,
  eager ex_pf ex_rd ex_program [] (5, 3) = Some (es, vals) /\ Forall (regular ex_pf ex_rd) es /\ Forall (never_null ex_pf ex_rd) es /\
  run ex_user ex_program (mkState [] (5, 3)) = Some (s, outs) /\
  exec ex_user (Call 1) s = Some (s1, (Some (Ok v), lg)) /\
  no_env ([Call 0; New 0 [DVar 1]; Call 3] : list (op nat (nat * nat) nat bool)) /\
  run ex_user [Call 0; New 0 [DVar 1]; Call 3] s1 = Some (s2, outs2) /\
  exec ex_user (Call 1) s2 = Some (s3, (Some r, lg2)) /\ length lg2 = 4.
Proof.
  split; [exact ex_pure|]. split; [exact ex_exact|]. do 12 eexists.
  split; [vmr|]. split; [reg|]. split; [reg|]. split; [vmr|]. split; [vmr|].
  split; [repeat constructor|]. split; [vmr|]. split; vmr.
Qed.

Lemma ex_C48 :
  exists s outs, run throw_user ex_program (mkState [] (5, 99)) = Some (s, outs) /\ length outs = 10 /\
  In (Some Exc) (map fst outs).
Proof. do 2 eexists. split; [vmr|]. split; [vmr|]. cbn. auto. Qed.
