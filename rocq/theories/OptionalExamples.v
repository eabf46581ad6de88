(** Concrete user functions with results of type [std::optional], for C55. *)
From Coq Require Import List Bool Arith.
From Verif Require Import Value TupleAlg LazyModel LazySpec LazySpec2 LazyExamples LazyExampleProofs OptionalSpec.
Import ListNotations.

(** The plain function [true] reads the first input as an optional number (0: none),
    [false] reads the second one as an optional optional number (0: none, 1: an
    empty optional). *)
Definition opt_rd (d : bool) (w : nat * nat) : val nat :=
  if d then VOpt (match fst w with 0 => None | S n => Some (VAtom n) end)
  else VOpt (match snd w with 0 => None | 1 => Some (VOpt None) | S (S n) => Some (VOpt (Some (VAtom n))) end).

(** The wrapped function 0 counts its non-empty arguments, also inside; 1 returns its
    first argument; 2 adds numbers. *)
Fixpoint weight (v : val nat) : nat := match v with VOpt (Some x) => S (weight x) | _ => 0 end.
Definition opt_pf (f : nat) (args : list (val nat)) : option (val nat) :=
  match f with
  | 0 => Some (VAtom (fold_right (fun v n => weight v + n) 0 args))
  | 1 => Some (hd VVoid args)
  | _ => Some (VAtom (sum_of args))
  end.
Definition opt_user : user nat (nat * nat) nat bool :=
  mkUser (fun f args w => (FRet (opt_pf f args), w)) (fun d w => (VRet (opt_rd d w), w)) Nat.eqb 0.

Lemma opt_pure : pure_user opt_user opt_pf opt_rd.
Proof. split; reflexivity. Qed.
Lemma opt_exact : exact_eq opt_user.
Proof. intros a b. apply Nat.eqb_eq. Qed.
Lemma opt_sound : sound_eq opt_user.
Proof. intros a b. apply Nat.eqb_eq. Qed.

Definition opt_program : list (op nat (nat * nat) nat bool) :=
  [New 1 [DFun true]; New 0 [DVar 0; DConst (VOpt None)];
   Call 1; Call 1; Env (set_first 6); Call 1; Call 1; Env (set_first 0); Call 1; Call 1].

Lemma opt_regular d w : as_tuple (opt_rd d w) = None.
Proof. destruct d; reflexivity. Qed.
Lemma opt_unnested w : nested_opt (opt_rd true w) = false.
Proof. cbn. now destruct (fst w). Qed.

Lemma ex_C55 :
  pure_user opt_user opt_pf opt_rd /\ sound_eq opt_user /\
  (exists es vals, eager opt_pf opt_rd opt_program [] (0, 0) = Some (es, vals) /\
     Forall (regular opt_pf opt_rd) es /\ Forall (unnested opt_pf opt_rd) es) /\
  exists ts, action_run opt_pf opt_rd (veq (aeq opt_user)) opt_program [] (0, 0) = Some (ts,
    let none := VOpt None in let five := VOpt (Some (VAtom 5)) in
    [(None, []); (None, []);
     (Some (Ok (Some (VAtom 0))), [EvSample true; EvCall 1 [none]; EvCall 0 [none; none]]);
     (Some (Ok (Some (VAtom 0))),
      [EvSample true; EvCmp none none; EvCall 1 [none]; EvCmp none none; EvCall 0 [none; none]; EvCmp (VAtom 0) (VAtom 0)]);
     (None, []);
     (Some (Ok (Some (VAtom 1))),
      [EvSample true; EvCmp none five; EvCall 1 [five]; EvCmp none five; EvCall 0 [five; none]; EvCmp (VAtom 0) (VAtom 1)]);
     (Some (Ok (Some (VAtom 1))), [EvSample true; EvCmp five five]);
     (None, []);
     (Some (Ok (Some (VAtom 0))),
      [EvSample true; EvCmp five none; EvCall 1 [none]; EvCmp five none; EvCall 0 [none; none]; EvCmp (VAtom 1) (VAtom 0)]);
     (Some (Ok (Some (VAtom 0))),
      [EvSample true; EvCmp none none; EvCall 1 [none]; EvCmp none none; EvCall 0 [none; none]; EvCmp (VAtom 0) (VAtom 0)])]).
Proof.
  split; [exact opt_pure|split; [exact opt_sound|split]].
  - do 2 eexists. split; [vmr|]. split.
    + repeat (constructor || split); intros; cbn; try reflexivity; exact (opt_regular true _).
    + repeat (constructor || split || intro); cbn; try reflexivity; exact (opt_unnested _).
  - eexists. vm_compute. reflexivity.
Qed.

Lemma ex_C55_reevaluated :
  pure_user opt_user opt_pf opt_rd /\ sound_eq opt_user /\ (forall a, aeq opt_user a a = true) /\
  exists es vals ds s outs,
  eager opt_pf opt_rd [New 1 [DFun true]] [] (0, 0) = Some (es, vals) /\
  Forall (regular opt_pf opt_rd) es /\ Forall (unnested opt_pf opt_rd) es /\
  spec_deps EConst EFun es [DVar 0; DFun true] = Some ds /\
  regular opt_pf opt_rd (EApp 0 ds) /\ unnested opt_pf opt_rd (EApp 0 ds) /\
  ~ In (inl 0) (flat_map postorder ds) /\
  run opt_user ([New 1 [DFun true]] ++ [New 0 [DVar 0; DFun true]]) (mkState [] (0, 0)) = Some (s, outs) /\
  In (EFun true) ds /\ opt_rd true (0, 0) = VOpt None.
Proof.
  split; [exact opt_pure|split; [exact opt_sound|split]]. { intros a. apply Nat.eqb_refl. }
  do 5 eexists. split; [vmr|].
  split. { repeat (constructor || split); intros; cbn; try reflexivity; exact (opt_regular true _). }
  split. { repeat (constructor || split || intro); cbn; try reflexivity; exact (opt_unnested _). }
  split; [vmr|].
  split. { repeat (constructor || split); intros; cbn; try reflexivity; exact (opt_regular true _). }
  split. { repeat (constructor || split || intro); cbn; try reflexivity; exact (opt_unnested _). }
  split; [cbn; intuition discriminate|]. split; [vmr|]. split; [cbn; auto|reflexivity].
Qed.

Lemma refuted_C55_repeat :
  exists (U : user nat (nat * nat) nat bool) pf rd l w,
  pure_user U pf rd /\ exact_eq U /\ regular pf rd (EApp 0 [EFun true]) /\ unnested pf rd (EApp 0 [EFun true]) /\
  l = mk_lazy U 0 [ObjPlain true] /\
  map (fun c => evaluations (snd c)) (call_seq U l [w; w; w]) =
    [[inr true; inl 0]; [inr true; inl 0]; [inr true; inl 0]].
Proof.
  exists opt_user, opt_pf, opt_rd, (mk_lazy opt_user 0 [ObjPlain true]), (0, 0).
  split; [exact opt_pure|]. split; [exact opt_exact|].
  split. { repeat (constructor || split); intros; cbn; try reflexivity; exact (opt_regular true _). }
  split. { repeat (constructor || split || intro); cbn; try reflexivity; exact (opt_unnested _). }
  split; vmr.
Qed.

Lemma refuted_C55_nested :
  exists (U : user nat (nat * nat) nat bool) pf rd p w es v1 v2 s outs,
  pure_user U pf rd /\ exact_eq U /\
  p = [New 0 [DFun false]; Call 0; Env (fun _ => (0, 1)); Call 0] /\
  eager pf rd p [] w = Some (es, [Some v1; Some v2]) /\ Forall (regular pf rd) es /\
  run U p (mkState [] w) = Some (s, outs) /\ results outs = [Ok (Some v1); Ok (Some v1)] /\ v1 <> v2.
Proof.
  exists opt_user, opt_pf, opt_rd. eexists. exists (0, 0). do 5 eexists.
  split; [exact opt_pure|]. split; [exact opt_exact|]. split; [reflexivity|].
  split; [vmr|].
  split. { repeat (constructor || split); intros; cbn; try reflexivity; exact (opt_regular false _). }
  split; [vmr|]. split; [vmr|]. discriminate.
Qed.
