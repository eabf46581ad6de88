(** Concrete user functions and programs, used to show that the hypotheses of
    the theorems of PropsLazy.v are met by non-trivial cases, and as witnesses
    of the refutations. *)
From Coq Require Import List Bool Arith.
From Verif Require Import Value TupleAlg LazyModel LazySpec LazySpec2 SharedModel.
Import ListNotations.

(** Values are numbers, the outside world is a pair of numbers, a plain function
    reads one of them. *)
Definition atom (v : val nat) : nat := match v with VAtom n => n | _ => 0 end.
Definition sum_of (args : list (val nat)) : nat := fold_right (fun v n => atom v + n) 0 args.

(** Wrapped functions: 0 adds, 1 returns void, 2 is the parity of the sum,
    3 halves the sum, 4 counts its arguments. *)
Definition ex_pf (f : nat) (args : list (val nat)) : option (val nat) :=
  match f with
  | 0 => Some (VAtom (sum_of args))
  | 1 => None
  | 2 => Some (VAtom (if Nat.even (sum_of args) then 0 else 1))
  | 3 => Some (VAtom (Nat.div2 (sum_of args)))
  | _ => Some (VAtom (length args))
  end.
Definition ex_rd (d : bool) (w : nat * nat) : val nat :=
  VAtom (if d then fst w else snd w).

Definition ex_user : user nat (nat * nat) nat bool :=
  mkUser (fun f args w => (FRet (ex_pf f args), w)) (fun d w => (VRet (ex_rd d w), w)) Nat.eqb 0.

Definition set_first (n : nat) (w : nat * nat) : nat * nat := (n, snd w).

(** A parity of the first input; a sum of that, the second input and 10. *)
Definition ex_new : list (op nat (nat * nat) nat bool) :=
  [New 2 [DFun true]; New 0 [DVar 0; DFun false; DConst (VAtom 10)]].
Definition ex_program : list (op nat (nat * nat) nat bool) :=
  ex_new ++ [Call 1; Env (set_first 6); Call 1; Env (set_first 7); Call 1; Copy 1; Call 2; Call 0].

Lemma ex_pure : pure_user ex_user ex_pf ex_rd.
Proof. split; reflexivity. Qed.
Lemma ex_exact : exact_eq ex_user.
Proof. intros a b. apply Nat.eqb_eq. Qed.
Lemma ex_sound : sound_eq ex_user.
Proof. intros a b. apply Nat.eqb_eq. Qed.
Lemma ex_refl : forall a, aeq ex_user a a = true.
Proof. intros a. apply Nat.eqb_refl. Qed.

(** The same with an equality that only looks at the parity. *)
Definition parity_eq (a b : nat) : bool := Bool.eqb (Nat.even a) (Nat.even b).
Definition parity_user : user nat (nat * nat) nat bool :=
  mkUser (fun f args w => (FRet (ex_pf f args), w)) (fun d w => (VRet (ex_rd d w), w)) parity_eq 0.

(** The same with a number, 7, that is not equal to itself. *)
Definition nan_eq (a b : nat) : bool := Nat.eqb a b && negb (Nat.eqb a 7).
Definition nan_user : user nat (nat * nat) nat bool :=
  mkUser (fun f args w => (FRet (ex_pf f args), w)) (fun d w => (VRet (ex_rd d w), w)) nan_eq 0.

(** The same, but function 0 throws whenever the second input is 99 and reading
    the second input throws whenever it is 98. *)
Definition throw_user : user nat (nat * nat) nat bool :=
  mkUser (fun f args w => (if Nat.eqb f 0 && Nat.eqb (snd w) 99 then FThrow else FRet (ex_pf f args), w))
         (fun d w => (if negb d && Nat.eqb (snd w) 98 then VThrow else VRet (ex_rd d w), w)) Nat.eqb 0.
Lemma throw_pure_or_throw : pure_or_throw throw_user ex_pf ex_rd.
Proof.
  split.
  - intros f args w. cbn. destruct (Nat.eqb f 0 && Nat.eqb (snd w) 99); auto.
  - intros d w. cbn. destruct (negb d && Nat.eqb (snd w) 98); auto.
Qed.
Lemma throw_sound : sound_eq throw_user.
Proof. intros a b. apply Nat.eqb_eq. Qed.

(** Impure functions: 0 increments the first input and returns its old value. *)
Definition counter_user : user nat (nat * nat) nat bool :=
  mkUser (fun f args w => (FRet (Some (VAtom (fst w))), (S (fst w), snd w)))
         (fun d w => (VRet (ex_rd d w), w)) Nat.eqb 0.

(** A plain function that yields a pair. *)
Definition pair_user : user nat (nat * nat) nat bool :=
  mkUser (fun f args w => (FRet (ex_pf f args), w))
         (fun d w => (VRet (VPair (VAtom (fst w)) (VAtom (snd w))), w)) Nat.eqb 0.

(** Sums only, with an equality that only looks at the parity. *)
Definition sum_pf (f : nat) (args : list (val nat)) : option (val nat) := Some (VAtom (sum_of args)).
Definition parity_sum_user : user nat (nat * nat) nat bool :=
  mkUser (fun f args w => (FRet (sum_pf f args), w)) (fun d w => (VRet (ex_rd d w), w)) parity_eq 0.
