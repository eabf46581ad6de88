(** Concrete cases for the theorems of PropsThrow.v. *)
From Coq Require Import List Bool Arith.
From Verif Require Import Value TupleAlg LazyModel LazySpec LazySpec2 SharedModel LazyExamples HistorySpec
  ThrowModel ThrowSpec.
Import ListNotations.

(** The operations count; the [k]-th one (from 0) throws. *)
Definition tick (k h : nat) : bool * nat := (negb (Nat.eqb h k), S h).
Definition nth_throws (k : nat) : vops nat (nat * nat) nat :=
  mkOps (fun _ _ h => tick k h)
        (fun c r _ h => let (ok, h1) := tick k h in
                        (if ok then Some (opt_ne Nat.eqb (Some c) r) else None, h1))
        (fun _ _ h => tick k h)
        (fun c _ _ h => let (ok, h1) := tick k h in (if ok then None else Some c, h1))
        (fun _ _ h => tick k h).
(** Only the [k]-th copy for the caller throws. *)
Definition nth_lost (k : nat) : vops nat (nat * nat) nat :=
  mkOps (fun _ _ h => (true, h)) (fun c r _ h => (Some (opt_ne Nat.eqb (Some c) r), h))
        (fun _ _ h => (true, h)) (fun _ _ _ h => (None, h)) (fun _ _ h => tick k h).

Lemma nth_throws_old_or_new k : old_or_new (nth_throws k).
Proof. intros c r w h v. unfold nth_throws, tick. cbn. destruct (negb (Nat.eqb h k)); [discriminate|]. intros E. injection E as <-. now left. Qed.

Lemma nth_lost_quiet k : never_throws ex_user (nth_lost k).
Proof. repeat split. Qed.

Definition call_twice : list (op nat (nat * nat) nat bool) :=
  [New 0 [DFun true; DFun false]; Call 0; Env (set_first 9); Call 0; Call 0].

Lemma ex_C58_lost :
  never_throws ex_user (nth_lost 1) /\
  exists s h outs,
  trun ex_user (nth_lost 1) call_twice (mkState [] (5, 3)) 0 = Some (s, h, outs) /\
  results outs = [Ok (Some (VAtom 8)); Exc; Ok (Some (VAtom 12))].
Proof. split; [apply nth_lost_quiet|]. do 3 eexists. split; reflexivity. Qed.

(** In the second call the comparison of the new sum with the old one throws: the third
    returns the old sum.  In the fourth everything is evaluated. *)
Definition compare_throws : list (op nat (nat * nat) nat bool) :=
  call_twice ++ [Env (fun _ => (2, 2))].

Lemma ex_C58_real :
  pure_or_throw ex_user ex_pf ex_rd /\ old_or_new (nth_throws 16) /\
  exists s h outs s' h' lg es e,
  trun ex_user (nth_throws 16) compare_throws (mkState [] (5, 3)) 0 = Some (s, h, outs) /\
  results outs = [Ok (Some (VAtom 8)); Exc; Ok (Some (VAtom 8))] /\
  texec ex_user (nth_throws 16) (Call 0) s h = Some (s', h', (Some (Ok (Some (VAtom 4))), lg)) /\
  shapes compare_throws [] = Some es /\ nth_error es 0 = Some e /\
  call_worlds (compare_throws ++ [Call 0]) (5, 3) = [(5, 3); (9, 3); (9, 3); (2, 2)] /\
  evaluations lg = postorder e /\ regular ex_pf ex_rd e.
Proof.
  split; [|split; [apply nth_throws_old_or_new|]].
  { split; intros; left; reflexivity. }
  do 8 eexists. split; [vm_compute; reflexivity|]. split; [vm_compute; reflexivity|].
  split; [vm_compute; reflexivity|]. split; [reflexivity|]. split; [reflexivity|]. split; [reflexivity|].
  split; [reflexivity|]. repeat (constructor; try discriminate).
Qed.

Lemma refuted_C58 :
  exists (U : user nat (nat * nat) nat bool) (O : vops nat (nat * nat) nat) pf rd p w es vals s h outs,
  pure_user U pf rd /\ sound_eq U /\ old_or_new O /\
  eager pf rd p [] w = Some (es, vals) /\ Forall (regular pf rd) es /\ Forall (unnested pf rd) es /\
  vals = [Some (VAtom 8); Some (VAtom 12); Some (VAtom 12)] /\
  trun U O p (mkState [] w) 0 = Some (s, h, outs) /\
  results outs = [Ok (Some (VAtom 8)); Exc; Ok (Some (VAtom 8))].
Proof.
  exists ex_user, (nth_throws 16), ex_pf, ex_rd, call_twice, (5, 3). do 5 eexists.
  split; [exact ex_pure|]. split; [exact ex_sound|]. split; [apply nth_throws_old_or_new|].
  split; [reflexivity|]. split; [|split; [|split; [reflexivity|split; [vm_compute; reflexivity|reflexivity]]]].
  - repeat (constructor; try discriminate).
  - repeat (constructor; try discriminate).
Qed.

(** The same exception, seen by the watching operations. *)
Lemma ex_C58_reaches :
  pure_user ex_user ex_pf ex_rd /\
  exists s h outs s' h' r lg,
  trun ex_user (nth_throws 16) [New 0 [DFun true; DFun false]; Call 0; Env (set_first 9)] (mkState [] (5, 3)) 0 =
    Some (s, h, outs) /\
  texec ex_user (nth_throws 16) (Call 0) s h = Some (s', h', (Some r, lg)) /\
  texec ex_user (watched (nth_throws 16)) (Call 0) s (h, false) = Some (s', (h', true), (Some r, lg)) /\
  r = Exc /\ called (FnUser 0) lg.
Proof.
  split; [exact ex_pure|]. do 7 eexists. split; [vm_compute; reflexivity|].
  split; [vm_compute; reflexivity|]. split; [vm_compute; reflexivity|]. split; [reflexivity|].
  eexists. cbn. right. right. right. right. left. reflexivity.
Qed.
