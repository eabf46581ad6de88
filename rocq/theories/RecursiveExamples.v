(** Recursive functions for the properties of PropsRecursive.v. *)
From Coq Require Import List Bool Arith Lia Wf_nat.
From Verif Require Import Recursive RecursiveSpec RecursiveThms.
Import ListNotations.

(** [then_] goes on with the result of [self(x)], an exception is not caught. *)
Definition then_ {X R S} (x : X) (k : R -> body X R S) : body X R S :=
  CallSelf x (fun o => match o with Some r => k r | None => Raise end).

(** "recursive", tests/recursive.test.cpp:15-30, with a captured first value. *)
Definition fib_body (n : nat) : body nat nat nat :=
  if n <? 2 then Load (fun one => Return one)
  else then_ (n - 2) (fun a => then_ (n - 1) (fun b => Return (a + b))).

Fixpoint fibs (one n : nat) : nat * nat :=
  match n with
  | 0 => (one, one)
  | S n' => let (a, b) := fibs one n' in (b, a + b)
  end.
Definition fib (one n : nat) : nat := fst (fibs one n).

Lemma fib_smaller n : smaller lt n (fib_body n).
Proof.
  unfold fib_body, then_. destruct (n <? 2) eqn:E; [repeat constructor|]. apply Nat.ltb_ge in E.
  constructor; [lia|]. intros [a|]; [|constructor]. constructor; [lia|]. intros [b|]; constructor.
Qed.
Lemma fib_readonly n : readonly (fib_body n).
Proof.
  unfold fib_body, then_. destruct (n <? 2); repeat constructor.
  intros [a|]; repeat constructor. intros [b|]; constructor.
Qed.
Lemma fib_equation one n : Some (fib one n) = denotes (fun x => Some (fib one x)) (fib_body n) one.
Proof.
  destruct n as [|[|n]]; [reflexivity|reflexivity|].
  change (fib_body (S (S n))) with
    (then_ (S (S n) - 2) (fun a => then_ (S (S n) - 1) (fun b => Return (a + b))) : body nat nat nat).
  replace (S (S n) - 2) with n by lia. replace (S (S n) - 1) with (S n) by lia. cbn.
  unfold fib. cbn. destruct (fibs one n). reflexivity.
Qed.
Lemma ex_fib :
  well_founded lt /\ (forall n, smaller lt n (fib_body n)) /\ (forall n, readonly (fib_body n)) /\
  (forall n, Some (fib 1 n) = denotes (fun x => Some (fib 1 x)) (fib_body n) 1) /\
  map (fun n => call fib_body ByValue 9 1 n) [0; 1; 2; 3; 4]
  = map (fun r => Some (Some r, 1)) [1; 1; 2; 3; 5].
Proof.
  split; [exact lt_wf|]. split; [exact fib_smaller|]. split; [exact fib_readonly|].
  split; [exact (fib_equation 1)|]. reflexivity.
Qed.

(** Counts its calls; 7 is an error that the caller catches once. *)
Definition count_body (n : nat) : body nat nat nat :=
  Load (fun s => Store (S s)
    match n with
    | 0 => Return 0
    | S n' => if n =? 7 then Raise
              else CallSelf n' (fun o => Load (fun s' => Return (match o with Some r => r + s' | None => 100 end)))
    end).

Lemma ex_count_ref :
  runs count_body (count_body 3) 0 (Some 12) 4 /\ call count_body ByRef 9 0 3 = Some (Some 12, 4) /\
  call count_body ByRef 9 0 8 = Some (Some 100, 2).
Proof.
  split; [|split; reflexivity]. apply by_reference. exists 9. reflexivity.
Qed.
Lemma ex_count_val :
  runs_local count_body (count_body 3) 0 0 (Some 3) 1 /\ call count_body ByValue 9 0 3 = Some (Some 3, 1) /\
  own (count_body 3) [Some 2] 0 = Some (Some 3, 1) /\
  call count_body ByValue 9 0 8 = Some (Some 100, 1).
Proof.
  split; [|repeat split; reflexivity]. apply by_value. exists 9. reflexivity.
Qed.

(** A captured vector (its length) that is gone when moved from. *)
Definition look_body (n : nat) : body nat nat nat := Load (fun s => Return s).
Lemma ex_rvalue :
  exists (F : nat -> body nat nat nat) (moved : nat -> nat) (s x : nat),
  (forall y, readonly (F y)) /\
  forall n, call F ByValue (S n) s x = Some (Some 3, s) /\
            call_rvalue F ByValue moved (S n) s x = Some (Some 0, moved s).
Proof.
  exists look_body, (fun _ => 0), 3, 5. split; [repeat constructor|]. intros n. split; reflexivity.
Qed.
