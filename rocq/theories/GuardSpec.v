(** Vocabulary of C92: the order of the calls, and who holds the mutex. *)
From Coq Require Import List Bool Arith.
From Verif Require Import Value LazyModel SharedModel ThreadModel ThreadSpec GuardModel.
Import ListNotations.

Section Spec.
Context {A W fid did : Type}.
Notation value := (val A).
Notation gevent := (gevent A W fid did).

(** The calls in the order in which they ended, and the changes of the outside world between them;
    with each call the thread that made it. *)
Definition history (tr : list gevent) : list (option nat * @sop A W fid did) :=
  flat_map (fun e => match e with
                     | GRelease i x => [(Some i, SCall x)]
                     | GOutside f => [(None, SEnv f)]
                     | _ => []
                     end) tr.

(** What of it is thread [i]'s: its calls, and what they returned. *)
Definition by_thread {X} (i : nat) (ops : list (option nat * @sop A W fid did)) (outs : list X) : list X :=
  map snd (filter (fun x => match fst (fst x) with Some j => Nat.eqb j i | None => false end) (combine ops outs)).

(** Who holds the mutex after [tr]. *)
Definition held (tr : list gevent) : option nat :=
  fold_left (fun o e => match e with GAcquire i => Some i | GRelease _ _ => None | _ => o end) tr None.

(** The results a thread has, and the calls it has not begun. *)
Definition results (t : gthread A fid did) : list (res (option value)) := fst t.
Definition finished (t : gthread A fid did) : Prop := snd t = Waiting [].
End Spec.
