(** Threads that share lazy functions under a mutex: every call [x()] is made in a scope with
    [std::lock_guard lock{ mutex };], one mutex for all.  pigro has no mutex of its own; the
    calls are those of [ThreadModel.v] (src/pigro/lazy.h:39-76), access by access. *)
From Coq Require Import List Bool Arith.
From Verif Require Import Value LazyModel ThreadModel ThreadSpec ThreadShareSpec.
Import ListNotations.

Section Guard.
Context {A W fid did : Type}.
Notation value := (val A).
Variable U : user A W fid did.
Variable P : list (obj A fid did).

(** A thread: before the next of its calls (of variables of the program), or holding the mutex in
    a call of [x]. *)
Inductive phase :=
| Waiting (xs : list nat)
| Within (x : nat) (p : prog A fid did (option value)) (xs : list nat).
(** And the results it has so far. *)
Definition gthread : Type := list (res (option value)) * phase.

Record gconf := mkG { gthreads : list gthread; holder : option nat; gmem : heap A; gworld : W }.

Inductive gevent :=
| GAcquire (i : nat)
| GAccess (i : nat) (a : action A W fid did)
| GRelease (i x : nat)
| GOutside (f : W -> W).

(** One step: the constructor of [lock_guard] waits until the mutex is free; its destructor runs
    also if the call throws.  The outside world changes between calls (it is under the same
    mutex). *)
Definition gturn (t : turn W) (s : gconf) : gconf * list gevent :=
  match t with
  | Outside f =>
      match holder s with
      | None => (mkG (gthreads s) None (gmem s) (f (gworld s)), [GOutside f])
      | Some _ => (s, [])
      end
  | Turn i =>
      match nth_error (gthreads s) i with
      | Some (rs, Waiting (x :: xs)) =>
          match holder s with
          | None => (mkG (update i (rs, Within x (call_api U (node_at P x)) xs) (gthreads s)) (Some i) (gmem s) (gworld s), [GAcquire i])
          | Some _ => (s, [])
          end
      | Some (rs, Within x p xs) =>
          match ended p with
          | Some r => (mkG (update i (rs ++ [r], Waiting xs) (gthreads s)) None (gmem s) (gworld s), [GRelease i x])
          | None =>
              match tstep U p (gmem s) (gworld s) with
              | Some (a, p', h', w') => (mkG (update i (rs, Within x p' xs) (gthreads s)) (holder s) h' w', [GAccess i a])
              | None => (s, [])
              end
          end
      | _ => (s, [])
      end
  end.
Fixpoint grun (sched : list (turn W)) (s : gconf) : gconf * list gevent :=
  match sched with
  | [] => (s, [])
  | t :: sched' =>
      let '(s1, tr1) := gturn t s in
      let '(s2, tr2) := grun sched' s1 in (s2, tr1 ++ tr2)
  end.

Definition gstart (thr : list (list nat)) (h : heap A) (w : W) : gconf :=
  mkG (map (fun xs => ([], Waiting xs)) thr) None h w.
End Guard.

Arguments gconf : clear implicits.
Arguments gevent : clear implicits.
Arguments gthread : clear implicits.
Arguments phase : clear implicits.
