(** One mutex is enough (C92).  Statements only. *)
From Coq Require Import List Bool Arith.
From Verif Require Import Value LazyModel SharedModel ThreadModel ThreadSpec ThreadThms ThreadShareSpec ThreadShareThms PropsThreadShare
  GuardModel GuardSpec GuardThms.
Import ListNotations.

(** Whatever the schedule and the user functions: some order of the calls, each thread's in its
    own order, gives as a program of one thread the results the threads got, and leaves the
    variables and the outside world as the threads left them. *)
Theorem C92_one_at_a_time :
  forall (A W fid did : Type) (U : user A W fid did) (P : list (obj A fid did)) vf, laid_out P -> steady U vf ->
  forall (thr : list (list nat)) (h : heap A) w, Forall (Forall (fun x => x < length P)) thr -> steady_caches vf P h ->
  forall sched s tr, grun U P sched (gstart thr h w) = (s, tr) ->
  exists st outs, srun U (map snd (history tr)) (mkSState (map (state_at h) P) w) = Some (st, outs) /\
    (forall i xs, nth_error thr i = Some xs -> exists t, nth_error (gthreads s) i = Some t /\ ~ In UB (results t) /\
       map fst (by_thread i (history tr) outs) = map Some (results t) /\
       by_thread i (history tr) (map snd (history tr)) = map SCall (firstn (length (results t)) xs)) /\
    (holder s = None -> svars st = map (state_at (gmem s)) P /\ sworld st = gworld s).
Proof. exact @guard_linear. Qed.
Print Assumptions C92_one_at_a_time.

(** The threads of [C91_race_case]: [a] was not called before. *)
Definition guarded := grun su case_vars (Turn 1 :: turns (concat (repeat [0; 1] 40))) (gstart [[1; 1]; [2]] empty 4).
Example C92_one_at_a_time_case :
  laid_out case_vars /\ steady su (fun _ => false) /\ steady_caches (fun _ => false) case_vars empty /\
  Forall (Forall (fun x => x < length case_vars)) [[1; 1]; [2]] /\
  history (snd guarded) = [(Some 1, SCall 2); (Some 0, SCall 1); (Some 0, SCall 1)] /\
  map results (gthreads (fst guarded)) = [[Ok (Some (VAtom 15)); Ok (Some (VAtom 15))]; [Ok (Some (VAtom 20))]] /\
  holder (fst guarded) = None.
Proof.
  split; [exact case_laid_out|]. split; [exact su_steady|]. split; [intros g c v _ E; discriminate|].
  split; [repeat constructor|]. repeat split; vm_compute; reflexivity.
Qed.

(** Between two accesses by different threads the first has released the mutex and the second
    has then acquired it: there is no data race. *)
Theorem C92_no_race :
  forall (A W fid did : Type) (U : user A W fid did) (P : list (obj A fid did)) vf, laid_out P -> steady U vf ->
  forall (thr : list (list nat)) (h : heap A) w, Forall (Forall (fun x => x < length P)) thr -> steady_caches vf P h ->
  forall sched s tr, grun U P sched (gstart thr h w) = (s, tr) ->
  forall t1 i a t2 j b t3, i <> j -> tr = t1 ++ GAccess i a :: t2 ++ GAccess j b :: t3 ->
  exists u1 u2 u3 x, t2 = u1 ++ GRelease i x :: u2 ++ GAcquire j :: u3.
Proof. exact @guard_ordered. Qed.
Print Assumptions C92_no_race.

Example C92_no_race_case :
  exists t1 a t2 b t3, snd guarded = t1 ++ GAccess 1 a :: t2 ++ GAccess 0 b :: t3 /\ length t3 > 3.
Proof.
  exists (firstn 1 (snd guarded)). eexists. exists (firstn 20 (skipn 2 (snd guarded))). eexists. exists (skipn 23 (snd guarded)).
  split; [vm_compute; reflexivity|apply Nat.ltb_lt; vm_compute; reflexivity].
Qed.

(** Nor is there a deadlock: from every state all calls can still be completed. *)
Theorem C92_no_deadlock :
  forall (A W fid did : Type) (U : user A W fid did) (P : list (obj A fid did)) vf, laid_out P -> steady U vf ->
  forall (thr : list (list nat)) (h : heap A) w, Forall (Forall (fun x => x < length P)) thr -> steady_caches vf P h ->
  forall sched s tr, grun U P sched (gstart thr h w) = (s, tr) ->
  exists sched', Forall finished (gthreads (fst (grun U P sched' s))).
Proof. exact @guard_progress. Qed.
Print Assumptions C92_no_deadlock.

(** Thread 1 has the mutex, thread 0 waits. *)
Example C92_no_deadlock_case :
  let s := fst (grun su case_vars (turns [1; 1; 0; 0]) (gstart [[1; 1]; [2]] empty 4)) in
  holder s = Some 1 /\ map results (gthreads s) = [[]; []] /\
  Forall finished (gthreads (fst (grun su case_vars (turns (repeat 1 30 ++ repeat 0 50)) s))).
Proof. split; [vm_compute; reflexivity|]. split; [vm_compute; reflexivity|]. vm_compute. repeat constructor. Qed.
