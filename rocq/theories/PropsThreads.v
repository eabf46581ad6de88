(** Lazy functions and threads (C76).  Statements only. *)
From Coq Require Import List Bool Arith.
From Verif Require Import Value LazyModel ThreadModel ThreadSpec ThreadThms.
Import ListNotations.

(** One thread alone: access by access, a call does what [LazyModel.step] says. *)
Theorem C76_one_thread :
  forall (A W fid did : Type) (U : user A W fid did) (n : node A fid did) (h : heap A) (w : W), NoDup (locs n) ->
  let '(r, h', w', lg) := alone U (call_api U n) h w in
  let '(r', l', w'', lg') := step U (tree h n) w in
  l' = tree h' n /\ w' = w'' /\ lg = lg' /\ (forall c, ~ In c (locs n) -> h' c = h c) /\ r = api_result r'.
Proof. exact @api_alone. Qed.
Print Assumptions C76_one_thread.

(** A copy is in the same state, elsewhere. *)
Theorem C76_copy :
  forall (A W fid did : Type) (U : user A W fid did) f (n : node A fid did) (h : heap A) (w : W),
  NoDup (locs (relocate f n)) -> (forall c, In c (locs n) -> ~ In c (locs (relocate f n))) ->
  exists h', alone U (thread U [TCopy n (relocate f n)]) h w = (Ok [], h', w, []) /\
    tree h' (relocate f n) = tree h n /\ (forall c, ~ In c (locs (relocate f n)) -> h' c = h c).
Proof. exact @copy_alone. Qed.
Print Assumptions C76_copy.

Example C76_one_thread_case :
  fst (fst (fst (alone tu (call_api tu plain_node) stale_heap 6))) = Ok (Some (VAtom 6)) /\
  fst (fst (fst (step tu (tree stale_heap plain_node) 6))) = Ok (VAtom 6, true) /\
  tree stale_heap plain_node = LCore (FnUser 8) (Some (VAtom 5)) [LCore (FnSample 9) (Some (VAtom 5)) [LValue (VAtom 0) true]] /\
  NoDup (locs plain_node) /\ NoDup (locs (relocate (fun c => c + 2) plain_node)).
Proof. repeat split; repeat constructor; cbn; intuition discriminate. Qed.

(** Threads that do not write what others use: no data race, and every thread does what it
    does alone. *)
Theorem C76_separate :
  forall (A W fid did : Type) (U : user A W fid did) (thr : list (list (top A fid did))) (h : heap A) (w : W) sched s' tr,
  separate h thr ->
  interleave U sched (mkConf (map (thread U) thr) h w) = (s', tr) ->
  ~ racy tr /\
  forall i ops, nth_error thr i = Some ops -> exists p' h', nth_error (threads s') i = Some p' /\
    follows U (thread U ops) h (acts_of i tr) p' h' /\ forall o c, In o ops -> uses o c -> h' c = mem s' c.
Proof. exact @separate_threads. Qed.
Print Assumptions C76_separate.

(** Every thread copies a lazy function that nobody calls, and calls its copy. *)
Definition case_copies : list (list (top nat nat nat)) :=
  let copy k := relocate (fun c => c + k) plain_node in
  [[TCopy plain_node (copy 2); TCall (copy 2); TCall (copy 2)]; [TCopy plain_node (copy 4); TCall (copy 4)]].
Example C76_separate_case :
  separate stale_heap case_copies /\
  threads (fst (interleave tu (Turn 0 :: Turn 1 :: Turn 1 :: Turn 0 :: Outside (fun _ => 9) :: turns (concat (repeat [0; 1; 1] 40)))
                 (mkConf (map (thread tu) case_copies) stale_heap 6))) =
  [Ret [Ok (Some (VAtom 9)); Ok (Some (VAtom 9))]; Ret [Ok (Some (VAtom 9))]].
Proof.
  split; [|vm_compute; reflexivity].
  intros [|[|[|i]]] [|[|[|j]]] ops ops' o o' c Ei Ej; try discriminate; cbn in Ei, Ej; injection Ei as <-; injection Ej as <-;
    intros Ho Ho' Hm Hu; cbn in Ho, Ho'; repeat (destruct Ho as [Ho|Ho]; [subst o|]); try contradiction;
    repeat (destruct Ho' as [Ho'|Ho']; [subst o'|]); try contradiction; cbn in *; (split; [intuition congruence|]);
    intros Hc; try contradiction; discriminate.
Qed.

(** If the outside world stays as it is and functions do not change it: with the same
    results. *)
Theorem C76_same_results :
  forall (A W fid did : Type) (U : user A W fid did) (thr : list (list (top A fid did))) (h : heap A) (w : W) sched s' tr,
  separate h thr -> reads_only U -> undisturbed sched ->
  interleave U sched (mkConf (map (thread U) thr) h w) = (s', tr) ->
  forall i ops p r, nth_error thr i = Some ops -> nth_error (threads s') i = Some p -> ended p = Some r ->
  exists h' lg, alone U (thread U ops) h w = (r, h', w, lg) /\ forall o c, In o ops -> uses o c -> h' c = mem s' c.
Proof. exact @separate_threads_world. Qed.
Print Assumptions C76_same_results.

(** Threads that call the lazy functions of a program, no two of them the same one unless
    it is settled: each thread gets what the program of its own calls returns. *)
Theorem C76_program :
  forall (A W fid did : Type) (U : user A W fid did) (env : list (node A fid did)) (thr : list (list nat)) (h : heap A) (w : W)
    sched nss s' tr,
  NoDup (flat_map locs env) -> reads_only U -> undisturbed sched ->
  Forall2 (Forall2 (fun x n => nth_error env x = Some n)) thr nss ->
  (forall i j xs ys x n, i <> j -> nth_error thr i = Some xs -> nth_error thr j = Some ys -> In x xs -> In x ys ->
     nth_error env x = Some n -> settled h n = true) ->
  interleave U sched (mkConf (map (fun ns => thread U (map TCall ns)) nss) h w) = (s', tr) ->
  ~ racy tr /\
  forall i xs p r, nth_error thr i = Some xs -> nth_error (threads s') i = Some p -> ended p = Some r ->
  exists rs st outs, r = Ok rs /\ run U (map Call xs) (mkState (map (tree h) env) w) = Some (st, outs) /\
    map fst outs = map Some rs.
Proof. exact @program_threads. Qed.
Print Assumptions C76_program.

(** Two lazy functions of plain functions, each called by one thread, and one without
    dependencies that both call. *)
Definition case_env : list (node nat nat nat) :=
  [plain_node; relocate (fun c => c + 2) plain_node; relocate (fun _ => 4) once_node].
Definition case_heap : heap nat := fun c => if Nat.eqb c 4 then Some (VAtom 7) else None.
Example C76_program_case :
  NoDup (flat_map locs case_env) /\
  (forall i j xs ys x n, i <> j -> nth_error [[0; 2; 0]; [2; 1]] i = Some xs -> nth_error [[0; 2; 0]; [2; 1]] j = Some ys ->
     In x xs -> In x ys -> nth_error case_env x = Some n -> settled case_heap n = true) /\
  let t := map (fun x => TCall (nth x case_env plain_node)) in
  threads (fst (interleave tu (turns (concat (repeat [0; 1; 1] 20))) (mkConf (map (thread tu) [t [0; 2; 0]; t [2; 1]]) case_heap 6))) =
  [Ret [Ok (Some (VAtom 6)); Ok (Some (VAtom 7)); Ok (Some (VAtom 6))]; Ret [Ok (Some (VAtom 7)); Ok (Some (VAtom 6))]].
Proof.
  split; [repeat constructor; cbn; intuition discriminate|]. split; [|vm_compute; reflexivity].
  intros [|[|[|i]]] [|[|[|j]]] xs ys x n Hij Hi Hj; try discriminate; try congruence; cbn in Hi, Hj; injection Hi as <-; injection Hj as <-;
    intros Hx Hy; cbn in Hx, Hy; (assert (x = 2) as -> by intuition congruence); intros E; injection E as <-; reflexivity.
Qed.

(** Settled: it contains no plain functions, and everything has been evaluated. *)
Theorem C76_settled :
  forall (A fid did : Type) (zero : A) (h : heap A) (n : node A fid did), made zero n ->
  settled h n = true <-> no_plain n /\ forall c, In c (locs n) -> h c <> None.
Proof. intros A fid did. exact (@settled_iff A fid did). Qed.
Print Assumptions C76_settled.

(** That is so after one call that returns, *)
Theorem C76_settles :
  forall (A W fid did : Type) (U : user A W fid did) (zero : A) (n : node A fid did) (h : heap A) (w : W) v h' w' l,
  made zero n -> no_plain n -> alone U (call_api U n) h w = (Ok v, h', w', l) -> settled h' n = true.
Proof. exact @call_settles. Qed.
Print Assumptions C76_settles.

Example C76_settled_case :
  made 0 once_node /\ no_plain once_node /\ settled case_heap (relocate (fun _ => 4) once_node) = true /\
  settled (fun _ => Some (VAtom 5)) plain_node = false /\ made 0 plain_node.
Proof. cbn. auto 6. Qed.

(** and necessary: if two threads call a lazy function that is not settled, there is a data
    race as soon as both calls have returned, whatever else happens. *)
Theorem C76_race :
  forall (A W fid did : Type) (U : user A W fid did) (zero : A) (n : node A fid did) (h : heap A) (w : W)
    (thr : list (list (top A fid did))) i j vi vj sched s' tr,
  made zero n -> settled h n = false -> i <> j ->
  nth_error thr i = Some [TCall n] -> nth_error thr j = Some [TCall n] ->
  interleave U sched (mkConf (map (thread U) thr) h w) = (s', tr) ->
  nth_error (threads s') i = Some (Ret [Ok vi]) -> nth_error (threads s') j = Some (Ret [Ok vj]) ->
  racy tr.
Proof. exact @race. Qed.
Print Assumptions C76_race.

Example C76_race_case :
  settled (fun _ => None) once_node = false /\ settled stale_heap plain_node = false /\
  threads (fst (interleave tu (turns (repeat 0 20 ++ repeat 1 20)) (mkConf (map (thread tu) [[TCall plain_node]; [TCall plain_node]]) stale_heap 6))) =
  [Ret [Ok (Some (VAtom 6))]; Ret [Ok (Some (VAtom 6))]].
Proof. split; [reflexivity|]. split; [reflexivity|]. vm_compute. reflexivity. Qed.

(** Were accesses to caches atomic: no thread would ever read an empty cache, whatever lazy
    functions the threads share; *)
Theorem C76_filled :
  forall (A W fid did : Type) (U : user A W fid did) (thr : list (list (top A fid did))) (h : heap A) (w : W) sched s' tr,
  (forall ops o, In ops thr -> In o ops -> exists n, o = TCall n) ->
  interleave U sched (mkConf (map (thread U) thr) h w) = (s', tr) ->
  ~ In Undefined (threads s').
Proof. exact @never_empty. Qed.
Print Assumptions C76_filled.

Example C76_filled_case :
  threads (fst (interleave tu (turns (concat (repeat [0; 1; 1] 12)))
    (mkConf (map (thread tu) [[TCall plain_node]; [TCall plain_node; TCall once_node]]) (fun _ => None) 6))) =
  [Ret [Ok (Some (VAtom 6))]; Ret [Ok (Some (VAtom 6)); Ok (Some (VAtom 6))]].
Proof. vm_compute. reflexivity. Qed.

(** but a function without dependencies can run twice, *)
Theorem C76_once_refuted : exists sched,
  made 0 once_node /\ undisturbed sched /\ reads_only tu /\
  let r := interleave tu sched (mkConf (map (thread tu) [[TCall once_node]; [TCall once_node]]) (fun _ => None) 0) in
  threads (fst r) = [Ret [Ok (Some (VAtom 7))]; Ret [Ok (Some (VAtom 7))]] /\ calls_of 7 (snd r) = 2.
Proof. exact once_refuted. Qed.
Print Assumptions C76_once_refuted.

(** and a call can return what another one would have returned before the outside world
    changed, although that was before the threads have been started. *)
Theorem C76_outdated_refuted : exists sched,
  made 0 plain_node /\ undisturbed sched /\ reads_only tu /\
  (let r := interleave tu sched (mkConf (map (thread tu) [[TCall plain_node]; [TCall plain_node]]) stale_heap 6) in
   threads (fst r) = [Ret [Ok (Some (VAtom 6))]; Ret [Ok (Some (VAtom 5))]]) /\
  fst (fst (fst (alone tu (thread tu [TCall plain_node]) stale_heap 6))) = Ok [Ok (Some (VAtom 6))].
Proof. exact stale_refuted. Qed.
Print Assumptions C76_outdated_refuted.
