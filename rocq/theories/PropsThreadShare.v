(** Threads and [std::ref] (C91).  Statements only. *)
From Coq Require Import List Bool Arith.
From Verif Require Import Value LazyModel SharedModel ThreadModel ThreadSpec ThreadThms ThreadShareSpec ThreadShareThms.
Import ListNotations.

(** The variables of any program with references lie somewhere in memory: *)
Theorem C91_programs :
  forall (A W fid did : Type) (U : user A W fid did) vf, steady U vf ->
  forall (p : list (@sop A W fid did)) w s outs, srun U p (mkSState [] w) = Some (s, outs) ->
  exists P h, laid_out P /\ steady_caches vf P h /\ (forall z, made (int0 U) (node_at P z)) /\ svars s = map (state_at h) P.
Proof. exact @programs_laid_out. Qed.
Print Assumptions C91_programs.

(** [auto a = lazy(f7); auto b = lazy(f8, std::ref(a)); auto c = lazy(f9, std::ref(a), d5);] *)
Definition su : user nat nat nat nat :=
  mkUser (fun f args w => (FRet (Some (VAtom (fold_right (fun v s => match v with VAtom a => a + s | _ => s end) f args))), w))
         (fun d w => (VRet (VAtom w), w)) Nat.eqb 0.
Definition case_vars : list (obj nat nat nat) :=
  [OCore (FnUser 7) 0 []; OCore (FnUser 8) 1 [ORef 0]; OCore (FnUser 9) 3 [ORef 0; OCore (FnSample 5) 2 [OValue (VAtom 0) true]]].
Definition case_program : list (@sop nat nat nat nat) :=
  [SNew 7 []; SNew 8 [SDRef 0]; SNew 9 [SDRef 0; SDep (DFun 5)]].
Definition empty : heap nat := fun _ => None.
(** [a] has been called. *)
Definition after_a : heap nat := fun c => if Nat.eqb c 0 then Some (VAtom 7) else None.

Lemma su_steady : steady su (fun _ => false).
Proof. intros [f|d] args w v w' l E; cbn in E; injection E as <- <- <-; split; discriminate. Qed.
Lemma case_laid_out : laid_out case_vars.
Proof.
  split; [vm_compute; repeat constructor; cbn; intuition discriminate|]. intros [|[|[|x]]] p E; cbn in E; try (injection E as <-);
    [| | |destruct x; discriminate]; (split; [eauto|]); cbn; intuition; subst; auto.
Qed.

Example C91_programs_case :
  steady su (fun _ => false) /\ laid_out case_vars /\ steady_caches (fun _ => false) case_vars empty /\
  option_map (fun r => svars (fst r)) (srun su case_program (mkSState [] 4)) = Some (map (state_at empty) case_vars).
Proof. split; [exact su_steady|]. split; [exact case_laid_out|]. split; [intros g c v _ E; discriminate|reflexivity]. Qed.

(** One thread alone: access by access, a call does what [SharedModel] says, *)
Theorem C91_one_call :
  forall (A W fid did : Type) (U : user A W fid did) (P : list (obj A fid did)) vf, laid_out P -> steady U vf ->
  forall x (h : heap A) w, x < length P -> steady_caches vf P h ->
  let '(r, h', w', lg) := alone U (call_api U (node_at P x)) h w in
  sexec U (SCall x) (mkSState (map (state_at h) P) w) = Some (mkSState (map (state_at h') P) w', (Some r, lg)) /\
  r <> UB /\ steady_caches vf P h'.
Proof. exact @api_shared. Qed.
Print Assumptions C91_one_call.

(** and so do all its calls. *)
Theorem C91_one_thread :
  forall (A W fid did : Type) (U : user A W fid did) (P : list (obj A fid did)) vf, laid_out P -> steady U vf ->
  forall xs (h : heap A) w, Forall (fun x => x < length P) xs -> steady_caches vf P h ->
  exists rs h' w' lg outs,
  alone U (calling U P xs) h w = (Ok rs, h', w', lg) /\
  srun U (map SCall xs) (mkSState (map (state_at h) P) w) = Some (mkSState (map (state_at h') P) w', outs) /\
  map fst outs = map Some rs /\ lg = concat (map snd outs).
Proof. exact @thread_shared. Qed.
Print Assumptions C91_one_thread.

Example C91_one_thread_case :
  fst (fst (fst (alone su (calling su case_vars [1; 2; 1]) empty 4))) = Ok [Ok (Some (VAtom 15)); Ok (Some (VAtom 20)); Ok (Some (VAtom 15))] /\
  option_map (fun r => map fst (snd r)) (srun su (map SCall [1; 2; 1]) (mkSState (map (state_at empty) case_vars) 4)) =
  Some [Some (Ok (Some (VAtom 15))); Some (Ok (Some (VAtom 20))); Some (Ok (Some (VAtom 15)))].
Proof. split; vm_compute; reflexivity. Qed.

(** Several threads: if they reach in common only what is settled, there is no data race, *)
Theorem C91_no_race :
  forall (A W fid did : Type) (U : user A W fid did) (P : list (obj A fid did)), laid_out P ->
  forall (h : heap A) (thr : list (list nat)) w sched s' tr,
  Forall (Forall (fun x => x < length P)) thr -> share_settled P h thr ->
  interleave U sched (mkConf (map (calling U P) thr) h w) = (s', tr) -> ~ racy tr.
Proof. exact @shared_no_race. Qed.
Print Assumptions C91_no_race.

(** each thread gets what the program of its own calls returns, and the variables it
    reaches are left as that program leaves them. *)
Theorem C91_same_results :
  forall (A W fid did : Type) (U : user A W fid did) (P : list (obj A fid did)) vf, laid_out P -> steady U vf ->
  forall (h : heap A) (thr : list (list nat)) w sched s' tr,
  Forall (Forall (fun x => x < length P)) thr -> share_settled P h thr -> steady_caches vf P h -> reads_only U -> undisturbed sched ->
  interleave U sched (mkConf (map (calling U P) thr) h w) = (s', tr) ->
  forall i xs p r, nth_error thr i = Some xs -> nth_error (threads s') i = Some p -> ended p = Some r ->
  exists rs st outs, r = Ok rs /\ srun U (map SCall xs) (mkSState (map (state_at h) P) w) = Some (st, outs) /\
    map fst outs = map Some rs /\
    forall x z l, In x xs -> reaches P x z -> nth_error (svars st) z = Some l -> option_map (state_at (mem s')) (nth_error P z) = Some l.
Proof. exact @shared_threads. Qed.
Print Assumptions C91_same_results.

(** [a] was called before: one thread may call [b] while another calls [c]. *)
Example C91_same_results_case :
  share_settled case_vars after_a [[1; 1]; [2]] /\ settled after_a (node_at case_vars 1) = false /\
  settled after_a (node_at case_vars 2) = false /\ reads_only su /\
  threads (fst (interleave su (turns (concat (repeat [0; 1] 30))) (mkConf (map (calling su case_vars) [[1; 1]; [2]]) after_a 4))) =
  [Ret [Ok (Some (VAtom 15)); Ok (Some (VAtom 15))]; Ret [Ok (Some (VAtom 20))]].
Proof.
  split; [|repeat split; vm_compute; reflexivity].
  assert (R0 : forall z, reaches case_vars 0 z -> z = 0).
  { intros z H. inversion H as [|? p y ? Hp Hy]; subst; [reflexivity|]. injection Hp as <-. destruct Hy. }
  assert (R1 : forall z, reaches case_vars 1 z -> z = 1 \/ z = 0).
  { intros z H. inversion H as [|? p y ? Hp Hy Hr]; subst; [now left|]. injection Hp as <-. destruct Hy as [<-|[]]. right. auto. }
  assert (R2 : forall z, reaches case_vars 2 z -> z = 2 \/ z = 0).
  { intros z H. inversion H as [|? p y ? Hp Hy Hr]; subst; [now left|]. injection Hp as <-. destruct Hy as [<-|[]]. right. auto. }
  intros i j xs ys x y z Hij Ei Ej Hx Hy Rx Ry.
  assert (z = 0) as ->; [|reflexivity].
  destruct i as [|[|[|i]]], j as [|[|[|j]]]; cbn in Ei, Ej; try discriminate; try (destruct Hij; reflexivity);
    injection Ei as <-; injection Ej as <-; cbn in Hx, Hy; intuition; subst;
    try (apply R1 in Rx; apply R2 in Ry); try (apply R2 in Rx; apply R1 in Ry); intuition congruence.
Qed.

(** Otherwise there is one, as soon as both have got something from a call that reaches
    what is not settled. *)
Theorem C91_race :
  forall (A W fid did : Type) (U : user A W fid did) (P : list (obj A fid did)), laid_out P ->
  forall (zero : A) (h : heap A) (thr : list (list nat)) w i j xs ys ki kj x y z ri rj vi vj sched s' tr,
  made zero (node_at P z) -> settled h (node_at P z) = false -> i <> j -> reaches P x z -> reaches P y z ->
  nth_error thr i = Some xs -> nth_error thr j = Some ys -> nth_error xs ki = Some x -> nth_error ys kj = Some y ->
  interleave U sched (mkConf (map (calling U P) thr) h w) = (s', tr) ->
  nth_error (threads s') i = Some (Ret ri) -> nth_error (threads s') j = Some (Ret rj) ->
  nth_error ri ki = Some (Ok vi) -> nth_error rj kj = Some (Ok vj) ->
  racy tr.
Proof. exact @shared_race. Qed.
Print Assumptions C91_race.

(** [a] was not called before. *)
Example C91_race_case :
  settled empty (node_at case_vars 0) = false /\ made 0 (node_at case_vars 0) /\ reaches case_vars 1 0 /\ reaches case_vars 2 0 /\
  threads (fst (interleave su (turns (concat (repeat [0; 1] 30))) (mkConf (map (calling su case_vars) [[1; 1]; [2]]) empty 4))) =
  [Ret [Ok (Some (VAtom 15)); Ok (Some (VAtom 15))]; Ret [Ok (Some (VAtom 20))]].
Proof.
  split; [reflexivity|]. split; [exact I|]. split; [eapply reaches_ref with (y := 0); [reflexivity|now left|constructor]|].
  split; [eapply reaches_ref with (y := 0); [reflexivity|now left|constructor]|]. vm_compute. reflexivity.
Qed.
