(** Proofs about programs that differ in a small, local way. *)
From Coq Require Import List Bool Arith Lia.
From Verif Require Import Value TupleAlg TupleAlgProofs LazyModel LazySpec LazySpec2 LazyProofs LazyGeneral LazyThms
  SharingSpec StreamThms SharingThms LazyExamples LawSpec.
Import ListNotations.

(** ** Programs whose operations are simulated *)
Section Programs.
Context {A W fid did : Type}.
Notation value := (val A).
Notation lz := (lz A fid did).
Notation event := (event A fid did).
Notation op := (op A W fid did).
Variable U : user A W fid did.
Variable R : lz -> lz -> Prop.
Variable R_op : op -> op -> Prop.
Variable R_log : list event -> list event -> Prop.
(** A property of the variables of the second program. *)
Variable I : lz -> Prop.

Hypothesis Hstep : forall l1 l2 w, R l1 l2 -> I l2 ->
  forall r1 l1' w1 g1 r2 l2' w2 g2, step U l1 w = (r1, l1', w1, g1) -> step U l2 w = (r2, l2', w2, g2) ->
  api_result r1 = api_result r2 /\ R l1' l2' /\ I l2' /\ w1 = w2 /\ R_log g1 g2.
Hypothesis Hlog : R_log [] [].

Definition R_state (s1 s2 : pstate A W fid did) : Prop :=
  Forall2 R (vars s1) (vars s2) /\ Forall I (vars s2) /\ world s1 = world s2.
Definition R_out (o1 o2 : output A fid did) : Prop := fst o1 = fst o2 /\ R_log (snd o1) (snd o2).

Lemma Forall2_nth {X Y} (P : X -> Y -> Prop) l1 l2 : Forall2 P l1 l2 -> forall n x,
  nth_error l1 n = Some x -> exists y, nth_error l2 n = Some y /\ P x y.
Proof.
  induction 1 as [|x y l1 l2 H Hl IH]; intros [|n] z E; try discriminate E.
  - injection E as <-. now exists y.
  - exact (IH n z E).
Qed.

Lemma Forall2_update {X Y} (P : X -> Y -> Prop) l1 l2 x y : Forall2 P l1 l2 -> P x y -> forall n,
  Forall2 P (update n x l1) (update n y l2).
Proof.
  intros H Hxy. induction H as [|a b l1 l2 H Hl IH]; intros [|n]; cbn; constructor; auto.
Qed.

Lemma Forall_update {X} (P : X -> Prop) l x : Forall P l -> P x -> forall n, Forall P (update n x l).
Proof. intros H Hx. induction H; intros [|n]; cbn; constructor; auto. Qed.

Lemma call_sim x s1 s2 s1' o1 : R_state s1 s2 -> exec U (Call x) s1 = Some (s1', o1) ->
  exists s2' o2, exec U (Call x) s2 = Some (s2', o2) /\ R_state s1' s2' /\ R_out o1 o2.
Proof.
  intros (Hv & Hi & Hw). cbn [exec].
  destruct (nth_error (vars s1) x) as [l1|] eqn:E1; [|discriminate].
  destruct (Forall2_nth _ _ _ Hv _ _ E1) as (l2 & E2 & HR). rewrite E2.
  pose proof (proj1 (Forall_forall _ _) Hi l2 (nth_error_In _ _ E2)) as HI.
  destruct (step U l1 (world s1)) as [[[r1 l1'] w1] g1] eqn:S1.
  destruct (step U l2 (world s2)) as [[[r2 l2'] w2] g2] eqn:S2.
  intros E. injection E as <- <-. rewrite <- Hw in S2.
  destruct (Hstep _ _ _ HR HI _ _ _ _ _ _ _ _ S1 S2) as (Ha & HR' & HI' & Hw' & Hg).
  eexists _, _. split; [reflexivity|]. repeat split; cbn; auto using Forall2_update, Forall_update.
  now rewrite Ha.
Qed.

Hypothesis Hexec : forall o1 o2, R_op o1 o2 -> forall s1 s2 s1' out1,
  R_state s1 s2 -> exec U o1 s1 = Some (s1', out1) ->
  exists s2' out2, exec U o2 s2 = Some (s2', out2) /\ R_state s1' s2' /\ R_out out1 out2.

Lemma run_sim p1 p2 : Forall2 R_op p1 p2 -> forall s1 s2 s1' outs1, R_state s1 s2 ->
  run U p1 s1 = Some (s1', outs1) ->
  exists s2' outs2, run U p2 s2 = Some (s2', outs2) /\ R_state s1' s2' /\ Forall2 R_out outs1 outs2.
Proof.
  induction 1 as [|o1 o2 p1 p2 Ho Hp IH]; intros s1 s2 s1' outs1 HR E; cbn [run] in *.
  - injection E as <- <-. exists s2, []. auto.
  - destruct (exec U o1 s1) as [[sm out1]|] eqn:E1; [|discriminate].
    destruct (Hexec _ _ Ho _ _ _ _ HR E1) as (sm2 & out2 & E2 & HRm & Hout).
    destruct (run U p1 sm) as [[se outs]|] eqn:E3; [|discriminate]. injection E as <- <-.
    destruct (IH _ _ _ _ HRm E3) as (se2 & outs2 & E4 & HRe & Houts).
    exists se2, (out2 :: outs2). rewrite E2, E4. auto.
Qed.

End Programs.

(** ** Binding a constant *)
Section Bind.
Context {A W fid did : Type}.
Notation value := (val A).
Notation lz := (lz A fid did).
Notation event := (event A fid did).
Notation op := (op A W fid did).
Variable U : user A W fid did.
Notation binds := (binds U).
Notation bind_op := (bind_op U).
Notation bind_event := (bind_event U).

Inductive bsim : lz -> lz -> Prop :=
| bsim_value v ch : bsim (LValue v ch) (LValue v ch)
| bsim_core g c ds ds' : Forall2 bsim ds ds' -> bsim (LCore g c ds) (LCore g c ds')
| bsim_bind f g v c ds1 ds2 ds1' ds2' : binds f (length ds1) (length ds2) v g ->
    Forall2 bsim ds1 ds1' -> Forall2 bsim ds2 ds2' ->
    bsim (LCore (FnUser f) c (ds1 ++ LValue v false :: ds2)) (LCore (FnUser g) c (ds1' ++ ds2')).

Lemma bsim_refl l : bsim l l.
Proof.
  induction l as [v ch|g c ds IH] using lz_ind'; constructor.
  induction IH; constructor; auto.
Qed.

Definition bsteps (X : Type) (s1 s2 : W -> res X * list lz * W * list event) : Prop := forall w,
  exists r ds1 ds2 w' g1 g2, s1 w = (r, ds1, w', g1) /\ s2 w = (r, ds2, w', g2) /\
    Forall2 bsim ds1 ds2 /\ Forall2 bind_event g1 g2.

Definition bstep (l1 l2 : lz) : Prop := forall w,
  exists r l1' l2' w' g1 g2, step U l1 w = (r, l1', w', g1) /\ step U l2 w = (r, l2', w', g2) /\
    bsim l1' l2' /\ Forall2 bind_event g1 g2.

Lemma bsteps_list ds1 ds2 : Forall2 bsim ds1 ds2 -> Forall2 bstep ds1 ds2 ->
  bsteps (list (value * bool)) (steps U ds1) (steps U ds2).
Proof.
  intros Hb H. revert Hb. induction H as [|d1 d2 ds1 ds2 Hd H IH]; intros Hb w.
  - exists (Ok []), [], [], w, [], []. auto.
  - inversion Hb as [|? ? ? ? Hd0 Hds0]; subst. rewrite !steps_cons.
    destruct (Hd w) as (r & d1' & d2' & w1 & g1 & g2 & E1 & E2 & Hs & Hg). rewrite E1, E2.
    destruct r as [x| |].
    + destruct (IH Hds0 w1) as (rs & ds1' & ds2' & w2 & h1 & h2 & F1 & F2 & Hs' & Hg'). rewrite F1, F2.
      do 6 eexists. split; [reflexivity|]. split; [reflexivity|]. split; [constructor; auto|now apply Forall2_app].
    + do 6 eexists. split; [reflexivity|]. split; [reflexivity|]. split; [constructor; auto|exact Hg].
    + do 6 eexists. split; [reflexivity|]. split; [reflexivity|]. split; [constructor; auto|exact Hg].
Qed.

Lemma steps_app ds1 ds2 w : steps U (ds1 ++ ds2) w =
  let '(r1, ds1', w1, l1) := steps U ds1 w in
  match r1 with
  | Ok rs1 => let '(r2, ds2', w2, l2) := steps U ds2 w1 in
      (match r2 with Ok rs2 => Ok (rs1 ++ rs2) | Exc => Exc | UB => UB end, ds1' ++ ds2', w2, l1 ++ l2)
  | Exc => (Exc, ds1' ++ ds2, w1, l1)
  | UB => (UB, ds1' ++ ds2, w1, l1)
  end.
Proof.
  revert w. induction ds1 as [|d ds1 IH]; intros w; cbn [app].
  - rewrite steps_nil. destruct (steps U ds2 w) as [[[[r2| |] ds2'] w2] l2]; reflexivity.
  - rewrite !steps_cons. destruct (step U d w) as [[[[x| |] d'] w1] l1]; try reflexivity.
    rewrite IH. destruct (steps U ds1 w1) as [[[[xs| |] ds1'] w2] l2]; try reflexivity.
    destruct (steps U ds2 w2) as [[[[ys| |] ds2'] w3] l3]; cbn; now rewrite ?app_assoc.
Qed.

Lemma steps_length ds : forall w r ds' w' lg, steps U ds w = (r, ds', w', lg) ->
  length ds' = length ds /\ forall rs, r = Ok rs -> length rs = length ds.
Proof.
  induction ds as [|d ds IH]; intros w r ds' w' lg E.
  - rewrite steps_nil in E. injection E as <- <- <- <-. split; [reflexivity|]. now intros rs [= <-].
  - rewrite steps_cons in E. destruct (step U d w) as [[[[x| |] d'] w1] l1].
    + destruct (steps U ds w1) as [[[rs ds''] w2] l2] eqn:F. injection E as <- <- <- <-.
      destruct (IH _ _ _ _ _ F) as [H1 H2]. split; [cbn; lia|]. intros rs' Er.
      destruct rs as [xs| |]; try discriminate Er. injection Er as <-. cbn. now rewrite (H2 xs).
    + injection E as <- <- <- <-. split; [reflexivity|discriminate].
    + injection E as <- <- <- <-. split; [reflexivity|discriminate].
Qed.

(** Deduction spreads only a single argument. *)
Lemma ctad_bind f n m v g (a b : list value) : binds f n m v g -> length a = n -> length b = m ->
  ctad_tuple as_tuple (a ++ v :: b) = a ++ v :: b /\ ctad_tuple as_tuple (a ++ b) = a ++ b.
Proof.
  intros (H1 & H0 & _) Ha Hb. destruct a as [|x [|y a]]; cbn in Ha |- *.
  - destruct b as [|z [|t b]]; cbn in Hb |- *; subst; try lia; auto.
    rewrite H0 by reflexivity. auto.
  - destruct b as [|z b]; cbn in Hb |- *; subst; try lia; auto.
  - auto.
Qed.

Lemma core_bind f n m v g c args1 args2 w : binds f n m v g -> length args1 = n -> length args2 = m ->
  exists r c' w' g1 g2, core U (FnUser f) c (args1 ++ (v, false) :: args2) w = (r, c', w', g1) /\
    core U (FnUser g) c (args1 ++ args2) w = (r, c', w', g2) /\ Forall2 bind_event g1 g2.
Proof.
  intros Hb H1 H2. rewrite !core_eq, !existsb_app. cbn [existsb snd orb].
  destruct (negb (is_some c) || (existsb snd args1 || existsb snd args2)).
  2:{ destruct c; do 5 eexists; repeat split; constructor. }
  rewrite !map_app. cbn [map fst].
  assert (La : length (map fst args1) = n) by now rewrite map_length.
  assert (Lb : length (map fst args2) = m) by now rewrite map_length.
  destruct (ctad_bind _ _ _ _ _ _ _ Hb La Lb) as [-> ->].
  cbn [call_fn]. destruct Hb as (Hn & H0 & Hs). rewrite (Hs _ _ w La Lb).
  destruct (sem U f _ w) as [r w'].
  assert (He : bind_event (EvCall f (map fst args1 ++ v :: map fst args2)) (EvCall g (map fst args1 ++ map fst args2))).
  { apply bind_event_call with n m; [now split|auto|auto]. }
  destruct (regularized r) as [x|].
  - do 5 eexists. split; [reflexivity|]. split; [reflexivity|]. constructor; [exact He|].
    destruct c; constructor; constructor.
  - do 5 eexists. split; [reflexivity|]. split; [reflexivity|]. constructor; [exact He|constructor].
Qed.

Lemma events_refl (l : list event) : Forall2 bind_event l l.
Proof. induction l; constructor; auto. constructor. Qed.

Lemma bsim_step l : forall l2, bsim l l2 -> bstep l l2.
Proof.
  induction l as [v ch|g c ds IH] using lz_ind'; intros l2 H w.
  - inversion H; subst. rewrite step_value. do 6 eexists. split; [reflexivity|]. split; [reflexivity|].
    split; [exact H|constructor].
  - assert (Hl : forall es es', (forall x, In x es -> In x ds) -> Forall2 bsim es es' -> Forall2 bstep es es').
    { intros es es' Hin Hf. induction Hf as [|x y es es' Hxy Hf IHf]; constructor.
      - apply (proj1 (Forall_forall _ _) IH x); [apply Hin; now left|exact Hxy].
      - apply IHf. intros z Hz. apply Hin. now right. }
    inversion H as [|? ? ? ds' Hds|f g' v ? ds1 ds2 ds1' ds2' Hb Hd1 Hd2]; subst.
    + rewrite !step_core.
      destruct (bsteps_list _ _ Hds (Hl _ _ (fun _ h => h) Hds) w)
        as (rs & e1 & e2 & w1 & h1 & h2 & E1 & E2 & Hs & Hg). rewrite E1, E2.
      destruct rs as [rs| |].
      * destruct (core U g c rs w1) as [[[r c'] w2] k]. do 6 eexists. split; [reflexivity|].
        split; [reflexivity|]. split; [now constructor|]. apply Forall2_app; auto using events_refl.
      * do 6 eexists. split; [reflexivity|]. split; [reflexivity|]. split; [now constructor|exact Hg].
      * do 6 eexists. split; [reflexivity|]. split; [reflexivity|]. split; [now constructor|exact Hg].
    + rewrite !step_core, !steps_app.
      assert (S1 : Forall2 bstep ds1 ds1').
      { apply Hl; [|exact Hd1]. intros x Hx. apply in_or_app. now left. }
      assert (S2 : Forall2 bstep ds2 ds2').
      { apply Hl; [|exact Hd2]. intros x Hx. apply in_or_app. right. now right. }
      destruct (bsteps_list _ _ Hd1 S1 w) as (rs1 & e1 & e1' & w1 & h1 & h1' & E1 & E1' & Hs1 & Hg1).
      rewrite E1, E1'. destruct (steps_length _ _ _ _ _ _ E1) as [L1 L1'].
      destruct rs1 as [rs1| |].
      * rewrite steps_cons, step_value.
        destruct (bsteps_list _ _ Hd2 S2 w1) as (rs2 & e2 & e2' & w2 & h2 & h2' & E2 & E2' & Hs2 & Hg2).
        rewrite E2, E2'. destruct (steps_length _ _ _ _ _ _ E2) as [L2 L2'].
        destruct rs2 as [rs2| |].
        -- destruct (core_bind _ _ _ _ _ c rs1 rs2 w2 Hb (L1' _ eq_refl) (L2' _ eq_refl))
             as (r & c' & w3 & k & k' & -> & -> & Hk).
           do 6 eexists. split; [reflexivity|]. split; [reflexivity|]. split.
           ++ constructor; auto. now rewrite L1, L2.
           ++ cbn [app]. apply Forall2_app; [now apply Forall2_app|exact Hk].
        -- do 6 eexists. split; [reflexivity|]. split; [reflexivity|]. split.
           ++ constructor; auto. now rewrite L1, L2.
           ++ now apply Forall2_app.
        -- do 6 eexists. split; [reflexivity|]. split; [reflexivity|]. split.
           ++ constructor; auto. now rewrite L1, L2.
           ++ now apply Forall2_app.
      * do 6 eexists. split; [reflexivity|]. split; [reflexivity|]. split; [|exact Hg1].
        constructor; auto. now rewrite L1.
      * do 6 eexists. split; [reflexivity|]. split; [reflexivity|]. split; [|exact Hg1].
        constructor; auto. now rewrite L1.
Qed.

Lemma deps_sim (R : lz -> lz -> Prop) (Hv : forall v ch, R (LValue v ch) (LValue v ch))
    (Hd : forall d, R (sample_node U d) (sample_node U d)) vs1 vs2 : Forall2 R vs1 vs2 ->
  forall ss os1, deps_of vs1 ss = Some os1 -> exists os2, deps_of vs2 ss = Some os2 /\
    Forall2 R (map (ensure_lazy U) os1) (map (ensure_lazy U) os2).
Proof.
  intros H. induction ss as [|s ss IH]; intros os1 E; cbn [deps_of] in *.
  - injection E as <-. exists []. split; [reflexivity|constructor].
  - destruct (dep_of vs1 s) as [o1|] eqn:Eo; [|discriminate].
    destruct (deps_of vs1 ss) as [os|]; [|discriminate]. injection E as <-.
    destruct (IH _ eq_refl) as (os2 & -> & Hos).
    destruct s as [x|d|v]; cbn [dep_of] in *.
    + destruct (nth_error vs1 x) as [l1|] eqn:E1; [|discriminate]. injection Eo as <-.
      destruct (Forall2_nth _ _ _ H _ _ E1) as (l2 & -> & Hl).
      eexists. split; [reflexivity|]. cbn [map option_map]. constructor; [exact Hl|exact Hos].
    + injection Eo as <-. eexists. split; [reflexivity|]. cbn [map]. constructor; [apply Hd|exact Hos].
    + injection Eo as <-. eexists. split; [reflexivity|]. cbn [map]. constructor; [apply Hv|exact Hos].
Qed.

Lemma deps_app vs ss1 ss2 : deps_of vs (ss1 ++ ss2) =
  match deps_of vs ss1, deps_of (A:=A) (fid:=fid) (did:=did) vs ss2 with
  | Some a, Some b => Some (a ++ b) | _, _ => None end.
Proof.
  induction ss1 as [|s ss1 IH]; cbn [app deps_of].
  - now destruct (deps_of vs ss2).
  - rewrite IH. destruct (dep_of vs s); [|reflexivity].
    destruct (deps_of vs ss1); [|reflexivity]. now destruct (deps_of vs ss2).
Qed.

Lemma deps_length vs ss : forall os, deps_of (A:=A) (fid:=fid) (did:=did) vs ss = Some os -> length os = length ss.
Proof.
  induction ss as [|s ss IH]; intros os E; cbn [deps_of] in E.
  - now injection E as <-.
  - destruct (dep_of vs s); [|discriminate]. destruct (deps_of vs ss); [|discriminate].
    injection E as <-. cbn. now rewrite IH.
Qed.

Notation Rs := (R_state bsim (fun _ => True)).
Notation Ro := (R_out (Forall2 bind_event)).

Lemma Forall_true {X} (l : list X) : Forall (fun _ => True) l.
Proof. now apply Forall_forall. Qed.

Lemma bind_exec o1 o2 : bind_op o1 o2 -> forall s1 s2 s1' out1, Rs s1 s2 ->
  exec U o1 s1 = Some (s1', out1) -> exists s2' out2, exec U o2 s2 = Some (s2', out2) /\ Rs s1' s2' /\ Ro out1 out2.
Proof.
  intros Ho s1 s2 s1' out1 HR E.
  assert (Hdeps := deps_sim bsim bsim_value (fun d => bsim_refl (sample_node U d)) _ _ (proj1 HR)).
  destruct Ho as [o|f n m v g ss1 ss2 Hb L1 L2].
  - destruct o as [f ss|x|x|h].
    + destruct HR as (Hv & Hi & Hw). cbn [exec] in *.
      destruct (deps_of (vars s1) ss) as [os1|] eqn:Ed; [|discriminate]. injection E as <- <-.
      destruct (Hdeps _ _ Ed) as (os2 & -> & Hos).
      do 2 eexists. split; [reflexivity|]. repeat split; cbn; auto using Forall_true.
      apply Forall2_app; [exact Hv|]. constructor; [|constructor]. now constructor.
    + destruct HR as (Hv & Hi & Hw). cbn [exec] in *.
      destruct (nth_error (vars s1) x) as [l1|] eqn:E1; [|discriminate]. injection E as <- <-.
      destruct (Forall2_nth _ _ _ Hv _ _ E1) as (l2 & -> & Hl).
      do 2 eexists. split; [reflexivity|]. repeat split; cbn; auto using Forall_true.
      apply Forall2_app; [exact Hv|]. constructor; [exact Hl|constructor].
    + refine (call_sim U bsim (Forall2 bind_event) (fun _ => True) _ x s1 s2 s1' out1 HR E).
      intros l1 l2 w Hl _ r1 l1' w1 g1 r2 l2' w2 g2 S1 S2.
      destruct (bsim_step _ _ Hl w) as (r & l1'' & l2'' & w' & g1' & g2' & T1 & T2 & Hs & Hg).
      rewrite S1 in T1. rewrite S2 in T2. injection T1 as <- <- <- <-. injection T2 as <- <- <- <-. auto.
    + destruct HR as (Hv & Hi & Hw). cbn [exec] in *. injection E as <- <-.
      do 2 eexists. split; [reflexivity|]. repeat split; cbn; auto. now rewrite Hw.
  - destruct HR as (Hv & Hi & Hw). cbn [exec] in *. rewrite deps_app in E |- *.
    destruct (deps_of (vars s1) ss1) as [os1|] eqn:E1; [|discriminate].
    cbn [deps_of dep_of] in E. destruct (deps_of (vars s1) ss2) as [os2|] eqn:E2; [|discriminate].
    injection E as <- <-.
    destruct (Hdeps _ _ E1) as (os1' & -> & H1). destruct (Hdeps _ _ E2) as (os2' & -> & H2).
    do 2 eexists. split; [reflexivity|]. repeat split; cbn; auto using Forall_true.
    apply Forall2_app; [exact Hv|]. constructor; [|constructor].
    unfold mk_lazy. rewrite !map_app. cbn [map]. apply bsim_bind; auto.
    now rewrite !map_length, (deps_length _ _ _ E1), (deps_length _ _ _ E2), L1, L2.
Qed.

(** C82 (1) *)
Lemma bind_run p1 p2 : Forall2 bind_op p1 p2 -> forall w s1 outs1,
  run U p1 (mkState [] w) = Some (s1, outs1) ->
  exists s2 outs2, run U p2 (mkState [] w) = Some (s2, outs2) /\ world s2 = world s1 /\
    map fst outs2 = map fst outs1 /\ Forall2 (fun o1 o2 => Forall2 bind_event (snd o1) (snd o2)) outs1 outs2.
Proof.
  intros Hp w s1 outs1 E.
  assert (HR : Rs (mkState [] w) (mkState [] w)) by (repeat split; constructor).
  destruct (run_sim U bsim bind_op _ _ bind_exec p1 p2 Hp _ _ _ _ HR E) as (s2 & outs2 & E2 & (_ & _ & Hw) & Ho).
  exists s2, outs2. repeat split; auto.
  - clear -Ho. induction Ho as [|a b ? ? [H _] ? IH]; cbn; congruence.
  - clear -Ho. induction Ho as [|a b ? ? [_ H] ? IH]; constructor; auto.
Qed.

End Bind.

(** ** Identities *)
Section Ident.
Context {A W fid did : Type}.
Notation value := (val A).
Notation lz := (lz A fid did).
Notation event := (event A fid did).
Notation op := (op A W fid did).
Variable U : user A W fid did.
Variable ident : fid -> Prop.
Hypothesis Heq : sound_eq U.
Hypothesis Hsimple : simple_user U.
Hypothesis Hident : identities U ident.
Notation ident_op := (ident_op (A:=A) (W:=W) (did:=did) ident).
Notation ident_log := (ident_log (A:=A) (did:=did) ident).

Lemma log_app a b : ident_log a b -> forall c d, ident_log c d -> ident_log (a ++ c) (b ++ d).
Proof.
  induction 1; intros c d Hc; cbn.
  - exact Hc.
  - apply ident_event. auto.
  - apply ident_first; auto.
  - apply ident_again; auto.
Qed.
Lemma log_refl l : ident_log l l.
Proof. induction l; [apply ident_nil|apply ident_event; auto]. Qed.

(** A node with the cache [c], if any a simple value. *)
Definition simple_cache (c : option value) : Prop := forall v, c = Some v -> simple v.

(** The same caches everywhere, or: caches of identities are missing, and so are those of all
    nodes over them. *)
Inductive sync : lz -> lz -> Prop :=
| sync_value v ch : sync (LValue v ch) (LValue v ch)
| sync_some g c ds ds' : Forall2 sync ds ds' -> sync (LCore g (Some c) ds) (LCore g (Some c) ds')
| sync_none g ds ds' : Forall2 loose ds ds' -> sync (LCore g None ds) (LCore g None ds')
| sync_ident i c d g ds : ident i -> simple_cache c -> sync d (LCore g c ds) ->
    sync (LCore (FnUser i) c [d]) (LCore g c ds)
with loose : lz -> lz -> Prop :=
| loose_sync l1 l2 : sync l1 l2 -> loose l1 l2
| loose_ident i d g c ds : ident i -> simple_cache c -> loose d (LCore g c ds) ->
    loose (LCore (FnUser i) None [d]) (LCore g c ds).

Lemma sync_refl l : sync l l.
Proof.
  induction l as [v ch|g c ds IH] using lz_ind'; [constructor|].
  destruct c as [c|]; constructor; induction IH; constructor; auto. now constructor.
Qed.

(** What a node does to its cache. *)
Lemma core_result g c args w r c' w' lg : simple_cache c -> core U g c args w = (r, c', w', lg) ->
  match r with
  | Ok (v, b) => c' = Some v /\ simple v /\ (b = opt_ne (aeq U) c v \/ (c = Some v /\ b = false))
  | _ => c' = c
  end.
Proof.
  intros Hc. rewrite core_eq.
  destruct (negb (is_some c) || existsb snd args) eqn:E.
  - destruct (call_fn U g _ w) as [[[v|] w1] l1] eqn:Ec; intros H; injection H as <- <- <- <-; [|reflexivity].
    split; [reflexivity|]. split; [|now left].
    destruct g as [f|d]; cbn [call_fn] in Ec.
    + destruct (sem U f _ w) as [[[x|]|] w2] eqn:Es; cbn [regularized] in Ec; try discriminate;
        injection Ec as <- <- <-; [exact (proj1 Hsimple _ _ _ _ _ Es)|now split].
    + destruct (dsem U d w) as [r0 w2] eqn:Ed. injection Ec as -> <- <-. exact (proj2 Hsimple _ _ _ _ Ed).
  - destruct c as [c|]; [|discriminate]. intros H; injection H as <- <- <- <-.
    repeat split; auto; now apply Hc.
Qed.

Lemma step_result g c ds w r l' w' lg : simple_cache c -> step U (LCore g c ds) w = (r, l', w', lg) ->
  exists c' ds', l' = LCore g c' ds' /\ simple_cache c' /\
  match r with
  | Ok (v, b) => c' = Some v /\ simple v /\ (b = opt_ne (aeq U) c v \/ (c = Some v /\ b = false))
  | _ => c' = c
  end.
Proof.
  intros Hc. rewrite step_core. destruct (steps U ds w) as [[[[rs| |] ds'] w1] l1].
  - destruct (core U g c rs w1) as [[[r1 c1] w2] l2] eqn:E. intros H. injection H as <- <- <- <-.
    pose proof (core_result _ _ _ _ _ _ _ _ Hc E) as Hr. exists c1, ds'. split; [reflexivity|].
    split; [|exact Hr]. destruct r1 as [[v b]| |]; [|now subst|now subst].
    destruct Hr as (-> & Hv & _). now intros ? [= <-].
  - intros H. injection H as <- <- <- <-. exists c, ds'. auto.
  - intros H. injection H as <- <- <- <-. exists c, ds'. auto.
Qed.

Lemma ident_core i c v b w : ident i -> simple v ->
  (forall u, c = Some u -> b = false -> u = v) ->
  exists lg, core U (FnUser i) c [(v, b)] w =
    (Ok (v, match c with Some _ => if b then opt_ne (aeq U) c v else false | None => opt_ne (aeq U) c v end),
     Some v, w, lg) /\ ident_log lg [].
Proof.
  intros Hi Ht Hu. rewrite core_eq. cbn [existsb snd map fst ctad_tuple]. rewrite (proj1 Ht), orb_false_r.
  cbn [call_fn]. rewrite (Hident i Hi v w Ht). cbn [regularized].
  destruct c as [u|]; cbn [is_some negb orb].
  - destruct b.
    + eexists. split; [reflexivity|]. cbn [app]. apply ident_again; [exact Hi|constructor].
    + rewrite (Hu u eq_refl eq_refl). eexists. split; [reflexivity|constructor].
  - eexists. split; [reflexivity|]. cbn [app]. apply ident_first; [exact Hi|constructor].
Qed.

Lemma not_changed u v : simple v -> opt_ne (aeq U) (Some u) v = false -> u = v.
Proof. intros [_ Hn] E. apply opt_ne_unnested in E; [|exact Hn]. exact (veq_sound _ Heq _ _ E). Qed.

Definition sync_step (l1 l2 : lz) : Prop := forall w,
  exists r l1' l2' w' g1 g2, step U l1 w = (r, l1', w', g1) /\ step U l2 w = (r, l2', w', g2) /\
    sync l1' l2' /\ ident_log g1 g2.

(** With [R] the states after an exception. *)
Definition loose_res {X} (val1 : X -> X -> Prop) {Y} (S L : Y -> Y -> Prop) (r1 r2 : res X) (l1 l2 : Y) : Prop :=
  match r1, r2 with
  | Ok x1, Ok x2 => val1 x1 x2 /\ S l1 l2
  | Exc, Exc | UB, UB => L l1 l2
  | _, _ => False
  end.
Definition loose_step (l1 l2 : lz) : Prop := forall w,
  exists r1 r2 l1' l2' w' g1 g2, step U l1 w = (r1, l1', w', g1) /\ step U l2 w = (r2, l2', w', g2) /\
    loose_res (fun x y => fst x = fst y) sync loose r1 r2 l1' l2' /\ ident_log g1 g2.

Lemma sync_steps ds1 ds2 : Forall2 sync ds1 ds2 -> Forall2 sync_step ds1 ds2 -> forall w,
  exists r ds1' ds2' w' g1 g2, steps U ds1 w = (r, ds1', w', g1) /\ steps U ds2 w = (r, ds2', w', g2) /\
    Forall2 sync ds1' ds2' /\ ident_log g1 g2.
Proof.
  intros Hb H. revert Hb. induction H as [|d1 d2 ds1 ds2 Hd H IH]; intros Hb w.
  - exists (Ok []), [], [], w, [], []. repeat split; constructor.
  - inversion Hb as [|? ? ? ? Hd0 Hds0]; subst. rewrite !steps_cons.
    destruct (Hd w) as (r & d1' & d2' & w1 & g1 & g2 & E1 & E2 & Hs & Hg). rewrite E1, E2.
    destruct r as [x| |].
    + destruct (IH Hds0 w1) as (rs & ds1' & ds2' & w2 & h1 & h2 & F1 & F2 & Hs' & Hg'). rewrite F1, F2.
      do 6 eexists. split; [reflexivity|]. split; [reflexivity|]. split; [constructor; auto|now apply log_app].
    + do 6 eexists. split; [reflexivity|]. split; [reflexivity|]. split; [constructor; auto|exact Hg].
    + do 6 eexists. split; [reflexivity|]. split; [reflexivity|]. split; [constructor; auto|exact Hg].
Qed.

Lemma loose_steps ds1 ds2 : Forall2 loose ds1 ds2 -> Forall2 loose_step ds1 ds2 -> forall w,
  exists r1 r2 ds1' ds2' w' g1 g2, steps U ds1 w = (r1, ds1', w', g1) /\ steps U ds2 w = (r2, ds2', w', g2) /\
    loose_res (fun x y => map fst x = map fst y) (Forall2 sync) (Forall2 loose) r1 r2 ds1' ds2' /\ ident_log g1 g2.
Proof.
  intros Hb H. revert Hb. induction H as [|d1 d2 ds1 ds2 Hd H IH]; intros Hb w.
  - exists (Ok []), (Ok []), [], [], w, [], []. repeat split; constructor.
  - inversion Hb as [|? ? ? ? Hd0 Hds0]; subst. rewrite !steps_cons.
    destruct (Hd w) as (r1 & r2 & d1' & d2' & w1 & g1 & g2 & E1 & E2 & Hs & Hg). rewrite E1, E2.
    destruct r1 as [x1| |], r2 as [x2| |]; cbn [loose_res] in Hs; try contradiction.
    + destruct Hs as [Hx Hs].
      destruct (IH Hds0 w1) as (rs1 & rs2 & ds1' & ds2' & w2 & h1 & h2 & F1 & F2 & Hs' & Hg'). rewrite F1, F2.
      do 7 eexists. split; [reflexivity|]. split; [reflexivity|]. split; [|now apply log_app].
      destruct rs1 as [xs1| |], rs2 as [xs2| |]; cbn [loose_res] in Hs' |- *; try contradiction.
      * destruct Hs' as [Hm Hs']. split; [cbn; congruence|now constructor].
      * constructor; [now constructor|exact Hs'].
      * constructor; [now constructor|exact Hs'].
    + do 7 eexists. split; [reflexivity|]. split; [reflexivity|]. split; [constructor; auto|exact Hg].
    + do 7 eexists. split; [reflexivity|]. split; [reflexivity|]. split; [constructor; auto|exact Hg].
Qed.

(** One step of an identity over [d]. *)
Lemma ident_step i c d w : step U (LCore (FnUser i) c [d]) w =
  let '(r, d', w1, l1) := step U d w in
  match r with
  | Ok x => let '(r2, c', w2, l2) := core U (FnUser i) c [x] w1 in (r2, LCore (FnUser i) c' [d'], w2, l1 ++ l2)
  | Exc => (Exc, LCore (FnUser i) c [d'], w1, l1)
  | UB => (UB, LCore (FnUser i) c [d'], w1, l1)
  end.
Proof.
  rewrite step_core, steps_cons. destruct (step U d w) as [[[[x| |] d'] w1] l1]; try reflexivity.
  rewrite steps_nil. now rewrite app_nil_r.
Qed.

Lemma log_right g g2 lg : ident_log g g2 -> ident_log lg [] -> ident_log (g ++ lg) g2.
Proof. intros H1 H2. rewrite <- (app_nil_r g2). now apply log_app. Qed.

Lemma ident_sim l : forall l2, (sync l l2 -> sync_step l l2) /\ (loose l l2 -> loose_step l l2).
Proof.
  induction l as [v ch|g c ds IH] using lz_ind'; intros l2.
  - assert (Hs : sync (LValue v ch) l2 -> sync_step (LValue v ch) l2).
    { intros H w. inversion H; subst. rewrite step_value. do 6 eexists. repeat split; constructor. }
    split; [exact Hs|]. intros H w. inversion H as [? ? H'|]; subst.
    destruct (Hs H' w) as (r & l1' & l2' & w' & g1 & g2 & E1 & E2 & Hs' & Hg).
    exists r, r, l1', l2', w', g1, g2. repeat split; auto.
    destruct r; cbn; auto; now constructor.
  - assert (Hl1 : forall es', Forall2 sync ds es' -> Forall2 sync_step ds es').
    { intros es'. revert IH. clear. intros IH Hf. induction Hf; constructor; inversion IH; subst; auto.
      now apply H2. }
    assert (Hl2 : forall es', Forall2 loose ds es' -> Forall2 loose_step ds es').
    { intros es'. revert IH. clear. intros IH Hf. induction Hf; constructor; inversion IH; subst; auto.
      now apply H2. }
    assert (Hs : sync (LCore g c ds) l2 -> sync_step (LCore g c ds) l2).
    { intros H w. inversion H as [|? c0 ? ds' Hds|? ? ds' Hds|i ? d g' ds' Hi Hc Hd]; subst.
      - rewrite !step_core.
        destruct (sync_steps _ _ Hds (Hl1 _ Hds) w) as (rs & e1 & e2 & w1 & h1 & h2 & E1 & E2 & Hs & Hg).
        rewrite E1, E2. destruct rs as [rs| |].
        + destruct (core U g (Some c0) rs w1) as [[[r c'] w2] k] eqn:Ek. do 6 eexists. split; [reflexivity|].
          split; [reflexivity|]. split; [|apply log_app; auto using log_refl].
          assert (c' <> None).
          { rewrite core_eq in Ek. destruct (_ || _).
            - destruct (call_fn U g _ w1) as [[[v|] ?] ?]; injection Ek as <- <- <- <-; discriminate.
            - injection Ek as <- <- <- <-; discriminate. }
          destruct c' as [c'|]; [now constructor|congruence].
        + do 6 eexists. split; [reflexivity|]. split; [reflexivity|]. split; [now constructor|exact Hg].
        + do 6 eexists. split; [reflexivity|]. split; [reflexivity|]. split; [now constructor|exact Hg].
      - rewrite !step_core.
        destruct (loose_steps _ _ Hds (Hl2 _ Hds) w) as (r1 & r2 & e1 & e2 & w1 & h1 & h2 & E1 & E2 & Hs & Hg).
        rewrite E1, E2.
        destruct r1 as [x1| |], r2 as [x2| |]; cbn [loose_res] in Hs; try contradiction.
        + destruct Hs as [Hx Hs].
          assert (Ec : core U g None x1 w1 = core U g None x2 w1).
          { rewrite !core_eq. cbn [is_some negb orb]. now rewrite Hx. }
          rewrite Ec. destruct (core U g None x2 w1) as [[[r c'] w2] k]. do 6 eexists. split; [reflexivity|].
          split; [reflexivity|]. split; [|apply log_app; auto using log_refl].
          destruct c' as [c'|]; [now constructor|]. constructor.
          clear -Hs. induction Hs; constructor; auto. now constructor.
        + do 6 eexists. split; [reflexivity|]. split; [reflexivity|]. split; [now constructor|exact Hg].
        + do 6 eexists. split; [reflexivity|]. split; [reflexivity|]. split; [now constructor|exact Hg].
      - rewrite ident_step. inversion IH as [|? ? IHd _]; subst.
        destruct (proj1 (IHd _) Hd w) as (r & d' & l2' & w1 & h1 & h2 & E1 & E2 & Hs & Hg). rewrite E1, E2.
        destruct (step_result _ _ _ _ _ _ _ _ Hc E2) as (c' & ds'' & -> & Hc' & Hr).
        destruct r as [[v b]| |].
        + destruct Hr as (-> & Hv & Hb).
          destruct (ident_core i c v b w1 Hi Hv) as (lg & -> & Hlg).
          { intros u -> ->. destruct Hb as [Hb|[Hb _]]; [now apply not_changed|now injection Hb]. }
          do 6 eexists. split; [reflexivity|]. split.
          { do 3 f_equal. f_equal. f_equal. destruct c as [u|].
            - destruct b; [|reflexivity]. destruct Hb as [Hb|[_ Hb]]; [now rewrite <- Hb|discriminate].
            - destruct Hb as [Hb|[Hb _]]; [exact Hb|discriminate]. }
          split; [now constructor|now apply log_right].
        + subst c'. do 6 eexists. split; [reflexivity|]. split; [reflexivity|]. split; [now constructor|exact Hg].
        + subst c'. do 6 eexists. split; [reflexivity|]. split; [reflexivity|]. split; [now constructor|exact Hg]. }
    split; [exact Hs|]. intros H w. inversion H as [? ? H'|i d g' c' ds' Hi Hc Hd]; subst.
    + destruct (Hs H' w) as (r & l1' & l2' & w' & g1 & g2 & E1 & E2 & Hs' & Hg).
      exists r, r, l1', l2', w', g1, g2. repeat split; auto.
      destruct r; cbn; auto; now constructor.
    + rewrite ident_step. inversion IH as [|? ? IHd _]; subst.
      destruct (proj2 (IHd _) Hd w) as (r1 & r2 & d' & l2' & w1 & h1 & h2 & E1 & E2 & Hs' & Hg). rewrite E1, E2.
      destruct (step_result _ _ _ _ _ _ _ _ Hc E2) as (c1 & ds'' & -> & Hc' & Hr).
      destruct r1 as [[v1 b1]| |], r2 as [[v2 b2]| |]; cbn [loose_res] in Hs'; try contradiction.
      * destruct Hs' as [Hx Hs']. cbn [fst] in Hx. subst v2. destruct Hr as (-> & Hv & Hb).
        destruct (ident_core i None v1 b1 w1 Hi Hv) as (lg & -> & Hlg); [discriminate|].
        do 7 eexists. split; [reflexivity|]. split; [reflexivity|]. split; [|now apply log_right].
        split; [reflexivity|now constructor].
      * subst c1. do 7 eexists. split; [reflexivity|]. split; [reflexivity|]. split; [now constructor|exact Hg].
      * subst c1. do 7 eexists. split; [reflexivity|]. split; [reflexivity|]. split; [now constructor|exact Hg].
Qed.

(** Variables are nodes. *)
Definition node (l : lz) : Prop := match l with LCore _ c _ => simple_cache c | LValue _ _ => False end.

Notation Rs := (R_state loose node).
Notation Ro := (R_out ident_log).

Lemma ident_exec o1 o2 : ident_op o1 o2 -> forall s1 s2 s1' out1, Rs s1 s2 ->
  exec U o1 s1 = Some (s1', out1) -> exists s2' out2, exec U o2 s2 = Some (s2', out2) /\ Rs s1' s2' /\ Ro out1 out2.
Proof.
  intros Ho s1 s2 s1' out1 HR E.
  assert (Hdeps := deps_sim U loose (fun v ch => loose_sync _ _ (sync_value v ch))
    (fun d => loose_sync _ _ (sync_refl (sample_node U d))) _ _ (proj1 HR)).
  assert (H0 : ident_log [] []) by constructor.
  destruct Ho as [o|i x Hi].
  - destruct o as [f ss|x|x|h].
    + destruct HR as (Hv & Hi & Hw). cbn [exec] in *.
      destruct (deps_of (vars s1) ss) as [os1|] eqn:Ed; [|discriminate]. injection E as <- <-.
      destruct (Hdeps _ _ Ed) as (os2 & -> & Hos).
      do 2 eexists. split; [reflexivity|]. repeat split; cbn; auto.
      * apply Forall2_app; [exact Hv|]. constructor; [|constructor]. now do 2 constructor.
      * apply Forall_app. split; [exact Hi|]. constructor; [|constructor]. now intros ? ?.
    + destruct HR as (Hv & Hi & Hw). cbn [exec] in *.
      destruct (nth_error (vars s1) x) as [l1|] eqn:E1; [|discriminate]. injection E as <- <-.
      destruct (Forall2_nth _ _ _ Hv _ _ E1) as (l2 & E2 & Hl). rewrite E2.
      do 2 eexists. split; [reflexivity|]. repeat split; cbn; auto.
      * apply Forall2_app; [exact Hv|]. constructor; [exact Hl|constructor].
      * apply Forall_app. split; [exact Hi|]. constructor; [|constructor].
        exact (proj1 (Forall_forall _ _) Hi l2 (nth_error_In _ _ E2)).
    + refine (call_sim U loose ident_log node _ x s1 s2 s1' out1 HR E).
      intros l1 l2 w Hl Hn r1 l1' w1 g1 r2 l2' w2 g2 S1 S2.
      destruct (proj2 (ident_sim l1 l2) Hl w) as (q1 & q2 & l1'' & l2'' & w' & g1' & g2' & T1 & T2 & Hs & Hg).
      rewrite S1 in T1. rewrite S2 in T2. injection T1 as <- <- <- <-. injection T2 as <- <- <- <-.
      destruct l2 as [v ch|g c ds]; [contradiction|].
      destruct (step_result _ _ _ _ _ _ _ _ Hn S2) as (c' & ds' & -> & Hc' & _).
      destruct r1 as [[v1 b1]| |], r2 as [[v2 b2]| |]; cbn [loose_res fst] in Hs; try contradiction;
        [|exact (conj eq_refl (conj Hs (conj Hc' (conj eq_refl Hg))))..].
      destruct Hs as [-> Hs]. exact (conj eq_refl (conj (loose_sync _ _ Hs) (conj Hc' (conj eq_refl Hg)))).
    + destruct HR as (Hv & Hi & Hw). cbn [exec] in *. injection E as <- <-.
      do 2 eexists. split; [reflexivity|]. repeat split; cbn; auto. now rewrite Hw.
  - destruct HR as (Hv & Hn & Hw). cbn [exec deps_of dep_of] in *.
    destruct (nth_error (vars s1) x) as [l1|] eqn:E1; [|discriminate]. injection E as <- <-.
    destruct (Forall2_nth _ _ _ Hv _ _ E1) as (l2 & E2 & Hl). rewrite E2.
    pose proof (proj1 (Forall_forall _ _) Hn l2 (nth_error_In _ _ E2)) as Hl2.
    do 2 eexists. split; [reflexivity|]. repeat split; cbn; auto.
    + apply Forall2_app; [exact Hv|]. constructor; [|constructor].
      destruct l2 as [v ch|g c ds]; [contradiction|]. now constructor.
    + apply Forall_app. split; [exact Hn|]. constructor; [exact Hl2|constructor].
Qed.

(** C82 (2) *)
Lemma ident_run p1 p2 : Forall2 ident_op p1 p2 -> forall w s1 outs1,
  run U p1 (mkState [] w) = Some (s1, outs1) ->
  exists s2 outs2, run U p2 (mkState [] w) = Some (s2, outs2) /\ world s2 = world s1 /\
    map fst outs2 = map fst outs1 /\ Forall2 (fun o1 o2 => ident_log (snd o1) (snd o2)) outs1 outs2.
Proof.
  intros Hp w s1 outs1 E.
  assert (HR : Rs (mkState [] w) (mkState [] w)) by (repeat split; constructor).
  destruct (run_sim U loose ident_op _ _ ident_exec p1 p2 Hp _ _ _ _ HR E) as (s2 & outs2 & E2 & (_ & _ & Hw) & Ho).
  exists s2, outs2. repeat split; auto.
  - clear -Ho. induction Ho as [|a b ? ? [H _] ? IH]; cbn; congruence.
  - clear -Ho. induction Ho as [|a b ? ? [_ H] ? IH]; constructor; auto.
Qed.

End Ident.

(** ** Fusion *)
Section Fusion.
Context {A W fid did : Type}.
Notation value := (val A).
Notation expr := (expr A fid did).
Variable U : user A W fid did.
Variable pf : fid -> list value -> option value.
Variable rd : did -> W -> value.
Hypothesis Hpure : pure_user U pf rd.
Hypothesis Hexact : exact_eq U.
Notation eqb := (veq (aeq U)).
Notation eval := (eval pf rd).
Notation fused := (fused (did:=did) pf).
Notation fused_log := (fused_log (did:=did) pf).

Definition evals (o : option W) (e : expr) (w : W) : list (fid + did) :=
  evaluations (expected pf rd eqb (since o e) w).
Definition need (o : option W) (es : list expr) (w : W) : bool :=
  match o with None => true | Some w0 => existsb (fun e => negb (eqb (eval e w0) (eval e w))) es end.

Lemma evaluations_app (a b : list (event A fid did)) : evaluations (a ++ b) = evaluations a ++ evaluations b.
Proof. apply flat_map_app. Qed.

Lemma eqb_refl v : eqb v v = true.
Proof. now apply (veq_exact (aeq U) Hexact). Qed.

Lemma differs_since w0 (e : expr) w : differs pf rd eqb (since (Some w0) e) w = negb (eqb (eval e w0) (eval e w)).
Proof.
  unfold differs. destruct e as [v|d|f es].
  - cbn. now rewrite eqb_refl.
  - reflexivity.
  - change (last_of (since (Some w0) (EApp f es))) with (Some w0). rewrite since_erase. reflexivity.
Qed.

Lemma evals_compare o (e : expr) w : evaluations (compare_last pf rd (since o e) w) = [].
Proof. unfold compare_last. now destruct (last_of (since o e)). Qed.

Lemma evals_app o f (es : list expr) w :
  evals o (EApp f es) w = flat_map (fun e => evals o e w) es ++ perhaps (need o es w) f.
Proof.
  unfold evals at 1. cbn [since expected]. rewrite evaluations_app. f_equal.
  - induction es as [|e es IH]; [reflexivity|]. cbn [map flat_map]. rewrite evaluations_app, IH. reflexivity.
  - assert (E : match o with None => true | Some _ => existsb (fun t => differs pf rd eqb t w) (map (since o) es) end
              = need o es w).
    { destruct o as [w0|]; [|reflexivity]. unfold need. induction es as [|e es IH]; [reflexivity|].
      cbn [map existsb]. now rewrite differs_since, IH. }
    rewrite E. destruct (need o es w); [|reflexivity]. cbn [perhaps].
    change (evaluations (?x :: ?l)) with (evaluations [x] ++ evaluations l).
    change (TApp f o (map (since o) es)) with (since o (EApp f es)). now rewrite evals_compare.
Qed.

Lemma need_app o es1 es2 w : o <> None -> need o (es1 ++ es2) w = need o es1 w || need o es2 w.
Proof. destruct o as [w0|]; [|congruence]. intros _. apply existsb_app. Qed.

(** Values that do not differ. *)
Lemma not_needed w0 es w : need (Some w0) es w = false -> map (fun e => eval e w0) es = map (fun e => eval e w) es.
Proof.
  unfold need. induction es as [|e es IH]; [reflexivity|]. cbn [existsb map]. intros H.
  apply orb_false_iff in H as [H1 H2]. rewrite IH by exact H2. f_equal.
  apply negb_false_iff in H1. now apply (veq_exact (aeq U) Hexact) in H1.
Qed.

Definition fuse_ok (e : expr) : Prop := forall e2, fused e e2 ->
  (forall w, eval e w = eval e2 w) /\ (forall o w, fused_log (evals o e w) (evals o e2 w)).

Lemma fuse_list es es2 : Forall fuse_ok es -> Forall2 fused es es2 ->
  (forall w, map (fun e => eval e w) es = map (fun e => eval e w) es2) /\
  (forall o w, need o es w = need o es2 w) /\
  (forall o w, fused_log (flat_map (fun e => evals o e w) es) (flat_map (fun e => evals o e w) es2)).
Proof.
  intros Hok H. induction H as [|e e2 es es2 He H IH].
  - repeat split; auto. intros. constructor.
  - inversion Hok as [|? ? H1 H2]; subst. destruct (IH H2) as (Hm & Hn & Hl). destruct (H1 e2 He) as (Hv & Hg).
    repeat split.
    + intros w. cbn [map]. now rewrite Hv, Hm.
    + intros [w0|] w; [|reflexivity]. specialize (Hn (Some w0) w). unfold need in *. cbn [existsb].
      now rewrite !Hv, Hn.
    + intros o w. cbn [flat_map]. apply fused_join; auto.
Qed.

Lemma fuse_all (e : expr) : fuse_ok e /\ match e with EApp _ es => Forall fuse_ok es | _ => True end.
Proof.
  induction e as [v|d|f es IH] using expr_ind_deps.
  - split; [|exact I]. intros e2 H. inversion H; subst. split; [reflexivity|]. intros. constructor.
  - split; [|exact I]. intros e2 H. inversion H; subst. split; [reflexivity|]. intros o w.
    replace (evals o (EFun d) w) with ([inr d] : list (fid + did)); [constructor|].
    unfold evals. cbn [since expected]. change (evaluations (?x :: ?l)) with (evaluations [x] ++ evaluations l).
    change (TFun d o) with (since o (EFun (A:=A) (fid:=fid) d)). now rewrite evals_compare.
  - assert (Hes : Forall fuse_ok es) by (eapply Forall_impl; [|exact IH]; now intros a [Ha _]).
    split; [|exact Hes]. intros e2 H.
    inversion H as [| |? ? es' Hf|? g h es1 es1' xs xs' es2 es2' Hfu Hf1 Hfx Hf2]; subst.
    + destruct (fuse_list _ _ Hes Hf) as (Hm & Hn & Hl). split.
      * intros w. cbn [LazySpec.eval]. now rewrite Hm.
      * intros o w. rewrite !evals_app, Hn. apply fused_join; auto.
        destruct (need o es' w); constructor.
    + apply Forall_app in Hes as [H1 H2]. inversion H2 as [|? ? Hg H2']; subst. clear H2.
      apply Forall_app in IH as [_ IH]. inversion IH as [|? ? [_ Hx] _]; subst. clear IH.
      destruct (fuse_list _ _ H1 Hf1) as (Hm1 & Hn1 & Hl1).
      destruct (fuse_list _ _ Hx Hfx) as (Hmx & Hnx & Hlx).
      destruct (fuse_list _ _ H2' Hf2) as (Hm2 & Hn2 & Hl2). split.
      * intros w. cbn [LazySpec.eval]. rewrite !map_app. cbn [map LazySpec.eval].
        rewrite <- Hm1, <- Hmx, <- Hm2. unfold fval. rewrite Hfu by (now rewrite map_length). reflexivity.
      * intros o w. rewrite !evals_app, !flat_map_app. cbn [flat_map]. rewrite evals_app, <- !app_assoc.
        set (bf := need o (es1 ++ EApp g xs :: es2) w). set (bg := need o xs w).
        assert (E : need o (es1' ++ xs' ++ es2') w = bf || bg).
        { subst bf bg. destruct o as [w0|]; [|reflexivity].
          rewrite !need_app, <- Hn1, <- Hnx, <- Hn2 by discriminate.
          change (EApp g xs :: es2) with ([EApp g xs] ++ es2). rewrite !need_app by discriminate.
          destruct (need (Some w0) xs w) eqn:Ex; [now rewrite !orb_true_r|].
          apply not_needed in Ex.
          assert (Eg : need (Some w0) [EApp g xs] w = false).
          { unfold need. cbn [existsb LazySpec.eval]. rewrite Ex, eqb_refl. reflexivity. }
          rewrite Eg. cbn [orb]. now rewrite orb_false_r. }
        rewrite E. now apply fused_node with (length es1) (length xs) (length es2).
Qed.

Lemma fused_is_const (e e2 : expr) : fused e e2 ->
  match e, e2 with EConst _, EConst _ => True | EConst _, _ | _, EConst _ => False | _, _ => True end.
Proof. intros H. destruct H; exact I. Qed.

Lemma fused_differs o (e e2 : expr) w : fused e e2 ->
  differs pf rd eqb (since o e) w = differs pf rd eqb (since o e2) w.
Proof.
  intros H. destruct o as [w0|].
  - rewrite !differs_since. destruct (proj1 (fuse_all e) e2 H) as (Hv & _). now rewrite !Hv.
  - apply fused_is_const in H. now destruct e, e2.
Qed.

Lemma fused_seq (e e2 : expr) : fused e e2 -> regular pf rd e -> never_null pf rd e ->
  regular pf rd e2 -> never_null pf rd e2 -> forall ws o l l2,
  rel U pf rd (since o e) l -> rel U pf rd (since o e2) l2 ->
  Forall2 (fun r r2 => fst r = fst r2 /\ fused_log (evaluations (snd r)) (evaluations (snd r2)))
    (call_seq U l ws) (call_seq U l2 ws).
Proof.
  intros H Hr Hn Hr2 Hn2. induction ws as [|w ws IH]; intros o l l2 Hl Hl2; cbn [call_seq]; [constructor|].
  destruct (since_step U pf rd Hpure Hexact o e l w Hl Hr Hn) as (l' & -> & Hl').
  destruct (since_step U pf rd Hpure Hexact o e2 l2 w Hl2 Hr2 Hn2) as (l2' & -> & Hl2').
  destruct (proj1 (fuse_all e) e2 H) as (Hv & Hg). constructor; [|now apply IH with (Some w)].
  cbn [fst snd]. split; [|apply Hg]. now rewrite Hv, (fused_differs o e e2 w H).
Qed.

(** C82 (3) *)
Lemma fused_calls p p2 w w2 s s2 outs outs2 es es2 x x2 e e2 l l2 ws :
  no_call p -> run U p (mkState [] w) = Some (s, outs) -> shapes p [] = Some es ->
  nth_error es x = Some e -> nth_error (vars s) x = Some l ->
  no_call p2 -> run U p2 (mkState [] w2) = Some (s2, outs2) -> shapes p2 [] = Some es2 ->
  nth_error es2 x2 = Some e2 -> nth_error (vars s2) x2 = Some l2 ->
  fused e e2 -> regular pf rd e -> never_null pf rd e -> regular pf rd e2 -> never_null pf rd e2 ->
  Forall2 (fun r r2 => fst r = fst r2 /\ fused_log (evaluations (snd r)) (evaluations (snd r2)))
    (call_seq U l ws) (call_seq U l2 ws).
Proof.
  intros Hc Hrun Hsh He Hl Hc2 Hrun2 Hsh2 He2 Hl2 H Hr Hn Hr2 Hn2.
  apply (fused_seq e e2 H Hr Hn Hr2 Hn2 ws None).
  - destruct (program_var U p w s outs es x e Hrun Hsh He) as (l0 & Hl0 & Hs).
    rewrite Hl in Hl0. injection Hl0 as <-. apply fresh_rel; [exact Hs|].
    eapply fresh_nth; [|exact Hl]. eapply run_fresh; [exact Hc| |exact Hrun]. constructor.
  - destruct (program_var U p2 w2 s2 outs2 es2 x2 e2 Hrun2 Hsh2 He2) as (l0 & Hl0 & Hs).
    rewrite Hl2 in Hl0. injection Hl0 as <-. apply fresh_rel; [exact Hs|].
    eapply fresh_nth; [|exact Hl2]. eapply run_fresh; [exact Hc2| |exact Hrun2]. constructor.
Qed.

End Fusion.

(** ** Examples *)

Definition tuple_pf (f : nat) (args : list (val nat)) : option (val nat) :=
  match f with
  | 0 => Some (VAtom (length args))
  | 1 => Some (VAtom (match args with [_] => 2 | _ => 7 end))
  | _ => Some (VTuple [VAtom 5; VAtom 6])
  end.
Definition tuple_user : user nat nat nat nat :=
  mkUser (fun f args w => (FRet (tuple_pf f args), w)) (fun _ w => (VRet (VAtom w), w)) Nat.eqb 0.

(** A remaining single dependency that is a tuple is spread. *)
Lemma bind_tuple_differs : exists (U : user nat nat nat nat) f v g w s1 o1 s2 o2,
  (forall a b w, length a = 1 -> length b = 0 -> sem U g (a ++ b) w = sem U f (a ++ v :: b) w) /\
  run U [New 2 []; New f [DVar 0; DConst v]; Call 1] (mkState [] w) = Some (s1, o1) /\
  run U [New 2 []; New g [DVar 0]; Call 1] (mkState [] w) = Some (s2, o2) /\
  map fst o1 <> map fst o2.
Proof.
  exists tuple_user, 0, (VAtom 3), 1, 0. do 4 eexists. split.
  { intros [|x [|y a]] [|z b] w La Lb; try discriminate; reflexivity. }
  split; [reflexivity|]. split; [reflexivity|]. discriminate.
Qed.

Definition parity_pf (f : nat) (args : list (val nat)) : option (val nat) :=
  match f, args with
  | 0, [VAtom n] => Some (VAtom (n + n + 1))
  | 1, [v] => match as_tuple v with None => if nested_opt v then None else Some v | _ => None end
  | _, _ => None
  end.
(** Comparing modulo two. *)
Definition parity_user : user nat nat nat nat :=
  mkUser (fun f args w => (FRet (parity_pf f args), w)) (fun _ w => (VRet (VAtom w), w))
    (fun a b => Bool.eqb (Nat.even a) (Nat.even b)) 0.

Lemma parity_simple : simple_user parity_user.
Proof.
  split.
  - intros f args w v w' E. injection E as E _. destruct f as [|[|f]]; cbn in E.
    + destruct args as [|[n| | | |] [|]]; try discriminate. injection E as <-. now split.
    + destruct args as [|x [|]]; try discriminate. unfold simple. destruct (as_tuple x) eqn:Et; [discriminate|].
      destruct (nested_opt x) eqn:En; [discriminate|]. injection E as <-. auto.
    + destruct args; discriminate.
  - intros d w v w' E. injection E as <- _. now split.
Qed.
Lemma parity_ident : identities parity_user (eq 1).
Proof. intros i <- v w [Ht Hn]. cbn. now rewrite Ht, Hn. Qed.

(** Values that compare equal but are not: an identity keeps the old one. *)
Lemma ident_stale_differs : exists (U : user nat nat nat nat) ident i w s1 o1 s2 o2,
  simple_user U /\ identities U ident /\ ident i /\
  run U [New 0 [DFun 0]; New i [DVar 0]; Call 1; Env (fun n => n + 1); Call 1] (mkState [] w) = Some (s1, o1) /\
  run U [New 0 [DFun 0]; Copy 0; Call 1; Env (fun n => n + 1); Call 1] (mkState [] w) = Some (s2, o2) /\
  map fst o1 <> map fst o2.
Proof.
  exists parity_user, (eq 1), 1, 1. do 4 eexists. split; [exact parity_simple|].
  split; [exact parity_ident|]. split; [reflexivity|].
  split; [reflexivity|]. split; [reflexivity|]. vm_compute. discriminate.
Qed.

(** 0: a sum; 1: a sum and 10; 2: parity; 3: identity; 4: a sum, the second summand's parity.
    0 and 1 throw if their result would be above 20. *)
Definition law_throws (f : nat) (args : list (val nat)) : bool :=
  match f with 0 => 20 <? sum_of args | 1 => 20 <? sum_of args + 10 | _ => false end.
Definition law_pf (f : nat) (args : list (val nat)) : option (val nat) :=
  match f with
  | 0 => Some (VAtom (sum_of args))
  | 1 => Some (VAtom (sum_of args + 10))
  | 2 => Some (VAtom (if Nat.even (sum_of args) then 0 else 1))
  | 3 => match args with
         | [v] => match as_tuple v with None => if nested_opt v then None else Some v | _ => None end
         | _ => None
         end
  | _ => match args with
         | [x; y] => Some (VAtom (sum_of [x] + if Nat.even (sum_of [y]) then 0 else 1))
         | _ => None
         end
  end.
Definition law_user : user nat (nat * nat) nat bool :=
  mkUser (fun f args w => (if law_throws f args then FThrow else FRet (law_pf f args), w))
    (fun d w => (VRet (ex_rd d w), w)) Nat.eqb 0.
Definition law_pure_user : user nat (nat * nat) nat bool :=
  mkUser (fun f args w => (FRet (law_pf f args), w)) (fun d w => (VRet (ex_rd d w), w)) Nat.eqb 0.

Lemma law_simple : simple_user law_user.
Proof.
  split.
  - intros f args w v w' E. change ((if law_throws f args then FThrow else FRet (law_pf f args), w) = (FRet (Some v), w')) in E.
    destruct (law_throws f args); [discriminate|]. injection E as E _. destruct f as [|[|[|[|f]]]]; cbn in E; try (injection E as <-; now split).
    + destruct args as [|x [|]]; try discriminate. unfold simple. destruct (as_tuple x) eqn:Et; [discriminate|].
      destruct (nested_opt x) eqn:En; [discriminate|]. injection E as <-. auto.
    + destruct args as [|x [|y [|]]]; try discriminate. injection E as <-. now split.
  - intros d w v w' E. injection E as <- _. now split.
Qed.
Lemma law_ident : identities law_user (eq 3).
Proof. intros i <- v w [Ht Hn]. cbn. now rewrite Ht, Hn. Qed.

Lemma sum_app a b : sum_of (a ++ b) = sum_of a + sum_of b.
Proof. induction a as [|x a IH]; cbn; [reflexivity|]. fold (sum_of (a ++ b)) (sum_of a). rewrite IH. lia. Qed.

Lemma law_binds n m : n + m <> 1 -> binds law_user 0 n m (VAtom 10) 1.
Proof.
  intros H. split; [exact H|]. split; [reflexivity|]. intros a b w La Lb.
  assert (E : sum_of (a ++ VAtom 10 :: b) = sum_of (a ++ b) + 10).
  { rewrite !sum_app. change (sum_of (VAtom 10 :: b)) with (10 + sum_of b). lia. }
  unfold law_user. cbn [sem]. unfold law_throws, law_pf. now rewrite E.
Qed.

Lemma law_pure : pure_user law_pure_user law_pf ex_rd.
Proof. split; reflexivity. Qed.

Lemma law_fuses : fuses law_pf 0 2 4 1 1 0.
Proof.
  intros [|x [|]] [|y [|]] [|] La Lx Lb; try discriminate.
  cbn [app law_pf fval]. do 2 f_equal. unfold fval, law_pf.
  change (sum_of [x; VAtom (if Nat.even (sum_of [y]) then 0 else 1)])
    with (atom x + ((if Nat.even (sum_of [y]) then 0 else 1) + 0)).
  change (sum_of [x]) with (atom x + 0). lia.
Qed.
