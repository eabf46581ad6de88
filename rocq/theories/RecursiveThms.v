(** Proofs about recursive.h at run time (C64). *)
From Coq Require Import List Bool Arith Lia Wf_nat.
From Verif Require Import Recursive RecursiveSpec.
Import ListNotations.

Section Thms.
Context {X R S : Type}.
Notation body := (body X R S).
Variable F : X -> body.

(** ** More fuel changes nothing *)
Definition below (c1 c2 : S -> X -> option (option R * S)) : Prop :=
  forall s x r, c1 s x = Some r -> c2 s x = Some r.

Lemma exec_below p c1 c2 : below c1 c2 -> forall b this copy r,
  exec p c1 b this copy = Some r -> exec p c2 b this copy = Some r.
Proof.
  intros H. induction b as [r0| |k IH|s k IH|x k IH]; intros this copy r; cbn; auto.
  destruct p.
  - destruct (c1 copy x) as [[o c']|] eqn:E; [|discriminate]. rewrite (H _ _ _ E). apply IH.
  - destruct (c1 this x) as [[o c']|] eqn:E; [|discriminate]. rewrite (H _ _ _ E). apply IH.
Qed.

Lemma call_more p n : below (call F p n) (call F p (Datatypes.S n)).
Proof.
  induction n as [|n IH]; intros s x r; [discriminate|].
  intros E. apply exec_below with (1 := IH). exact E.
Qed.

Lemma call_mono p n m : n <= m -> below (call F p n) (call F p m).
Proof.
  induction 1 as [|m _ IH]; intros s x r E; [exact E|]. apply call_more, IH, E.
Qed.

Lemma call_det p n m s x r r' : call F p n s x = Some r -> call F p m s x = Some r' -> r = r'.
Proof.
  intros E1 E2. pose proof (call_mono p n (max n m) (Nat.le_max_l _ _) _ _ _ E1) as E1'.
  rewrite (call_mono p m (max n m) (Nat.le_max_r _ _) _ _ _ E2) in E1'. congruence.
Qed.

(** ** By reference: a procedure with a global variable *)
Lemma exec_ref_sound n :
  (forall s x o s', call F ByRef n s x = Some (o, s') -> runs F (F x) s o s') ->
  forall b this copy o s', exec ByRef (call F ByRef n) b this copy = Some (o, s') -> runs F b this o s'.
Proof.
  intros H. induction b as [r0| |k IH|s k IH|x k IH]; intros this copy o s'; cbn.
  - intros [= <- <-]. constructor.
  - intros [= <- <-]. constructor.
  - intros E. constructor. eapply IH, E.
  - intros E. constructor. eapply IH, E.
  - destruct (call F ByRef n this x) as [[o1 s1]|] eqn:E; [|discriminate]. intros E'.
    econstructor; [apply H, E|eapply IH, E'].
Qed.

Lemma call_ref_sound n : forall s x o s', call F ByRef n s x = Some (o, s') -> runs F (F x) s o s'.
Proof.
  induction n as [|n IH]; intros s x o s'; [discriminate|]. cbn. apply exec_ref_sound, IH.
Qed.

Lemma runs_exec b s o s' : runs F b s o s' ->
  exists n, forall copy, exec ByRef (call F ByRef n) b s copy = Some (o, s').
Proof.
  induction 1 as [r s|s|k s o s' _ [n IH]|s1 k s o s' _ [n IH]|x k s o1 s1 o s' _ [n IH1] _ [m IH2]].
  - exists 0. reflexivity.
  - exists 0. reflexivity.
  - exists n. exact IH.
  - exists n. exact IH.
  - exists (max (Datatypes.S n) m). intros copy. cbn [exec].
    rewrite (call_mono ByRef (Datatypes.S n) _ (Nat.le_max_l _ _) s x (o1, s1) (IH1 s)).
    eapply exec_below; [|apply IH2]. apply call_mono, Nat.le_max_r.
Qed.

Lemma by_reference s x o s' :
  (exists n, call F ByRef n s x = Some (o, s')) <-> runs F (F x) s o s'.
Proof.
  split.
  - intros [n E]. eapply call_ref_sound, E.
  - intros H. destruct (runs_exec _ _ _ _ H) as [n E]. exists (Datatypes.S n). apply E.
Qed.

(** ** By value: a procedure with a local variable *)
Lemma exec_val_sound n :
  (forall s x o s', call F ByValue n s x = Some (o, s') -> runs_local F (F x) s s o s') ->
  forall b this copy o s', exec ByValue (call F ByValue n) b this copy = Some (o, s') ->
  runs_local F b this copy o s'.
Proof.
  intros H. induction b as [r0| |k IH|s k IH|x k IH]; intros this copy o s'; cbn.
  - intros [= <- <-]. constructor.
  - intros [= <- <-]. constructor.
  - intros E. constructor. eapply IH, E.
  - intros E. constructor. eapply IH, E.
  - destruct (call F ByValue n copy x) as [[o1 s1]|] eqn:E; [|discriminate]. intros E'.
    econstructor; [apply H, E|eapply IH, E'].
Qed.

Lemma call_val_sound n : forall s x o s', call F ByValue n s x = Some (o, s') -> runs_local F (F x) s s o s'.
Proof.
  induction n as [|n IH]; intros s x o s'; [discriminate|]. cbn. apply exec_val_sound, IH.
Qed.

Lemma local_exec b s c o s' : runs_local F b s c o s' ->
  exists n, exec ByValue (call F ByValue n) b s c = Some (o, s').
Proof.
  induction 1 as [r s c|s c|k s c o s' _ [n IH]|s1 k s c o s' _ [n IH]|x k s c o1 c1 o s' _ [n IH1] _ [m IH2]].
  - exists 0. reflexivity.
  - exists 0. reflexivity.
  - exists n. exact IH.
  - exists n. exact IH.
  - exists (max (Datatypes.S n) m). cbn [exec].
    rewrite (call_mono ByValue (Datatypes.S n) _ (Nat.le_max_l _ _) c x (o1, c1) IH1).
    eapply exec_below; [|apply IH2]. apply call_mono, Nat.le_max_r.
Qed.

Lemma by_value s x o s' :
  (exists n, call F ByValue n s x = Some (o, s')) <-> runs_local F (F x) s s o s'.
Proof.
  split.
  - intros [n E]. eapply call_val_sound, E.
  - intros H. destruct (local_exec _ _ _ _ _ H) as [n E]. exists (Datatypes.S n). exact E.
Qed.

(** Nested calls influence the object only through their outcomes. *)
Lemma exec_val_own (call : S -> X -> option (option R * S)) (b : body) : forall this copy o s',
  exec ByValue call b this copy = Some (o, s') -> exists answers, own b answers this = Some (o, s').
Proof.
  induction b as [r0| |k IH|s k IH|x k IH]; intros this copy o s'; cbn.
  - intros [= <- <-]. now exists [].
  - intros [= <- <-]. now exists [].
  - apply IH.
  - apply IH.
  - destruct (call copy x) as [[o1 s1]|]; [|discriminate]. intros E.
    destruct (IH _ _ _ _ _ E) as [as_ H]. now exists (o1 :: as_).
Qed.

Lemma by_value_own n s x o s' :
  call F ByValue n s x = Some (o, s') -> exists answers, own (F x) answers s = Some (o, s').
Proof. destruct n; [discriminate|]. apply exec_val_own. Qed.

(** ** Termination *)
(** The calls made by one run of a body: finitely many, so that one bound on the fuel
    does for all. *)
Lemma exec_reach p lt x : forall b,
  smaller lt x b -> (forall y s, lt y x -> exists n r, call F p n s y = Some r) ->
  forall this copy, exists n r, exec p (call F p n) b this copy = Some r.
Proof.
  induction b as [r0| |k IH|s k IH|y k IH]; intros Hs Hc this copy; inversion Hs; subst; cbn [exec].
  - exists 0. eauto.
  - exists 0. eauto.
  - apply IH; auto.
  - apply IH; auto.
  - set (s0 := match p with ByValue => copy | ByRef => this end).
    destruct (Hc y s0) as (n & [o s1] & E); [assumption|].
    destruct (IH o (H2 o) Hc (match p with ByValue => this | ByRef => s1 end)
                 (match p with ByValue => s1 | ByRef => copy end)) as (m & r & E').
    exists (max n m), r. subst s0.
    destruct p; rewrite (call_mono _ n _ (Nat.le_max_l _ _) _ _ _ E);
      (eapply exec_below; [|exact E']); apply call_mono, Nat.le_max_r.
Qed.

Lemma terminates p lt : well_founded lt -> (forall x, smaller lt x (F x)) ->
  forall x s, exists n r, call F p n s x = Some r.
Proof.
  intros Hwf Hs x. induction x as [x IH] using (well_founded_ind Hwf). intros s.
  destruct (exec_reach p lt x (F x) (Hs x) (fun y s' H => IH y H s') s s) as (n & r & E).
  exists (Datatypes.S n), r. exact E.
Qed.

(** ** The equation *)
(** Read-only bodies: same for both ways to pass [self]; the equation holds with the
    captured variables as constants. *)
Lemma exec_denotes p g s0 (call : S -> X -> option (option R * S)) : forall b : body, readonly b ->
  (forall x o s', call s0 x = Some (o, s') -> o = g x /\ s' = s0) ->
  forall o s', exec p call b s0 s0 = Some (o, s') -> o = denotes g b s0 /\ s' = s0.
Proof.
  induction b as [r0| |k IH|s k IH|x k IH]; intros Hb Hc o s'; inversion Hb; subst; cbn.
  - intros [= <- <-]; auto.
  - intros [= <- <-]; auto.
  - apply IH; auto.
  - destruct p.
    + destruct (call s0 x) as [[o1 s1]|] eqn:E; [|discriminate].
      destruct (Hc _ _ _ E) as [-> ->]. apply IH; auto.
    + destruct (call s0 x) as [[o1 s1]|] eqn:E; [|discriminate].
      destruct (Hc _ _ _ E) as [-> ->]. apply IH; auto.
Qed.

Lemma equation p g s : (forall x, readonly (F x)) -> (forall x, g x = denotes g (F x) s) ->
  forall n x o s', call F p n s x = Some (o, s') -> o = g x /\ s' = s.
Proof.
  intros Hs Hg. induction n as [|n IH]; intros x o s'; [discriminate|]. cbn. intros E.
  destruct (exec_denotes p g s _ _ (Hs x) IH _ _ E) as [-> ->]. split; [|reflexivity]. symmetry. apply Hg.
Qed.

Lemma ties_the_knot p lt g s : well_founded lt -> (forall x, smaller lt x (F x)) ->
  (forall x, readonly (F x)) -> (forall x, g x = denotes g (F x) s) ->
  forall x, exists n, forall m, n <= m -> call F p m s x = Some (g x, s).
Proof.
  intros Hwf Hsm Hro Hg x. destruct (terminates p lt Hwf Hsm x s) as (n & [o s'] & E).
  destruct (equation p g s Hro Hg _ _ _ _ E) as [-> ->]. exists n. intros m Hm.
  exact (call_mono p n m Hm _ _ _ E).
Qed.

(** ** Rvalues *)
Lemma rvalue_ref moved n s x : call_rvalue F ByRef moved n s x = call F ByRef n s x.
Proof. destruct n; reflexivity. Qed.

Lemma rvalue_val_copied moved n s x : moved s = s -> call_rvalue F ByValue moved n s x = call F ByValue n s x.
Proof. intros H. destruct n; [reflexivity|]. cbn. now rewrite H. Qed.

Lemma rvalue_val moved n s x : forall o s',
  call_rvalue F ByValue moved n s x = Some (o, s') -> runs_local F (F x) (moved s) s o s'.
Proof.
  destruct n; [discriminate|]. intros o s'. apply exec_val_sound. apply call_val_sound.
Qed.

Lemma rvalue_val_iff moved s x o s' :
  (exists n, call_rvalue F ByValue moved n s x = Some (o, s')) <-> runs_local F (F x) (moved s) s o s'.
Proof.
  split; [intros [n E]; eapply rvalue_val, E|]. intros H.
  destruct (local_exec _ _ _ _ _ H) as [n E]. exists (Datatypes.S n). exact E.
Qed.
End Thms.

Lemma by_value_all {X R S : Type} (F : X -> body X R S) (s : S) x o s' :
  ((exists n, call F ByValue n s x = Some (o, s')) <-> runs_local F (F x) s s o s') /\
  forall n, call F ByValue n s x = Some (o, s') ->
    exists answers, own (F x) answers s = Some (o, s').
Proof. split; [apply by_value|]. intros n. apply by_value_own. Qed.

Lemma ends {X R S : Type} (F : X -> body X R S) p (lt : X -> X -> Prop) :
  (well_founded lt -> (forall x, smaller lt x (F x)) ->
     forall x s, exists n r, call F p n s x = Some r) /\
  (forall n m s x r r', call F p n s x = Some r -> call F p m s x = Some r' -> r = r').
Proof. split; [apply terminates|]. intros n m s x r r'. apply call_det. Qed.

Lemma rvalue_all {X R S : Type} (F : X -> body X R S) (moved : S -> S) :
  (forall n s x, call_rvalue F ByRef moved n s x = call F ByRef n s x) /\
  (forall n s x, moved s = s -> call_rvalue F ByValue moved n s x = call F ByValue n s x) /\
  (forall s x o s',
     (exists n, call_rvalue F ByValue moved n s x = Some (o, s')) <->
     runs_local F (F x) (moved s) s o s').
Proof.
  split; [apply rvalue_ref|]. split; [intros n s x; apply rvalue_val_copied|].
  intros s x o s'. apply rvalue_val_iff.
Qed.
