(** Proofs about DocModel.v: both designs of the walkthrough refine the same
    specification as the library (LazySpec.v). *)
From Coq Require Import List Bool Arith Lia.
From Verif Require Import Value TupleAlg TupleAlgProofs LazyModel LazySpec LazySpec2 LazyProofs LazyGeneral DocModel DocSpec.
Import ListNotations.

Section Thms.
Context {A W fid did : Type}.
Notation value := (val A).
Notation event := (event A fid did).
Notation lz := (lz A fid did).
Notation wz := (wz A fid did).
Notation expr := (expr A fid did).
Notation tracked := (tracked A W fid did).

Lemma without_comparisons_app (a b : list event) :
  without_comparisons (a ++ b) = without_comparisons a ++ without_comparisons b.
Proof. apply filter_app. Qed.

Lemma function_calls_app (a b : list event) :
  function_calls (a ++ b) = function_calls a ++ function_calls b.
Proof. apply flat_map_app. Qed.

Lemma subseq_more {T} (a b b' : list T) : subseq b b' -> subseq b (a ++ b').
Proof. intros H. induction a; cbn; auto. now constructor. Qed.

Variable U : user A W fid did.
Variable pf : fid -> list value -> option value.
Variable rd : did -> W -> value.
Hypothesis Hpure : pure_user U pf rd.
Hypothesis Hexact : exact_eq U.

Notation eval := (eval pf rd).
Notation eqb := (veq (aeq U)).
Notation differs := (differs pf rd eqb).
Notation expected := (expected pf rd eqb).
Notation rel := (rel U pf rd).

(** ** The design of dependencies.md *)
Inductive wrel : tracked -> wz -> Prop :=
| wrel_const v : wrel (TConst v) (WConst v)
| wrel_fun d last : wrel (TFun d last) (WFun d)
| wrel_app f last ts ls :
    Forall2 wrel ts ls ->
    (forall w0, last = Some w0 -> Forall (fun t => in_sync t w0) ts) ->
    wrel (TApp f last ts)
         (WNode f (option_map (eval (EApp f (map erase ts))) last)
                (option_map (fun w0 => map (fun t => eval (erase t) w0) ts) last) ls).

Lemma differs_iff (t : tracked) w0 w :
  in_sync t w0 -> differs t w = false <-> eval (erase t) w0 = eval (erase t) w.
Proof.
  intros Hs. destruct t as [v|d l|f l ts].
  - cbn. tauto.
  - cbn in Hs; subst l. unfold LazySpec.differs; cbn [last_of]. rewrite negb_false_iff.
    apply eqb_spec. exact Hexact.
  - cbn [in_sync last_of] in Hs; subst l. unfold LazySpec.differs; cbn [last_of].
    rewrite negb_false_iff. apply eqb_spec. exact Hexact.
Qed.

Lemma differs_any (ts : list tracked) w0 w :
  Forall (fun t => in_sync t w0) ts ->
  existsb (fun t => differs t w) ts = false
  <-> map (fun t => eval (erase t) w0) ts = map (fun t => eval (erase t) w) ts.
Proof.
  induction 1 as [|t ts Ht Hts IH]; cbn; [tauto|].
  rewrite orb_false_iff, (differs_iff t w0 w Ht), IH. split.
  - intros [-> ->]. reflexivity.
  - intros H. injection H. auto.
Qed.

Lemma regularized_pf f args :
  regularized (FRet (pf f args)) = VRet (fval pf f args).
Proof. unfold regularized, fval. now destruct (pf f args). Qed.

Lemma ctad_deps f last (ts : list tracked) w :
  regular pf rd (erase (TApp f last ts)) ->
  ctad_tuple as_tuple (map (fun t => eval (erase t) w) ts) = map (fun t => eval (erase t) w) ts.
Proof.
  intros H. apply regular_app in H as [Hone _]. apply ctad_regular. intros x Hx.
  destruct ts as [|t [|t2 ts]]; cbn in Hx; try discriminate.
  injection Hx as <-. apply Hone.
Qed.

Lemma eval_node f (ts : list tracked) w :
  eval (EApp f (map erase ts)) w = fval pf f (map (fun t => eval (erase t) w) ts).
Proof. cbn. now rewrite map_map. Qed.

Lemma map_eval_touch (ts : list tracked) w w' :
  map (fun t => eval (erase t) w') (map (touch w) ts) = map (fun t => eval (erase t) w') ts.
Proof. rewrite map_map. apply map_ext. intros t. now rewrite erase_touch. Qed.

Lemma map_erase_touch (ts : list tracked) w : map erase (map (touch w) ts) = map erase ts.
Proof. rewrite map_map. apply map_ext. intros t. apply erase_touch. Qed.

Lemma wcall_spec (t : tracked) : forall l w,
  wrel t l -> regular pf rd (erase t) ->
  exists l', wcall U l w = (Ok (eval (erase t) w), l', w, without_comparisons (expected t w))
             /\ wrel (touch w t) l'.
Proof.
  destruct Hpure as [Hsem Hdsem].
  induction t as [v|d last|f last ts IH] using tracked_ind'; intros l w Hrel Hreg.
  - inversion Hrel; subst. eexists; split; [reflexivity|constructor].
  - inversion Hrel; subst. cbn. rewrite Hdsem. eexists; split; [|constructor].
    unfold compare_last. cbn. now destruct last.
  - inversion Hrel as [| |f' last' ts' ls Hts Hsync]; subst f' last' ts' l.
    pose proof (ctad_deps f last ts w Hreg) as Hct.
    cbn [erase] in Hreg. apply regular_app in Hreg as [_ Hregs].
    assert (Hdeps : exists ls', wcalls_with (wcall U) ls w
              = (Ok (map (fun t => eval (erase t) w) ts), ls', w,
                 without_comparisons (flat_map (fun t => expected t w) ts))
              /\ Forall2 wrel (map (touch w) ts) ls').
    { clear Hsync Hrel Hct. revert Hregs IH.
      induction Hts as [|t l ts ls Htl Hts IHts]; intros Hregs IH.
      - exists []. split; [reflexivity|constructor].
      - cbn in Hregs. inversion Hregs as [|? ? Hreg1 Hreg2]; subst.
        inversion IH as [|? ? IH1 IH2]; subst.
        destruct (IH1 l w Htl Hreg1) as (l' & Hstep & Hrel').
        destruct (IHts Hreg2 IH2) as (ls' & Hsteps & Hrels').
        exists (l' :: ls'). split.
        + cbn [wcalls_with flat_map map]. rewrite Hstep, without_comparisons_app. cbn in Hsteps |- *.
          rewrite Hsteps. reflexivity.
        + cbn. constructor; assumption. }
    destruct Hdeps as (ls' & Hsteps & Hrels').
    cbn [wcall]. rewrite Hsteps. cbv zeta. rewrite Hct.
    assert (Hrel' : wrel (touch w (TApp f last ts))
              (WNode f (Some (fval pf f (map (fun t => eval (erase t) w) ts)))
                     (Some (map (fun t => eval (erase t) w) ts)) ls')).
    { cbn [touch]. pose proof (wrel_app f (Some w) (map (touch w) ts) ls' Hrels') as Hr.
      cbn [option_map] in Hr. rewrite eval_node, map_eval_touch in Hr. apply Hr.
      intros w0 Hw0. injection Hw0 as <-.
      apply Forall_forall. intros t Ht. apply in_map_iff in Ht as (t0 & <- & _).
      apply touch_in_sync. }
    change (eval (erase (TApp f last ts)) w) with (eval (EApp f (map erase ts)) w).
    rewrite eval_node, Hsem, regularized_pf.
    destruct last as [w0|]; cbn [option_map is_some negb orb args_differ].
    + pose proof (differs_any ts w0 w (Hsync w0 eq_refl)) as Hd.
      cbn [expected]. rewrite without_comparisons_app.
      destruct (existsb (fun t => differs t w) ts) eqn:Hex.
      * destruct (eqb (VTuple _) (VTuple _)) eqn:Eq.
        { apply (eqb_spec U Hexact) in Eq. injection Eq as Eq. apply Hd in Eq. discriminate. }
        cbn [negb]. eexists; split; [|exact Hrel']. reflexivity.
      * pose proof (proj1 Hd eq_refl) as Hsame. rewrite Hsame.
        assert (Eq : eqb (VTuple (map (fun t => eval (erase t) w) ts))
                         (VTuple (map (fun t => eval (erase t) w) ts)) = true)
          by (now apply (eqb_spec U Hexact)).
        rewrite Eq. cbn [negb]. rewrite eval_node, Hsame, app_nil_r.
        eexists; split; [|exact Hrel']. reflexivity.
    + cbn [expected]. rewrite without_comparisons_app. eexists; split; [|exact Hrel']. reflexivity.
Qed.

(** *** Programs *)
Lemma wdeps_rel (ts : list tracked) (ls : list wz) ss us :
  Forall2 wrel ts ls ->
  spec_deps TConst (fun d => TFun d None) ts ss = Some us ->
  exists os, wdeps_of ls ss = Some os /\ Forall2 wrel us os.
Proof.
  intros H. revert us. induction ss as [|s ss IH]; intros us; cbn.
  - intros E. injection E as <-. exists []. split; constructor.
  - destruct (match s with DVar x => nth_error ts x | DFun d => Some (TFun d None)
                      | DConst v => Some (TConst v) end) as [u|] eqn:Eu; [|discriminate].
    destruct (spec_deps _ _ ts ss) as [us'|]; [|discriminate].
    intros E. injection E as <-. destruct (IH us' eq_refl) as (os & -> & Hos).
    destruct s as [x|d|v]; cbn.
    + destruct (Forall2_nth_error _ _ _ _ _ H Eu) as (l & -> & Hl). eauto.
    + injection Eu as <-. eexists; split; [reflexivity|]. repeat constructor. exact Hos.
    + injection Eu as <-. eexists; split; [reflexivity|]. repeat constructor. exact Hos.
Qed.

(** Regularity of everything a program creates, with its tracked expressions. *)
Lemma tracked_eager p : forall (ts : list tracked) w ts' outs,
  tracked_run pf rd eqb p ts w = Some (ts', outs) ->
  exists vals, eager pf rd p (map erase ts) w = Some (map erase ts', vals).
Proof.
  induction p as [|o p IH]; intros ts w ts' outs; cbn [tracked_run eager].
  - intros E. injection E as <- _. eauto.
  - destruct o as [f ss|x|x|h].
    + rewrite spec_deps_erase.
      destruct (spec_deps TConst _ ts ss) as [us|]; [|discriminate]. cbn [option_map].
      destruct (tracked_run pf rd eqb p _ w) as [[? ?]|] eqn:Er; [|discriminate].
      intros E. injection E as <- <-. destruct (IH _ _ _ _ Er) as [vals Hv].
      rewrite map_app in Hv. eauto.
    + rewrite nth_error_map. destruct (nth_error ts x) as [t|]; [|discriminate]. cbn [option_map].
      destruct (tracked_run pf rd eqb p _ w) as [[? ?]|] eqn:Er; [|discriminate].
      intros E. injection E as <- <-. destruct (IH _ _ _ _ Er) as [vals Hv].
      rewrite map_app in Hv. eauto.
    + rewrite nth_error_map. destruct (nth_error ts x) as [t|] eqn:Et; [|discriminate]. cbn [option_map].
      destruct (tracked_run pf rd eqb p _ w) as [[? ?]|] eqn:Er; [|discriminate].
      intros E. injection E as <- <-. destruct (IH _ _ _ _ Er) as [vals Hv].
      rewrite map_update, erase_touch, update_same in Hv
        by (rewrite nth_error_map, Et; reflexivity).
      rewrite Hv. eauto.
    + destruct (tracked_run pf rd eqb p _ _) as [[? ?]|] eqn:Er; [|discriminate].
      intros E. injection E as <- <-. exact (IH _ _ _ _ Er).
Qed.

Lemma tracked_extends p : forall (ts : list tracked) w ts' outs,
  tracked_run pf rd eqb p ts w = Some (ts', outs) ->
  Forall (regular pf rd) (map erase ts') -> Forall (regular pf rd) (map erase ts).
Proof.
  intros ts w ts' outs H Hr. destruct (tracked_eager _ _ _ _ _ H) as [vals Hv].
  destruct (eager_extends pf rd _ _ _ _ _ Hv) as [ext E]. rewrite E in Hr.
  now apply Forall_app in Hr as [Hr _].
Qed.

Lemma wrun_spec p : forall (ts : list tracked) ls w ts' outs,
  Forall2 wrel ts ls ->
  tracked_run pf rd eqb p ts w = Some (ts', outs) ->
  Forall (regular pf rd) (map erase ts') ->
  wrun U p ls w = Some (map (fun o => (fst o, without_comparisons (snd o))) outs).
Proof.
  induction p as [|o p IH]; intros ts ls w ts' outs Hrel Hrun Hreg.
  - cbn in Hrun |- *. injection Hrun as <- <-. reflexivity.
  - pose proof (tracked_extends _ _ _ _ _ Hrun Hreg) as Hreg0.
    destruct o as [f ss|x|x|h]; cbn [tracked_run wrun] in *.
    + destruct (spec_deps TConst _ ts ss) as [us|] eqn:Es; [|discriminate].
      destruct (wdeps_rel _ _ _ _ Hrel Es) as (os & -> & Hos).
      destruct (tracked_run pf rd eqb p _ w) as [[? ?]|] eqn:Er; [|discriminate].
      injection Hrun as <- <-.
      erewrite IH; [reflexivity| |exact Er|exact Hreg].
      apply Forall2_app; [exact Hrel|]. constructor; [|constructor].
      apply (wrel_app f None us os Hos). discriminate.
    + destruct (nth_error ts x) as [t|] eqn:Et; [|discriminate].
      destruct (Forall2_nth_error _ _ _ _ _ Hrel Et) as (l & -> & Hl).
      destruct (tracked_run pf rd eqb p _ w) as [[? ?]|] eqn:Er; [|discriminate].
      injection Hrun as <- <-.
      erewrite IH; [reflexivity| |exact Er|exact Hreg].
      apply Forall2_app; auto.
    + destruct (nth_error ts x) as [t|] eqn:Et; [|discriminate].
      destruct (Forall2_nth_error _ _ _ _ _ Hrel Et) as (l & -> & Hl).
      assert (Hregt : regular pf rd (erase t)).
      { rewrite Forall_forall in Hreg0. apply Hreg0, in_map. eapply nth_error_In; eauto. }
      destruct (wcall_spec t l w Hl Hregt) as (l' & -> & Hl').
      destruct (tracked_run pf rd eqb p _ w) as [[? ?]|] eqn:Er; [|discriminate].
      injection Hrun as <- <-. rewrite api_visible.
      erewrite IH; [reflexivity| |exact Er|exact Hreg].
      now apply Forall2_update.
    + destruct (tracked_run pf rd eqb p _ _) as [[? ?]|] eqn:Er; [|discriminate].
      injection Hrun as <- <-.
      erewrite IH; [reflexivity|exact Hrel|exact Er|exact Hreg].
Qed.

(** ** The design of final_design.md *)
Lemma differs_touch w (t : tracked) : differs (touch w t) w = false.
Proof.
  apply (differs_iff (touch w t) w w (touch_in_sync w t)). reflexivity.
Qed.

Local Arguments function_calls : simpl never.
Local Arguments samples : simpl never.

Lemma calls_touch w (t : tracked) : function_calls (expected (touch w t) w) = [].
Proof.
  induction t as [v|d last|f last ts IH] using tracked_ind'; cbn [touch]; try reflexivity.
  cbn [expected]. rewrite function_calls_app.
  assert (Hex : existsb (fun t => differs t w) (map (touch w) ts) = false).
  { apply (proj2 (differs_any (map (touch w) ts) w w
      ltac:(apply Forall_forall; intros t Ht; apply in_map_iff in Ht as (t0 & <- & _);
            apply touch_in_sync))). reflexivity. }
  rewrite Hex, app_nil_r.
  induction IH as [|t ts Ht Hts IH]; cbn; [reflexivity|].
  rewrite function_calls_app, Ht. cbn in Hex. apply orb_false_iff in Hex as [_ Hex]. auto.
Qed.

Lemma samples_expected (t : tracked) w : samples (expected t w) = plain_functions (erase t).
Proof.
  induction t as [v|d last|f last ts IH] using tracked_ind'; try reflexivity.
  - cbn. unfold compare_last. cbn. now destruct last.
  - cbn [expected erase plain_functions]. rewrite samples_app.
    assert (H : samples (flat_map (fun t => expected t w) ts)
                = flat_map plain_functions (map erase ts)).
    { induction IH as [|t ts Ht Hts IH]; cbn; [reflexivity|]. now rewrite samples_app, Ht, IH. }
    rewrite H. match goal with |- _ ++ samples ?x = _ => assert (E : samples x = []) end.
    { destruct (match last with None => true | Some _ => _ end); [|reflexivity].
      unfold compare_last. cbn. now destruct last. }
    rewrite E. apply app_nil_r.
Qed.

Lemma touch_touch w (t : tracked) : touch w (touch w t) = touch w t.
Proof.
  induction t as [v|d last|f last ts IH] using tracked_ind'; try reflexivity.
  cbn. f_equal. rewrite map_map. induction IH as [|t ts Ht Hts IH]; cbn; congruence.
Qed.

Lemma rel_functional (t : tracked) : forall l l', rel t l -> rel t l' -> l = l'.
Proof.
  induction t as [v|d last|f last ts IH] using tracked_ind'; intros l l' H H';
    inversion H; inversion H'; subst; try reflexivity.
  f_equal.
  match goal with H : Forall2 rel ts ?a, H' : Forall2 rel ts ?b |- ?a = ?b =>
    clear -IH H H'; revert b H' end.
  match goal with H : Forall2 rel ts ?a |- _ => induction H as [|t l ts ls Htl Hts IHts] end.
  - intros b H. now inversion H.
  - intros b H. inversion H; subst. inversion IH; subst. f_equal; auto.
Qed.

(** Nesting, from the expression. *)
Fixpoint edepth (e : expr) : nat :=
  match e with
  | EConst _ => 0
  | EFun _ => 1
  | EApp _ es => S (list_max (map edepth es))
  end.

Lemma depth_rel (t : tracked) : forall l, rel t l -> depth l = edepth (erase t).
Proof.
  induction t as [v|d last|f last ts IH] using tracked_ind'; intros l H;
    inversion H as [| |? ? ? ls Hts Hs]; subst; try reflexivity.
  cbn. do 2 f_equal. rewrite map_map. clear -IH Hts.
  induction Hts as [|t l ts ls Htl Hts IHts]; cbn; [reflexivity|].
  inversion IH; subst. f_equal; auto.
Qed.

Lemma list_max_cons x xs n : list_max (x :: xs) <= n -> x <= n /\ list_max xs <= n.
Proof. unfold list_max; cbn; lia. Qed.

Definition fgood (n : nat) (t : tracked) : Prop := forall l w,
  rel t l -> regular pf rd (erase t) -> never_null pf rd (erase t) -> edepth (erase t) <= n ->
  exists l' lg, fcall_n U n l w = (Ok (eval (erase t) w, differs t w), l', w, lg)
    /\ rel (touch w t) l'
    /\ function_calls lg = function_calls (expected t w)
    /\ subseq (plain_functions (erase t)) (samples lg).

(** The second pass. *)
Lemma fsteps_spec n (ts : list tracked) : forall ls w,
  Forall (fgood n) ts -> Forall2 rel ts ls ->
  Forall (regular pf rd) (map erase ts) -> Forall (never_null pf rd) (map erase ts) ->
  list_max (map edepth (map erase ts)) <= n ->
  exists ls' lg, steps_with (fcall_n U n) ls w
      = (Ok (map (fun t => (eval (erase t) w, differs t w)) ts), ls', w, lg)
    /\ Forall2 rel (map (touch w) ts) ls'
    /\ function_calls lg = function_calls (flat_map (fun t => expected t w) ts)
    /\ subseq (flat_map plain_functions (map erase ts)) (samples lg).
Proof.
  intros ls w Hg Hrel Hreg Hnn Hd. revert Hg Hreg Hnn Hd.
  induction Hrel as [|t l ts ls Htl Hts IH]; intros Hg Hreg Hnn Hd; cbn [map] in *.
  - exists [], []. repeat split; constructor.
  - apply list_max_cons in Hd as [Hd1 Hd2].
    inversion Hg as [|? ? Hg1 Hg2]; subst. inversion Hreg as [|? ? Hr1 Hr2]; subst.
    inversion Hnn as [|? ? Hn1 Hn2]; subst.
    destruct (Hg1 l w Htl Hr1 Hn1 Hd1) as (l' & lg1 & E1 & R1 & C1 & S1).
    destruct (IH Hg2 Hr2 Hn2 Hd2) as (ls' & lg2 & E2 & R2 & C2 & S2).
    exists (l' :: ls'), (lg1 ++ lg2). split; [|split; [|split]].
    + cbn. now rewrite E1, E2.
    + now constructor.
    + cbn. now rewrite !function_calls_app, C1, C2.
    + cbn. rewrite samples_app. now apply subseq_app.
Qed.

(** The first pass: some prefix of the dependencies has been called. *)
Lemma fany_spec n (ts : list tracked) : forall ls w,
  Forall (fgood n) ts -> Forall2 rel ts ls ->
  Forall (regular pf rd) (map erase ts) -> Forall (never_null pf rd) (map erase ts) ->
  list_max (map edepth (map erase ts)) <= n ->
  exists ts1 ts2 ls' lg, ts = ts1 ++ ts2
    /\ fany_with (fcall_n U n) ls w
       = (Ok (existsb (fun t => differs t w) ts), ls', w, lg)
    /\ Forall2 rel (map (touch w) ts1 ++ ts2) ls'
    /\ function_calls lg = function_calls (flat_map (fun t => expected t w) ts1)
    /\ (existsb (fun t => differs t w) ts = false ->
        ts2 = [] /\ subseq (flat_map plain_functions (map erase ts)) (samples lg)).
Proof.
  intros ls w Hg Hrel Hreg Hnn Hd. revert Hg Hreg Hnn Hd.
  induction Hrel as [|t l ts ls Htl Hts IH]; intros Hg Hreg Hnn Hd; cbn [map] in *.
  - exists [], [], [], []. repeat split; constructor.
  - apply list_max_cons in Hd as [Hd1 Hd2].
    inversion Hg as [|? ? Hg1 Hg2]; subst. inversion Hreg as [|? ? Hr1 Hr2]; subst.
    inversion Hnn as [|? ? Hn1 Hn2]; subst.
    destruct (Hg1 l w Htl Hr1 Hn1 Hd1) as (l' & lg1 & E1 & R1 & C1 & S1).
    cbn [fany_with existsb]. rewrite E1. cbn [snd].
    destruct (differs t w) eqn:Ed.
    + exists [t], ts, (l' :: ls), lg1. split; [reflexivity|]. split; [reflexivity|].
      split; [now constructor|]. split; [cbn; now rewrite app_nil_r|]. cbn. discriminate.
    + destruct (IH Hg2 Hr2 Hn2 Hd2) as (ts1 & ts2 & ls' & lg2 & -> & E2 & R2 & C2 & S2).
      exists (t :: ts1), ts2, (l' :: ls'), (lg1 ++ lg2). split; [reflexivity|].
      split; [|split; [|split]].
      * cbn in E2 |- *. now rewrite E2.
      * now constructor.
      * cbn. now rewrite !function_calls_app, C1, C2.
      * intros H. destruct (S2 H) as [-> Hs]. split; [reflexivity|].
        cbn. rewrite samples_app. now apply subseq_app.
Qed.

Lemma fcall_spec n : forall t, fgood n t.
Proof.
  destruct Hpure as [Hsem Hdsem].
  induction n as [|n IH]; intros t l w Hrel Hreg Hnn Hd.
  { destruct t; cbn in Hd; try lia. inversion Hrel; subst.
    exists (LValue v false), []. repeat split; constructor. }
  destruct t as [v|d last|f last ts].
  - inversion Hrel; subst. exists (LValue v false), []. repeat split; constructor.
  - inversion Hrel; subst. cbn [fcall_n].
    assert (Ha : forall c : option value, match c with
        | None => (Ok true, [LValue (VAtom (int0 U)) true], w, [])
        | Some _ => fany_with (fcall_n U n) [LValue (VAtom (int0 U)) true] w end
        = (Ok true, [LValue (VAtom (int0 U)) true], w, ([] : list event))).
    { intros [c|]; [|reflexivity]. cbn. destruct n; reflexivity. }
    rewrite Ha. 
    assert (Hs : steps_with (fcall_n U n) [LValue (VAtom (int0 U)) true] w
        = (Ok [(VAtom (int0 U), true)], [LValue (VAtom (int0 U)) true], w, ([] : list event))).
    { cbn. destruct n; reflexivity. }
    rewrite Hs. cbn [call_fn]. rewrite Hdsem. unfold opt_neq.
    rewrite opt_ne_nonnull by apply Hnn.
    unfold LazySpec.differs; cbn [last_of erase].
    eexists _, _. split; [destruct last; reflexivity|]. split; [exact (rel_fun U pf rd d (Some w))|].
    unfold compare_last. destruct last; cbn; (split; [reflexivity|]); apply subseq_refl.
  - inversion Hrel as [| |f' last' ts' ls Hts Hsync]; subst f' last' ts' l.
    cbn [erase] in Hreg, Hnn. apply regular_app in Hreg as [_ Hregs].
    apply all_results_app in Hnn as [Hnn Hnns].
    assert (Hd' : list_max (map edepth (map erase ts)) <= n) by (cbn in Hd; lia).
    assert (Hnn' : has_nullopt (fval pf f (map (fun t => eval (erase t) w) ts)) = false).
    { specialize (Hnn w). rewrite map_map in Hnn. exact Hnn. }
    assert (Hrel' : forall ls', Forall2 rel (map (touch w) ts) ls' ->
      rel (touch w (TApp f last ts))
          (LCore (FnUser f) (Some (fval pf f (map (fun t => eval (erase t) w) ts))) ls')).
    { intros ls' Hrels'. cbn [touch].
      pose proof (rel_app U pf rd f (Some w) (map (touch w) ts) ls' Hrels') as Hr.
      cbn [option_map] in Hr. rewrite eval_node, map_eval_touch in Hr. apply Hr.
      intros w0 Hw0. injection Hw0 as <-.
      apply Forall_forall. intros t Ht. apply in_map_iff in Ht as (t0 & <- & _).
      apply touch_in_sync. }
    assert (Hg : forall us, Forall (fgood n) us) by (intros us; apply Forall_forall; auto).
    (* the second pass, whatever prefix has been called already *)
    assert (Hsecond : forall ts1 ts2 ls1, ts = ts1 ++ ts2 ->
       Forall2 rel (map (touch w) ts1 ++ ts2) ls1 ->
       exists ls2 lg2 flags, steps_with (fcall_n U n) ls1 w = (Ok flags, ls2, w, lg2)
         /\ map fst flags = map (fun t => eval (erase t) w) ts
         /\ Forall2 rel (map (touch w) ts) ls2
         /\ function_calls lg2 = function_calls (flat_map (fun t => expected t w) ts2)
         /\ subseq (flat_map plain_functions (map erase ts)) (samples lg2)).
    { intros ts1 ts2 ls1 -> Hr.
      assert (Ee : map erase (map (touch w) ts1 ++ ts2) = map erase (ts1 ++ ts2))
        by (now rewrite !map_app, map_erase_touch).
      destruct (fsteps_spec n _ ls1 w (Hg _) Hr) as (ls2 & lg2 & E2 & R2 & C2 & S2);
        try (rewrite Ee; assumption).
      exists ls2, lg2. eexists. split; [exact E2|]. split; [|split; [|split]].
      - rewrite map_map. cbn [fst]. rewrite !map_app, map_eval_touch. reflexivity.
      - rewrite map_app, map_map in R2. rewrite map_app.
        rewrite (map_ext _ (touch w) (touch_touch w)) in R2. exact R2.
      - rewrite C2, flat_map_app, function_calls_app.
        replace (function_calls (flat_map (fun t => expected t w) (map (touch w) ts1)))
          with (@nil (fid * list value)); [reflexivity|].
        clear -Hexact. induction ts1 as [|t ts1 IH]; cbn; [reflexivity|].
        now rewrite function_calls_app, calls_touch, <- IH.
      - now rewrite Ee in S2. }
    change (eval (erase (TApp f last ts)) w) with (eval (EApp f (map erase ts)) w).
    rewrite eval_node. cbn [fcall_n erase plain_functions].
    destruct last as [w0|]; cbn [option_map].
    + destruct (fany_spec n ts ls w (Hg _) Hts Hregs Hnns Hd')
        as (ts1 & ts2 & ls1 & lg1 & Ets & E1 & R1 & C1 & S1).
      rewrite E1. pose proof (differs_any ts w0 w (Hsync w0 eq_refl)) as Hdiff.
      destruct (existsb (fun t => differs t w) ts) eqn:Hex.
      * destruct (Hsecond ts1 ts2 ls1 Ets R1) as (ls2 & lg2 & flags & E2 & V2 & R2 & C2 & S2).
        rewrite E2, V2. cbn [call_fn]. rewrite Hsem, regularized_pf. unfold opt_neq.
        rewrite opt_ne_nonnull by exact Hnn'.
        eexists _, _. split; [|split; [exact (Hrel' _ R2)|split]].
        -- unfold LazySpec.differs; cbn [last_of erase]. rewrite !eval_node. reflexivity.
        -- cbn [expected]. rewrite Hex, Ets, flat_map_app, !function_calls_app, C1, C2, <- app_assoc.
           unfold compare_last; cbn. reflexivity.
        -- rewrite !samples_app. apply subseq_more.
           rewrite <- (app_nil_r (flat_map _ _)). apply subseq_app; [exact S2|apply subseq_nil_l].
      * destruct (S1 eq_refl) as [-> S1']. rewrite app_nil_r in Ets, R1. subst ts1.
        pose proof (proj1 Hdiff eq_refl) as Hsame.
        rewrite eval_node, Hsame.
        eexists _, _. split; [|split; [exact (Hrel' _ R1)|split; [|exact S1']]].
        -- unfold LazySpec.differs; cbn [last_of erase]. rewrite !eval_node, Hsame.
           rewrite (proj2 (eqb_spec U Hexact _ _) eq_refl). reflexivity.
        -- cbn [expected]. rewrite Hex, app_nil_r. exact C1.
    + destruct (Hsecond [] ts ls eq_refl Hts) as (ls2 & lg2 & flags & E2 & V2 & R2 & C2 & S2).
      rewrite E2, V2. cbn [call_fn]. rewrite Hsem, regularized_pf. unfold opt_neq.
      rewrite opt_ne_nonnull by exact Hnn'.
      eexists _, _. split; [|split; [exact (Hrel' _ R2)|split]].
      * reflexivity.
      * cbn [expected app]. rewrite !function_calls_app, C2. unfold compare_last; cbn. reflexivity.
      * cbn [app]. rewrite !samples_app.
        rewrite <- (app_nil_r (flat_map _ _)). apply subseq_app; [exact S2|apply subseq_nil_l].
Qed.

(** *** Programs *)
Definition agree (o o' : output A fid did) : Prop :=
  fst o' = fst o
  /\ function_calls (snd o') = function_calls (snd o)
  /\ subseq (samples (snd o)) (samples (snd o')).

Lemma agree_none : agree (None, []) (None, []).
Proof. repeat split. constructor. Qed.

Lemma frun_spec p : forall (ts : list tracked) ls w es vals s outs,
  Forall2 rel ts ls ->
  eager pf rd p (map erase ts) w = Some (es, vals) ->
  Forall (regular pf rd) es -> Forall (never_null pf rd) es ->
  run U p (mkState ls w) = Some (s, outs) ->
  exists fouts, frun U p (mkState ls w) = Some (s, fouts) /\ Forall2 agree outs fouts.
Proof.
  induction p as [|o p IH]; intros ts ls w es vals s outs Hrel He Hreg Hnn Hrun.
  - cbn in Hrun |- *. injection Hrun as <- <-. exists []. split; [reflexivity|constructor].
  - destruct (eager_extends pf rd _ _ _ _ _ He) as [ext Ext].
    destruct o as [f ss|x|x|h]; cbn [eager run frun exec fexec vars world] in *.
    + rewrite spec_deps_erase in He. pose proof (deps_rel U pf rd ts ls ss Hrel) as Hd.
      destruct (spec_deps TConst _ ts ss) as [us|]; [|discriminate]. cbn [option_map] in He.
      destruct (deps_of ls ss) as [os|]; [|contradiction].
      destruct (run U p _) as [[s2 outs2]|] eqn:Er; [|discriminate].
      injection Hrun as <- <-.
      assert (Hrel' : Forall2 rel (ts ++ [TApp f None us]) (ls ++ [mk_lazy U f os])).
      { apply Forall2_app; [assumption|]. constructor; [|constructor].
        unfold mk_lazy. apply (rel_app U pf rd f None us _ Hd). discriminate. }
      destruct (IH (ts ++ [TApp f None us]) _ w es vals s2 outs2 Hrel') as (fouts & -> & Hf); auto.
      { rewrite map_app. exact He. }
      eexists; split; [reflexivity|]. constructor; [apply agree_none|exact Hf].
    + rewrite nth_error_map in He. destruct (nth_error ts x) as [t|] eqn:Et; [|discriminate].
      cbn [option_map] in He.
      destruct (Forall2_nth_error _ _ _ _ _ Hrel Et) as (l & El & Hl). rewrite El in *.
      destruct (run U p _) as [[s2 outs2]|] eqn:Er; [|discriminate].
      injection Hrun as <- <-.
      destruct (IH (ts ++ [t]) (ls ++ [l]) w es vals s2 outs2) as (fouts & -> & Hf); auto.
      { apply Forall2_app; auto. }
      { rewrite map_app. exact He. }
      eexists; split; [reflexivity|]. constructor; [apply agree_none|exact Hf].
    + rewrite nth_error_map in He. destruct (nth_error ts x) as [t|] eqn:Et; [|discriminate].
      cbn [option_map] in He.
      destruct (Forall2_nth_error _ _ _ _ _ Hrel Et) as (l & El & Hl). rewrite El in *.
      assert (Hregt : regular pf rd (erase t) /\ never_null pf rd (erase t)).
      { subst es. apply Forall_app in Hreg as [Hreg _]. apply Forall_app in Hnn as [Hnn _].
        rewrite Forall_forall in Hreg, Hnn.
        split; [apply Hreg|apply Hnn]; apply in_map; eapply nth_error_In; eauto. }
      destruct Hregt as [Hregt Hnnt].
      destruct (step_spec U pf rd Hpure Hexact t l w Hl Hregt Hnnt) as (l' & Hstep & Hl').
      unfold fcall. destruct (fcall_spec (depth l) t l w Hl Hregt Hnnt) as (l2 & lg & E2 & R2 & C2 & S2).
      { now rewrite (depth_rel t l Hl). }
      rewrite E2. rewrite Hstep in Hrun. pose proof (rel_functional _ _ _ R2 Hl') as ->.
      destruct (run U p _) as [[s2 outs2]|] eqn:Er; [|discriminate].
      injection Hrun as <- <-.
      destruct (eager pf rd p (map erase ts) w) as [[es' vals']|] eqn:Ee; [|discriminate].
      injection He as <- _.
      destruct (IH (update x (touch w t) ts) (update x l' ls) w es' vals' s2 outs2) as (fouts & -> & Hf); auto.
      { now apply Forall2_update. }
      { rewrite map_update, erase_touch, update_same by (rewrite nth_error_map, Et; reflexivity).
        exact Ee. }
      eexists; split; [reflexivity|]. constructor; [|exact Hf].
      split; [reflexivity|]. cbn [snd]. split; [exact C2|]. rewrite samples_expected. exact S2.
    + destruct (run U p _) as [[s2 outs2]|] eqn:Er; [|discriminate].
      injection Hrun as <- <-.
      destruct (IH ts ls (h w) es vals s2 outs2 Hrel He Hreg Hnn Er) as (fouts & -> & Hf).
      eexists; split; [reflexivity|]. constructor; [apply agree_none|exact Hf].
Qed.

End Thms.

Section Props.
Context {A W fid did : Type}.
Variable U : user A W fid did.
Variable pf : fid -> list (val A) -> option (val A).
Variable rd : did -> W -> val A.

Lemma doc_dependencies :
  pure_user U pf rd -> exact_eq U ->
  forall p w es vals,
    eager pf rd p [] w = Some (es, vals) -> Forall (regular pf rd) es -> Forall (never_null pf rd) es ->
    exists s outs,
      run U p (mkState [] w) = Some (s, outs) /\
      wrun U p [] w = Some (map (fun o => (fst o, without_comparisons (snd o))) outs).
Proof.
  intros Hp Hx p w es vals He Hr Hn.
  pose proof (run_refines U pf rd Hp Hx p [] [] w (Forall2_nil _)) as H.
  cbn in H. rewrite He in H. destruct (H Hr Hn) as (s & ts & outs & H1 & H2 & _).
  exists s, outs. split; [exact H1|].
  eapply (wrun_spec U pf rd Hp Hx p [] [] w ts outs); [constructor|exact H2|].
  destruct (tracked_eager U pf rd _ _ _ _ _ H2) as [vals' Hv]. cbn in Hv. rewrite He in Hv.
  injection Hv as <- _. exact Hr.
Qed.

Lemma doc_final_design :
  pure_user U pf rd -> exact_eq U ->
  forall p w es vals,
    eager pf rd p [] w = Some (es, vals) -> Forall (regular pf rd) es -> Forall (never_null pf rd) es ->
    exists s outs outs',
      run U p (mkState [] w) = Some (s, outs) /\
      frun U p (mkState [] w) = Some (s, outs') /\
      Forall2 (fun o o' =>
        fst o' = fst o /\
        function_calls (snd o') = function_calls (snd o) /\
        subseq (samples (snd o)) (samples (snd o'))) outs outs'.
Proof.
  intros Hp Hx p w es vals He Hr Hn.
  pose proof (run_refines U pf rd Hp Hx p [] [] w (Forall2_nil _)) as H.
  cbn in H. rewrite He in H. destruct (H Hr Hn) as (s & ts & outs & H1 & _ & _).
  destruct (frun_spec U pf rd Hp Hx p [] [] w es vals s outs (Forall2_nil _) He Hr Hn H1) as (fouts & H2 & H3).
  exists s, outs, fouts. auto.
Qed.

(** ** The design of dependencies.md when functions throw *)
Section Exceptions.
Hypothesis Hpt : pure_or_throw U pf rd.
Hypothesis Hsound : sound_eq U.
Notation value := (val A).
Notation wz := (wz A fid did).
Notation expr := (expr A fid did).

(** Every cached result of [l], which stands for [e], is the result for the remembered
    arguments. *)
Inductive wkept : expr -> wz -> Prop :=
| wkept_const v : wkept (EConst v) (WConst v)
| wkept_fun d : wkept (EFun d) (WFun d)
| wkept_app f cache args us ls :
    Forall2 wkept us ls ->
    (forall c, cache = Some c -> exists a, args = Some a /\ c = fval pf f a) ->
    wkept (EApp f us) (WNode f cache args ls).

Definition right_or_thrown {X} (r : res X) (v : X) : Prop := r = Ok v \/ r = Exc.

Lemma wz_ind' (P : wz -> Prop) :
  (forall v, P (WConst v)) -> (forall d, P (WFun d)) ->
  (forall f c a ls, Forall P ls -> P (WNode f c a ls)) -> forall l, P l.
Proof.
  intros Hc Hf Hn. fix IH 1. intros [v|d|f c a ls]; [apply Hc|apply Hf|].
  apply Hn. induction ls; constructor; auto.
Qed.

Lemma wcall_kept (l : wz) : forall e w, wkept e l -> regular pf rd e ->
  exists r l' lg, wcall U l w = (r, l', w, lg) /\ wkept e l' /\ right_or_thrown r (eval pf rd e w).
Proof.
  destruct Hpt as [Hsem Hdsem].
  induction l as [v|d|f cache args ls IH] using wz_ind'; intros e w Hk Hreg.
  - inversion Hk; subst. do 3 eexists. split; [reflexivity|]. split; [constructor|now left].
  - inversion Hk; subst. cbn. destruct (Hdsem d w) as [-> | ->]; do 3 eexists;
      (split; [reflexivity|]; split; [constructor|]); [now left|now right].
  - inversion Hk as [| |f' c' a' us ls' Hus Hc]; subst.
    apply regular_app in Hreg as [Hreg1 Hregs].
    assert (Hd : exists rs ls' lg, wcalls_with (wcall U) ls w = (rs, ls', w, lg) /\
              Forall2 wkept us ls' /\ right_or_thrown rs (map (fun u => eval pf rd u w) us)).
    { clear Hc Hk Hreg1. revert Hregs IH.
      induction Hus as [|u l us ls Hu Hus IHs]; intros Hregs IH.
      - do 3 eexists. split; [reflexivity|]. split; [constructor|now left].
      - inversion Hregs; inversion IH; subst.
        destruct (H5 u w Hu H1) as (r & l' & lg & E & Hl & Hr).
        destruct (IHs H2 H6) as (rs & ls' & lg' & Es & Hls & Hrs).
        cbn [wcalls_with]. cbn in Es |- *. rewrite E. destruct Hr as [-> | ->].
        + rewrite Es. do 3 eexists. split; [reflexivity|]. split; [now constructor|].
          destruct Hrs as [-> | ->]; [now left|now right].
        + do 3 eexists. split; [reflexivity|]. split; [now constructor|now right]. }
    destruct Hd as (rs & ls' & lg & Es & Hls & Hrs). cbn [wcall]. rewrite Es.
    destruct Hrs as [-> | ->]; [|do 3 eexists; split; [reflexivity|split; [now constructor|now right]]].
    assert (Ha : ctad_tuple as_tuple (map (fun u => eval pf rd u w) us) = map (fun u => eval pf rd u w) us).
    { destruct us as [|u [|u2 us]]; try reflexivity. cbn. now rewrite (Hreg1 w). }
    rewrite Ha.
    assert (He : fval pf f (map (fun u => eval pf rd u w) us) = eval pf rd (EApp f us) w) by reflexivity.
    destruct (negb (is_some cache) || args_differ U args (map (fun u => eval pf rd u w) us)) eqn:Ed.
    + destruct (Hsem f (map (fun u => eval pf rd u w) us) w) as [-> | ->].
      * assert (Er : regularized (FRet (pf f (map (fun u => eval pf rd u w) us))) =
                     VRet (fval pf f (map (fun u => eval pf rd u w) us))).
        { unfold regularized, fval. now destruct (pf f _). }
        rewrite Er. do 3 eexists. split; [reflexivity|]. split; [|left; now rewrite He].
        constructor; [exact Hls|]. intros c E. injection E as <-. eauto.
      * cbn [regularized]. do 3 eexists. split; [reflexivity|]. split; [now constructor|now right].
    + apply orb_false_iff in Ed as [E1 E2]. destruct cache as [c|]; [|discriminate].
      destruct (Hc c eq_refl) as (a & -> & ->). cbn [args_differ] in E2.
      apply negb_false_iff in E2. apply (veq_sound (aeq U) Hsound) in E2. injection E2 as ->.
      do 3 eexists. split; [reflexivity|]. split; [now constructor|left; now rewrite He].
Qed.

Lemma wdeps_kept (es : list expr) (ls : list wz) ss us :
  Forall2 wkept es ls -> spec_deps EConst EFun es ss = Some us ->
  exists os, wdeps_of ls ss = Some os /\ Forall2 wkept us os.
Proof.
  intros H. revert us. induction ss as [|s ss IH]; intros us; cbn.
  - intros E. injection E as <-. exists []. split; constructor.
  - destruct (match s with DVar x => nth_error es x | DFun d => Some (EFun d)
                      | DConst v => Some (EConst v) end) as [u|] eqn:Eu; [|discriminate].
    destruct (spec_deps _ _ es ss) as [us'|]; [|discriminate].
    intros E. injection E as <-. destruct (IH us' eq_refl) as (os & -> & Hos).
    destruct s as [x|d|v]; cbn.
    + destruct (Forall2_nth_error _ _ _ _ _ H Eu) as (l & -> & Hl). eauto.
    + injection Eu as <-. eexists; split; [reflexivity|]. repeat constructor. exact Hos.
    + injection Eu as <-. eexists; split; [reflexivity|]. repeat constructor. exact Hos.
Qed.

Lemma wrun_kept p : forall es ls w es' vals,
  Forall2 wkept es ls -> eager pf rd p es w = Some (es', vals) -> Forall (regular pf rd) es' ->
  exists outs, wrun U p ls w = Some outs /\ Forall2 right_or_thrown (results outs) vals.
Proof.
  induction p as [|o p IH]; intros es ls w es' vals Hk He Hreg.
  - cbn in He |- *. injection He as <- <-. eexists; split; [reflexivity|constructor].
  - assert (Hreg0 : Forall (regular pf rd) es).
    { destruct (eager_extends pf rd _ _ _ _ _ He) as [ext E]. rewrite E in Hreg.
      now apply Forall_app in Hreg as [Hreg _]. }
    destruct o as [f ss|x|x|h]; cbn [eager wrun] in *.
    + destruct (spec_deps EConst EFun es ss) as [us|] eqn:Es; [|discriminate].
      destruct (wdeps_kept _ _ _ _ Hk Es) as (os & -> & Hos).
      destruct (IH (es ++ [EApp f us]) (ls ++ [WNode f None None os]) w es' vals) as (outs & -> & Ho); auto.
      { apply Forall2_app; auto. constructor; [|constructor]. constructor; [exact Hos|discriminate]. }
      eexists; split; [reflexivity|exact Ho].
    + destruct (nth_error es x) as [e|] eqn:Ex; [|discriminate].
      destruct (Forall2_nth_error _ _ _ _ _ Hk Ex) as (l & -> & Hl).
      destruct (IH (es ++ [e]) (ls ++ [l]) w es' vals) as (outs & -> & Ho); auto.
      { apply Forall2_app; auto. }
      eexists; split; [reflexivity|exact Ho].
    + destruct (nth_error es x) as [e|] eqn:Ex; [|discriminate].
      destruct (Forall2_nth_error _ _ _ _ _ Hk Ex) as (l & -> & Hl).
      assert (Hrege : regular pf rd e).
      { rewrite Forall_forall in Hreg0. apply Hreg0. eapply nth_error_In; eauto. }
      destruct (wcall_kept l e w Hl Hrege) as (r & l' & lg & -> & Hl' & Hr).
      destruct (eager pf rd p es w) as [[es2 vals2]|] eqn:Ee; [|discriminate]. injection He as <- <-.
      destruct (IH es (update x l' ls) w es2 vals2) as (outs & -> & Ho); auto.
      { rewrite <- (update_same es x e Ex). now apply Forall2_update. }
      eexists; split; [reflexivity|]. cbn [results flat_map fst app]. constructor; [|exact Ho].
      destruct Hr as [-> | ->]; [left|now right]. now destruct (eval pf rd e w).
    + destruct (IH es ls (h w) es' vals) as (outs & -> & Ho); auto.
      eexists; split; [reflexivity|exact Ho].
Qed.

End Exceptions.

Lemma doc_exceptions :
  pure_or_throw U pf rd -> sound_eq U ->
  forall p w es vals,
    eager pf rd p [] w = Some (es, vals) -> Forall (regular pf rd) es ->
    exists outs, wrun U p [] w = Some outs /\
      Forall2 (fun r v => r = Ok v \/ r = Exc) (results outs) vals.
Proof. intros Hp Hs p w es vals He Hr. now apply (wrun_kept Hp Hs p [] [] w es vals (Forall2_nil _)). Qed.

(** ** How often the final design calls a plain function *)
Section Chain.
Hypothesis Hpure : pure_user U pf rd.
Hypothesis Hexact : exact_eq U.
Variable f : fid.
Variable d : did.

Notation level := (chain_value pf rd f d).

Hypothesis Hreg : forall w k, as_tuple (level w k) = None.
Hypothesis Hnn : forall w k, has_nullopt (level w k) = false.

Fixpoint tchain (last : option W) (k : nat) : tracked A W fid did :=
  match k with
  | O => TFun d last
  | S k' => TApp f last [tchain last k']
  end.

Fixpoint lchain (last : option W) (k : nat) : lz A fid did :=
  match k with
  | O => LCore (FnSample d) (option_map (rd d) last) [LValue (VAtom (int0 U)) true]
  | S k' => LCore (FnUser f) (option_map (fun w => level w k) last) [lchain last k']
  end.

Lemma eval_chain last k w : eval pf rd (erase (tchain last k)) w = level w k.
Proof. induction k as [|k IH]; cbn; [reflexivity|]. now rewrite IH. Qed.

Lemma edepth_chain last k : edepth (erase (tchain last k)) = S k.
Proof. induction k as [|k IH]; [reflexivity|]. cbn. rewrite IH. unfold list_max; cbn. lia. Qed.

Lemma regular_chain last k : regular pf rd (erase (tchain last k)).
Proof.
  induction k as [|k IH]; cbn; [exact I|]. repeat split; auto.
  intros w. rewrite eval_chain. apply Hreg.
Qed.

Lemma never_null_chain last k : never_null pf rd (erase (tchain last k)).
Proof.
  induction k as [|k IH]; cbn.
  - intros w. apply (Hnn w 0).
  - repeat split; auto. intros w. rewrite eval_chain. apply (Hnn w (S k)).
Qed.

Lemma rel_chain last k : rel U pf rd (tchain last k) (lchain last k).
Proof.
  induction k as [|k IH]; cbn [tchain lchain].
  - apply rel_fun.
  - pose proof (rel_app U pf rd f last [tchain last k] [lchain last k]) as H.
    replace (option_map (fun w => level w (S k)) last)
      with (option_map (eval pf rd (EApp f (map erase [tchain last k]))) last).
    + apply H; [repeat constructor; exact IH|]. intros w0 ->. repeat constructor.
      destruct k; reflexivity.
    + destruct last; [|reflexivity]. cbn. now rewrite eval_chain.
Qed.

Lemma touch_chain last k w : touch w (tchain last k) = tchain (Some w) k.
Proof. induction k as [|k IH]; cbn; [reflexivity|]. now rewrite IH. Qed.

Lemma fcall_chain n last k w : S k <= n ->
  exists lg, fcall_n U n (lchain last k) w
    = (Ok (level w k, differs pf rd (veq (aeq U)) (tchain last k) w), lchain (Some w) k, w, lg).
Proof.
  intros Hn. destruct (fcall_spec U pf rd Hpure Hexact n (tchain last k) (lchain last k) w)
    as (l' & lg & E & R & _ & _).
  - apply rel_chain.
  - apply regular_chain.
  - apply never_null_chain.
  - now rewrite edepth_chain.
  - exists lg. rewrite E, eval_chain. rewrite touch_chain in R.
    now rewrite (rel_functional U pf rd _ _ _ R (rel_chain (Some w) k)).
Qed.

Lemma differs_chain w0 k w :
  differs pf rd (veq (aeq U)) (tchain (Some w0) k) w = negb (veq (aeq U) (level w0 k) (level w k)).
Proof. unfold differs. destruct k; [reflexivity|]. cbn [tchain last_of]. now rewrite <- !eval_chain with (last := Some w0). Qed.

Definition log_of {X Y Z T} (r : X * Y * Z * list T) : list T := snd r.

Lemma fsample_log n last w :
  samples (log_of (fcall_n U (S n) (lchain last 0) w)) = [d].
Proof.
  destruct Hpure as [_ Hdsem]. cbn [fcall_n lchain].
  destruct last as [w0|]; cbn [option_map].
  - assert (E : fcall_n U n (LValue (VAtom (int0 U)) true) w
                = (Ok (VAtom (int0 U), true), LValue (VAtom (int0 U)) true, w, []))
      by (destruct n; reflexivity).
    unfold fany_with, steps_with. rewrite E. cbn [snd]. rewrite E. cbn [call_fn].
    rewrite Hdsem. reflexivity.
  - assert (E : fcall_n U n (LValue (VAtom (int0 U)) true) w
                = (Ok (VAtom (int0 U), true), LValue (VAtom (int0 U)) true, w, []))
      by (destruct n; reflexivity).
    unfold steps_with. rewrite E. cbn [call_fn]. rewrite Hdsem. reflexivity.
Qed.

Local Arguments samples : simpl never.

(** Called again while nothing has changed. *)
Lemma flog_same k : forall n w, S k <= n -> samples (log_of (fcall_n U n (lchain (Some w) k) w)) = [d].
Proof.
  induction k as [|k IH]; intros n w Hn; (destruct n as [|n]; [lia|]).
  - apply fsample_log.
  - cbn [fcall_n lchain option_map fany_with].
    destruct (fcall_chain n (Some w) k w ltac:(lia)) as [lg E].
    pose proof (IH n w ltac:(lia)) as H. rewrite E in H |- *. cbn [snd log_of] in H.
    rewrite differs_chain.
    rewrite (proj2 (eqb_spec U Hexact (level w k) (level w k)) eq_refl). cbn [negb log_of snd].
    now rewrite app_nil_r.
Qed.

(** Called for the first time. *)
Lemma flog_first k : forall n w, S k <= n -> samples (log_of (fcall_n U n (lchain None k) w)) = [d].
Proof.
  induction k as [|k IH]; intros n w Hn; (destruct n as [|n]; [lia|]).
  - apply fsample_log.
  - cbn [fcall_n lchain option_map steps_with].
    destruct (fcall_chain n None k w ltac:(lia)) as [lg E].
    pose proof (IH n w ltac:(lia)) as H. rewrite E in H |- *. cbn [snd log_of] in H.
    destruct Hpure as [Hsem _]. cbn [call_fn]. rewrite Hsem.
    rewrite regularized_pf. unfold opt_neq. cbn [log_of snd app].
    rewrite !samples_app, H. reflexivity.
Qed.

(** Called after everything has changed. *)
Lemma flog_changed k : forall n w0 w, S k <= n ->
  (forall j, j < k -> level w0 j <> level w j) ->
  samples (log_of (fcall_n U n (lchain (Some w0) k) w)) = repeat d (S k).
Proof.
  induction k as [|k IH]; intros n w0 w Hn Hch; (destruct n as [|n]; [lia|]).
  - apply fsample_log.
  - cbn [fcall_n lchain option_map fany_with steps_with].
    destruct (fcall_chain n (Some w0) k w ltac:(lia)) as [lg E].
    pose proof (IH n w0 w ltac:(lia) ltac:(intros j Hj; apply Hch; lia)) as H.
    rewrite E in H |- *. cbn [snd log_of] in H |- *.
    rewrite differs_chain.
    assert (Hne : veq (aeq U) (level w0 k) (level w k) = false).
    { destruct (veq _ _ _) eqn:Eq; [|reflexivity]. apply (eqb_spec U Hexact) in Eq.
      now apply Hch in Eq; [|lia]. }
    rewrite Hne. cbn [negb steps_with].
    destruct (fcall_chain n (Some w) k w ltac:(lia)) as [lg2 E2].
    pose proof (flog_same k n w ltac:(lia)) as H2. rewrite E2 in H2 |- *. cbn [snd log_of] in H2.
    destruct Hpure as [Hsem _]. cbn [call_fn]. rewrite Hsem.
    rewrite regularized_pf. unfold opt_neq. cbn [log_of snd].
    rewrite !samples_app, H, H2. change (repeat d (S (S k))) with (d :: repeat d (S k)).
    rewrite (repeat_cons (S k) d). reflexivity.
Qed.

(** The state after creating a chain. *)
Lemma frun_app p q (s : pstate A W fid did) :
  frun U (p ++ q) s =
  match frun U p s with
  | Some (s1, o1) => match frun U q s1 with Some (s2, o2) => Some (s2, o1 ++ o2) | None => None end
  | None => None
  end.
Proof.
  revert s. induction p as [|o p IH]; intros s; cbn.
  - now destruct (frun U q s) as [[? ?]|].
  - destruct (fexec U o s) as [[s1 out]|]; [|reflexivity]. rewrite IH.
    destruct (frun U p s1) as [[s2 o2]|]; [|reflexivity].
    now destruct (frun U q s2) as [[? ?]|].
Qed.

Lemma run_app' p q (s : pstate A W fid did) :
  run U (p ++ q) s =
  match run U p s with
  | Some (s1, o1) => match run U q s1 with Some (s2, o2) => Some (s2, o1 ++ o2) | None => None end
  | None => None
  end.
Proof.
  revert s. induction p as [|o p IH]; intros s; cbn [app run].
  - now destruct (run U q s) as [[? ?]|].
  - destruct (exec U o s) as [[s1 out]|]; [|reflexivity]. rewrite IH.
    destruct (run U p s1) as [[s2 o2]|]; [|reflexivity].
    now destruct (run U q s2) as [[? ?]|].
Qed.

Definition created (n : nat) : list (lz A fid did) := map (lchain None) (seq 1 (S n)).

Lemma nth_created n k : k <= n -> nth_error (created n) k = Some (lchain None (S k)).
Proof.
  intros H. unfold created. rewrite nth_error_map.
  rewrite nth_error_nth' with (d := 0) by (rewrite seq_length; lia).
  rewrite seq_nth by lia. reflexivity.
Qed.

Lemma created_S n : created n ++ [lchain None (S (S n))] = created (S n).
Proof. unfold created. rewrite (seq_S (S n)), map_app. reflexivity. Qed.

Lemma news_created w n : forall m,
  exists outs, run U (map (fun i => New f [DVar i]) (seq m n)) (mkState (created m) w)
               = Some (mkState (created (m + n)) w, outs)
            /\ frun U (map (fun i => New f [DVar i]) (seq m n)) (mkState (created m) w)
               = Some (mkState (created (m + n)) w, outs).
Proof.
  induction n as [|n IH]; intros m.
  - cbn. rewrite Nat.add_0_r. eexists; split; reflexivity.
  - destruct (IH (S m)) as (outs & E1 & E2).
    assert (H : deps_of (created m) [DVar m] = Some [ObjLazy (lchain None (S m))]).
    { cbn [deps_of dep_of]. now rewrite nth_created. }
    cbn [seq map run frun fexec exec vars world].
    rewrite H. unfold mk_lazy. cbn [map ensure_lazy].
    change (LCore (FnUser f) None [lchain None (S m)]) with (lchain None (S (S m))).
    rewrite created_S, E1, E2. rewrite <- plus_n_Sm. eexists; split; reflexivity.
Qed.

Lemma chain_created n w :
  exists outs, run U (chain f d n) (mkState [] w) = Some (mkState (created n) w, outs)
            /\ frun U (chain f d n) (mkState [] w) = Some (mkState (created n) w, outs).
Proof.
  destruct (news_created w n 0) as (outs & E1 & E2).
  assert (H : exec U (New f [DFun d]) (mkState [] w) = Some (mkState (created 0) w, (None, [])))
    by reflexivity.
  unfold chain. cbn [run frun fexec]. rewrite H.
  rewrite E1, E2. eexists; split; reflexivity.
Qed.

Lemma depth_chain last k : depth (lchain last k) = S k.
Proof. rewrite (depth_rel U pf rd _ _ (rel_chain last k)). apply edepth_chain. Qed.

Lemma update_nth {T} (xs : list T) x k : k < length xs -> nth_error (update k x xs) k = Some x.
Proof.
  revert k. induction xs as [|y xs IH]; intros [|k] H; cbn in *; try lia; [reflexivity|].
  apply IH. lia.
Qed.

Lemma step_chain last k w :
  exists lg, step U (lchain last k) w
    = (Ok (level w k, differs pf rd (veq (aeq U)) (tchain last k) w), lchain (Some w) k, w, lg)
    /\ samples lg = [d].
Proof.
  destruct (step_spec U pf rd Hpure Hexact (tchain last k) (lchain last k) w
              (rel_chain last k) (regular_chain last k) (never_null_chain last k)) as (l' & E & R).
  rewrite touch_chain in R. rewrite (rel_functional U pf rd _ _ _ R (rel_chain (Some w) k)) in E.
  eexists. rewrite E, eval_chain. split; [reflexivity|].
  rewrite samples_expected. clear. induction k as [|k IH]; cbn; [reflexivity|]. rewrite IH. reflexivity.
Qed.

Lemma doc_double_calls n w h :
  (forall k, k <= n -> level w k <> level (h w) k) ->
  exists s outs outs' r lg lg',
    run U (chain f d n ++ [Call n; Env h; Call n]) (mkState [] w) = Some (s, outs ++ [(r, lg)]) /\
    frun U (chain f d n ++ [Call n; Env h; Call n]) (mkState [] w) = Some (s, outs' ++ [(r, lg')]) /\
    samples lg = [d] /\ samples lg' = repeat d (n + 2).
Proof.
  intros Hch. rewrite run_app', frun_app.
  destruct (chain_created n w) as (outs & -> & ->).
  cbn [run frun fexec exec vars world].
  rewrite (nth_created n n) by lia. unfold fcall. rewrite !depth_chain.
  destruct (step_chain None (S n) w) as (lg1 & E1 & _). rewrite E1.
  destruct (fcall_chain (S (S n)) None (S n) w (le_n _)) as (lg2 & E2). rewrite E2.
  cbn [vars world].
  assert (Hn : nth_error (update n (lchain (Some w) (S n)) (created n)) n = Some (lchain (Some w) (S n))).
  { apply update_nth. unfold created. rewrite map_length, seq_length. lia. }
  rewrite Hn, !depth_chain.
  destruct (step_chain (Some w) (S n) (h w)) as (lg3 & E3 & S3). rewrite E3.
  destruct (fcall_chain (S (S n)) (Some w) (S n) (h w) (le_n _)) as (lg4 & E4).
  pose proof (flog_changed (S n) (S (S n)) w (h w) (le_n _) ltac:(intros j Hj; apply Hch; lia)) as S4.
  rewrite E4 in S4 |- *. cbn [log_of snd] in S4.
  eexists _, (outs ++ [_; _]), (outs ++ [_; _]), _, lg3, lg4.
  split; [rewrite <- app_assoc; reflexivity|]. split; [rewrite <- app_assoc; reflexivity|].
  split; [exact S3|]. rewrite S4. f_equal. lia.
Qed.
End Chain.

End Props.
