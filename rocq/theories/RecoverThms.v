(** After a call that ran everything, the calls up to the next exception are right (C15). *)
From Coq Require Import List Bool Arith Lia.
From Verif Require Import Value TupleAlg TupleAlgProofs LazyModel LazySpec LazySpec2 LazyProofs LazyGeneral
  LazyRel LazyThms HistorySpec HistoryThms.
Import ListNotations.

Section Recover.
Context {A W fid did : Type}.
Notation value := (val A).
Notation lz := (lz A fid did).
Variable U : user A W fid did.
Variable pf : fid -> list value -> option value.
Variable rd : did -> W -> value.
Hypothesis Hpt : pure_or_throw U pf rd.

Definition resyncs (l : lz) : Prop :=
  forall e w v ch l' w' lg,
    has_shape U e l -> regular pf rd e -> step U l w = (Ok (v, ch), l', w', lg) ->
    evaluations lg = postorder e -> good U pf eq e l' /\ LazyRel.delivered l' = Some v.

Lemma steps_resync ls : Forall resyncs ls ->
  forall es w rs ls' w' lg,
    Forall2 (has_shape U) es ls -> Forall (regular pf rd) es -> steps U ls w = (Ok rs, ls', w', lg) ->
    evaluations lg = flat_map postorder es ->
    Forall2 (good U pf eq) es ls' /\ map LazyRel.delivered ls' = map Some (map fst rs).
Proof.
  induction 1 as [|l ls Hl Hls IH]; intros es w rs ls' w' lg Hs Hreg Hst Hev.
  - inversion Hs; subst. rewrite steps_nil in Hst. injection Hst as <- <- <- <-. split; [constructor|reflexivity].
  - inversion Hs as [|e ? es' ? Hs1 Hs2]; subst. inversion Hreg as [|? ? Hr1 Hr2]; subst.
    rewrite steps_cons in Hst.
    pose proof (step_performs U l e w Hs1) as P1.
    destruct (step U l w) as [[[r1 l1] w1] lg1] eqn:E1.
    destruct r1 as [[v ch]| |]; [|discriminate|discriminate].
    assert (P2 := steps_performs U es' ls Hs2).
    assert (Hall : Forall (fun l : lz => forall e w, has_shape U e l ->
      let '(r, _, w', lg) := step U l w in performs U l w lg w' (outcome r)) ls).
    { apply Forall_forall. intros l0 _. apply step_performs. }
    specialize (P2 Hall w1).
    destruct (steps U ls w1) as [[[r2 ls2] w2] lg2] eqn:E2.
    destruct r2 as [rs2| |]; [|discriminate|discriminate]. injection Hst as <- <- <- <-.
    rewrite evaluations_app in Hev. cbn [flat_map] in Hev.
    apply subseq_full_app in Hev as [Hev1 Hev2];
      [|eapply (proj1 (performs_evals_mut U)); eauto|eapply (proj2 (performs_evals_mut U)); eauto].
    destruct (Hl _ _ _ _ _ _ _ Hs1 Hr1 E1 Hev1) as [Hg Hd].
    destruct (IH _ _ _ _ _ _ Hs2 Hr2 E2 Hev2) as [Hgs Hds].
    split; [now constructor|]. cbn. now rewrite Hd, Hds.
Qed.

Lemma resync l : resyncs l.
Proof.
  induction l as [u uch|g cache deps IH] using lz_ind'; intros e w v ch l' w' lg Hs Hreg Hst Hev.
  - inversion Hs; subst. rewrite step_value in Hst. injection Hst as <- <- <- <- <-. split; [constructor|reflexivity].
  - inversion Hs as [|d c|f c es ls Hes]; subst.
    + rewrite step_core, steps_cons, step_value, steps_nil in Hst. cbn in Hst.
      rewrite core_eq in Hst. cbn [existsb snd] in Hst. rewrite orb_true_r in Hst. cbn [call_fn] in Hst.
      destruct (dsem U d w) as [[v0|] w0]; [|discriminate]. injection Hst as <- <- <- <- <-.
      split; [constructor|reflexivity].
    + pose proof (step_performs U _ _ w Hs) as P0. rewrite Hst in P0.
      pose proof (proj1 (performs_evals_mut U) _ _ _ _ _ P0 _ Hs) as Hsub.
      apply regular_app in Hreg as [Hone Hregs].
      rewrite step_core in Hst.
      assert (P2 := steps_performs U es deps Hes).
      assert (Hall : Forall (fun l : lz => forall e w, has_shape U e l ->
        let '(r, _, w', lg) := step U l w in performs U l w lg w' (outcome r)) deps).
      { apply Forall_forall. intros l0 _. apply step_performs. }
      specialize (P2 Hall w).
      destruct (steps U deps w) as [[[rs ds] w1] lg1] eqn:Es.
      destruct rs as [rs| |]; [|discriminate|discriminate].
      pose proof (proj2 (performs_evals_mut U) _ _ _ _ _ P2 _ Hes) as Hsubs.
      rewrite core_eq in Hst.
      destruct (negb (is_some cache) || existsb snd rs) eqn:Ech.
      * cbn [call_fn] in Hst.
        destruct Hpt as [Hsem Hdsem].
        set (args := ctad_tuple as_tuple (map fst rs)) in *.
        destruct (Hsem f args w1) as [Hf|Hf]; rewrite Hf in Hst; [|discriminate].
        assert (Hreg' : regularized (FRet (pf f args)) = VRet (fval pf f args)).
        { unfold regularized, fval. now destruct (pf f _). }
        rewrite Hreg' in Hst. injection Hst as <- <- <- <- <-.
        assert (Hev1 : evaluations lg1 = flat_map postorder es).
        { cbn [postorder] in Hev. rewrite evaluations_app in Hev.
          destruct cache; cbn in Hev; now apply app_inj_tail in Hev as [Hev _]. }
        destruct (steps_resync deps IH _ _ _ _ _ _ Hes Hregs Es Hev1) as [Hgs Hds].
        split; [|reflexivity]. constructor; auto.
        intros v0 Hv0. injection Hv0 as <-. exists (map fst rs). split; auto.
        f_equal. subst args. apply ctad_regular. intros x Hx.
        pose proof (proj2 (performs_recover_mut U pf rd Hpt) _ _ _ _ _ P2 es (map fst rs) Hes Hev1 Hregs eq_refl) as Hvals.
        destruct es as [|e1 [|e2 es]]; rewrite Hx in Hvals; try discriminate.
        injection Hvals as ->. apply Hone.
      * exfalso. apply subseq_length in Hsubs.
        assert (Hlg : lg = lg1).
        { destruct cache; [|discriminate]. injection Hst as _ _ _ _ Hl. rewrite app_nil_r in Hl. auto. }
        subst lg. cbn [postorder] in Hev. apply (f_equal (@length _)) in Hev.
        rewrite app_length in Hev. cbn in Hev. lia.
Qed.

(** The calls of a good variable are right until one of them throws. *)
Lemma good_until (Hsound : sound_eq U) x e (Hreg : regular pf rd e) (Hun : unnested pf rd e) q :
  forall s l s' outs s'' o lg,
  nth_error (vars s) x = Some l -> good U pf eq e l ->
  run U q s = Some (s', outs) -> Forall (fun out => fst out <> Some Exc) (outputs_of x q outs) ->
  exec U (Call x) s' = Some (s'', (Some (Ok o), lg)) ->
  o = visible (eval pf rd e (world s')).
Proof.
  assert (Hstep : forall l w r l' w' lg, good U pf eq e l -> step U l w = (r, l', w', lg) ->
    match r with Ok (v, ch) => v = eval pf rd e w /\ good U pf eq e l' | Exc => True | UB => False end).
  { intros l w r l' w' lg Hg Es.
    destruct (step_good_all U pf rd Hpt eq) with (l := l) (e := e) (w := w) (r := r) (l' := l') (w' := w') (lg := lg)
      as [_ Hr]; auto; try (intros; congruence).
    - intros x1 y1. apply veq_sound, Hsound.
    - intros f xs ys Hxy. f_equal. induction Hxy; congruence.
    - destruct r as [[u uch]| |]; auto. tauto. }
  induction q as [|op q IH]; intros s l s' outs s'' o lg Hl Hg Hr Hno He.
  - cbn in Hr. injection Hr as <- <-.
    destruct (exec_call_inv _ _ _ _ _ _ He) as (l0 & l' & r' & Hl0 & Hst & Hres & _).
    rewrite Hl in Hl0. injection Hl0 as <-.
    apply Hstep in Hst; auto. destruct r' as [[v ch]| |]; try discriminate. destruct Hst as [-> _].
    rewrite api_result_visible in Hres. now injection Hres as ->.
  - cbn [run] in Hr. destruct (exec U op s) as [[s1 out]|] eqn:Ee; [|discriminate].
    destruct (run U q s1) as [[s2 outs']|] eqn:Er; [|discriminate]. injection Hr as <- <-.
    assert (Hlt : x < length (vars s)) by (apply nth_error_Some; congruence).
    destruct op as [f ss|y|y|h]; cbn [exec] in Ee; cbn [outputs_of] in Hno.
    + destruct (deps_of _ _); [|discriminate]. injection Ee as <- <-.
      eapply IH; [|exact Hg|exact Er|exact Hno|exact He]. cbn. now rewrite nth_error_app1.
    + destruct (nth_error (vars s) y); [|discriminate]. injection Ee as <- <-.
      eapply IH; [|exact Hg|exact Er|exact Hno|exact He]. cbn. now rewrite nth_error_app1.
    + destruct (nth_error (vars s) y) as [ly|] eqn:Ely; [|discriminate].
      destruct (step U ly (world s)) as [[[r l'] w'] lg'] eqn:Es. injection Ee as <- <-.
      destruct (Nat.eqb x y) eqn:Exy.
      * apply Nat.eqb_eq in Exy. subst y. rewrite Hl in Ely. injection Ely as <-.
        inversion Hno as [|? ? Hn1 Hn2]; subst. apply Hstep in Es; auto.
        destruct r as [[v ch]| |]; [|exfalso; apply Hn1; reflexivity|destruct Es].
        eapply IH; [|exact (proj2 Es)|exact Er|exact Hn2|exact He].
        cbn. rewrite nth_error_update, Nat.eqb_refl.
        apply Nat.ltb_lt in Hlt. now rewrite Hlt.
      * eapply IH; [|exact Hg|exact Er|exact Hno|exact He].
        cbn. rewrite nth_error_update, Nat.eqb_sym, Exy. exact Hl.
    + injection Ee as <- <-. eapply IH; [|exact Hg|exact Er|exact Hno|exact He]. exact Hl.
Qed.

Lemma stays_recovered : sound_eq U ->
  forall p w s outs es x e s1 o1 lg1 q s2 outs2 s3 o lg,
  run U p (mkState [] w) = Some (s, outs) ->
  shapes p [] = Some es -> nth_error es x = Some e -> regular pf rd e -> unnested pf rd e ->
  exec U (Call x) s = Some (s1, (Some (Ok o1), lg1)) -> evaluations lg1 = postorder e ->
  run U q s1 = Some (s2, outs2) ->
  Forall (fun out => fst out <> Some Exc) (outputs_of x q outs2) ->
  exec U (Call x) s2 = Some (s3, (Some (Ok o), lg)) ->
  o = visible (eval pf rd e (world s2)).
Proof.
  intros Hsound p w s outs es x e s1 o1 lg1 q s2 outs2 s3 o lg Hr Hs Hx Hreg Hun He1 Hev Hq Hno He.
  destruct (program_var _ _ _ _ _ _ _ _ Hr Hs Hx) as (l & Hl & Hshape).
  destruct (exec_call_inv _ _ _ _ _ _ He1) as (l0 & l' & r' & Hl0 & Hst & Hres & Hvars).
  rewrite Hl in Hl0. injection Hl0 as <-.
  symmetry in Hres. destruct (api_result_Ok_inv _ _ Hres) as (u & ch & -> & _).
  destruct (resync l _ _ _ _ _ _ _ Hshape Hreg Hst Hev) as [Hg _].
  eapply (good_until Hsound x e Hreg Hun q s1 l'); eauto.
  rewrite Hvars, nth_error_update, Nat.eqb_refl.
  assert (Hlt : x < length (vars s)) by (apply nth_error_Some; congruence).
  apply Nat.ltb_lt in Hlt. now rewrite Hlt.
Qed.
End Recover.
