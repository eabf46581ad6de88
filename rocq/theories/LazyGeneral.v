(** Proofs about LazyModel.v for arbitrary user functions. *)
From Coq Require Import List Bool Arith Lia.
From Verif Require Import Value TupleAlg TupleAlgProofs LazyModel LazySpec LazySpec2 LazyProofs.
Import ListNotations.

Lemma subseq_refl {X} (l : list X) : subseq l l.
Proof. induction l; [constructor|]. now apply subseq_take. Qed.

Lemma subseq_nil_l {X} (l : list X) : subseq [] l.
Proof. induction l; [constructor|]. now constructor. Qed.

Lemma subseq_app {X} (a b c d : list X) : subseq a b -> subseq c d -> subseq (a ++ c) (b ++ d).
Proof. intros H Hcd. induction H; cbn; auto; [apply subseq_skip|apply subseq_take]; auto. Qed.
Lemma subseq_app_r {X} (a b c : list X) : subseq a b -> subseq a (b ++ c).
Proof. intros H. rewrite <- (app_nil_r a). apply subseq_app; auto using subseq_nil_l. Qed.

Section General.
Context {A W fid did : Type}.
Notation value := (val A).
Notation lz := (lz A fid did).
Notation event := (event A fid did).
Variable U : user A W fid did.

Lemma core_eq g cache args w :
  core U g cache args w =
  if negb (is_some cache) || existsb snd args then
    match call_fn U g (ctad_tuple as_tuple (map fst args)) w with
    | (VThrow, w', lg) => (Exc, cache, w', lg)
    | (VRet result, w', lg) =>
        (Ok (result, opt_ne (aeq U) cache result),
         Some result, w',
         lg ++ match cache with None => [] | Some c => [EvCmp c result] end)
    end
  else match cache with
       | Some c => (Ok (c, false), cache, w, [])
       | None => (UB, cache, w, [])
       end.
Proof.
  unfold core. rewrite any_pure, transform_pure. cbn [fst].
  change (existsb lr_is_changed args) with (existsb snd args).
  change (map lr_value args) with (map fst args).
  destruct (negb (is_some cache) || existsb snd args) eqn:E.
  - destruct (call_fn U g _ w) as [[[v|] w'] lg]; [|reflexivity].
    destruct cache; reflexivity.
  - reflexivity.
Qed.

Lemma step_core g cache deps w :
  step U (LCore g cache deps) w =
  let '(rs, deps', w1, l1) := steps U deps w in
  match rs with
  | Ok rs' =>
      let '(r, cache', w2, l2) := core U g cache rs' w1 in
      (r, LCore g cache' deps', w2, l1 ++ l2)
  | Exc => (Exc, LCore g cache deps', w1, l1)
  | UB => (UB, LCore g cache deps', w1, l1)
  end.
Proof.
  cbn [step]. fold (steps U).
  destruct (steps U deps w) as [[[[rs| |] ds] w1] l1]; try reflexivity.
  now rewrite ctad_none.
Qed.

Lemma steps_cons d ds w :
  steps U (d :: ds) w =
  let '(r, d', w1, l1) := step U d w in
  match r with
  | Ok x =>
      let '(rs, ds'', w2, l2) := steps U ds w1 in
      (match rs with Ok xs => Ok (x :: xs) | Exc => Exc | UB => UB end,
       d' :: ds'', w2, l1 ++ l2)
  | Exc => (Exc, d' :: ds, w1, l1)
  | UB => (UB, d' :: ds, w1, l1)
  end.
Proof. reflexivity. Qed.

Lemma steps_nil w : steps U [] w = (Ok [], [], w, []).
Proof. reflexivity. Qed.

Lemma step_value v ch w : step U (LValue v ch) w = (Ok (v, ch), LValue v ch, w, []).
Proof. reflexivity. Qed.

(** ** No undefined behaviour *)
Lemma core_not_ub g cache args w : fst (fst (fst (core U g cache args w))) <> UB.
Proof.
  rewrite core_eq. destruct cache as [c|]; cbn [is_some negb orb].
  - destruct (existsb snd args); [|discriminate].
    destruct (call_fn U g _ w) as [[[v|] w'] lg]; discriminate.
  - destruct (call_fn U g _ w) as [[[v|] w'] lg]; discriminate.
Qed.

Lemma steps_not_ub ds :
  Forall (fun l : lz => forall w, fst (fst (fst (step U l w))) <> UB) ds ->
  forall w, fst (fst (fst (steps U ds w))) <> UB.
Proof.
  induction 1 as [|d ds Hd Hds IH]; intros w.
  - discriminate.
  - rewrite steps_cons. specialize (Hd w).
    destruct (step U d w) as [[[[x| |] d'] w1] l1]; cbn in *; try congruence.
    specialize (IH w1). destruct (steps U ds w1) as [[[[xs| |] ds''] w2] l2]; cbn in *; congruence.
Qed.

Lemma step_not_ub l : forall w, fst (fst (fst (step U l w))) <> UB.
Proof.
  induction l as [v ch|g cache deps IH] using lz_ind'; intros w.
  - discriminate.
  - rewrite step_core. pose proof (steps_not_ub deps IH w) as Hs.
    destruct (steps U deps w) as [[[[rs| |] ds] w1] l1]; cbn in *; try congruence.
    pose proof (core_not_ub g cache rs w1) as Hc.
    destruct (core U g cache rs w1) as [[[r c'] w2] l2]. exact Hc.
Qed.

(** ** Shapes *)
Inductive has_shape : expr A fid did -> lz -> Prop :=
| hs_const v : has_shape (EConst v) (LValue v false)
| hs_fun d c : has_shape (EFun d) (LCore (FnSample d) c [LValue (VAtom (int0 U)) true])
| hs_app f c es ls :
    Forall2 has_shape es ls -> has_shape (EApp f es) (LCore (FnUser f) c ls).

Lemma steps_shape (es : list (expr A fid did)) ls :
  Forall2 has_shape es ls ->
  Forall (fun l : lz => forall e w, has_shape e l -> has_shape e (snd (fst (fst (step U l w))))) ls ->
  forall w, Forall2 has_shape es (snd (fst (fst (steps U ls w)))).
Proof.
  induction 1 as [|e l es ls Hel H IH]; intros Hall w.
  - constructor.
  - inversion Hall as [|? ? Hl Hls]; subst. rewrite steps_cons.
    specialize (Hl e w Hel).
    destruct (step U l w) as [[[[x| |] d'] w1] l1]; cbn in *; [|constructor; auto..].
    specialize (IH Hls w1). destruct (steps U ls w1) as [[[rs ds''] w2] l2]; cbn in *.
    constructor; auto.
Qed.

Lemma step_shape l : forall e w, has_shape e l -> has_shape e (snd (fst (fst (step U l w)))).
Proof.
  induction l as [v ch|g cache deps IH] using lz_ind'; intros e w H.
  - exact H.
  - rewrite step_core. inversion H as [|d c|f c es ls Hes]; subst.
    + cbn. destruct (core U _ cache _ w) as [[[r c'] w2] l2]. cbn. constructor.
    + pose proof (steps_shape es deps Hes IH w) as Hs.
      destruct (steps U deps w) as [[[[rs| |] ds] w1] l1]; cbn in *; [|constructor; auto..].
      destruct (core U _ cache rs w1) as [[[r c'] w2] l2]. cbn. constructor; auto.
Qed.

Lemma deps_shape es (ls : list lz) ss :
  Forall2 has_shape es ls ->
  match spec_deps EConst EFun es ss, deps_of ls ss with
  | Some us, Some os => Forall2 has_shape us (map (ensure_lazy U) os)
  | None, None => True
  | _, _ => False
  end.
Proof.
  intros H. induction ss as [|s ss IH]; cbn; [constructor|].
  destruct s as [x|d|v]; cbn in *.
  - destruct (nth_error es x) as [e|] eqn:E.
    + destruct (Forall2_nth_error _ _ _ _ _ H E) as (l & -> & Hl); cbn.
      destruct (spec_deps _ _ es ss), (deps_of ls ss); auto; now constructor.
    + rewrite (Forall2_nth_error_None _ _ _ _ H E); cbn. auto.
  - destruct (spec_deps _ _ es ss), (deps_of ls ss); auto. constructor; [constructor|assumption].
  - destruct (spec_deps _ _ es ss), (deps_of ls ss); auto. constructor; [constructor|assumption].
Qed.

(** The variables of a program always have the shapes the program text gives them. *)
Lemma run_shapes p : forall es ls w,
  Forall2 has_shape es ls ->
  match shapes p es with
  | Some es' => exists s outs, run U p (mkState ls w) = Some (s, outs) /\ Forall2 has_shape es' (vars s)
  | None => run U p (mkState ls w) = None
  end.
Proof.
  induction p as [|o p IH]; intros es ls w H.
  - cbn. eauto.
  - destruct o as [f ss|x|x|h]; cbn [shapes run exec vars world].
    + pose proof (deps_shape es ls ss H) as Hd.
      destruct (spec_deps EConst EFun es ss) as [us|], (deps_of ls ss) as [os|]; try contradiction; auto.
      assert (H' : Forall2 has_shape (es ++ [EApp f us]) (ls ++ [mk_lazy U f os])).
      { apply Forall2_app; auto. constructor; [|constructor]. now constructor. }
      specialize (IH _ _ w H').
      destruct (shapes p _) as [es'|].
      * destruct IH as (s & outs & -> & Hs). eauto.
      * now rewrite IH.
    + destruct (nth_error es x) as [e|] eqn:E.
      * destruct (Forall2_nth_error _ _ _ _ _ H E) as (l & -> & Hl); cbn.
        assert (H' : Forall2 has_shape (es ++ [e]) (ls ++ [l])) by (apply Forall2_app; auto).
        specialize (IH _ _ w H').
        destruct (shapes p _) as [es'|].
        -- destruct IH as (s & outs & -> & Hs). eauto.
        -- now rewrite IH.
      * now rewrite (Forall2_nth_error_None _ _ _ _ H E).
    + destruct (nth_error es x) as [e|] eqn:E.
      * destruct (Forall2_nth_error _ _ _ _ _ H E) as (l & -> & Hl); cbn.
        pose proof (step_shape l e w Hl) as Hl'.
        destruct (step U l w) as [[[r l'] w'] lg]; cbn in Hl'.
        assert (H' : Forall2 has_shape es (update x l' ls)).
        { rewrite <- (update_same es x e E). apply Forall2_update; auto. }
        specialize (IH _ _ w' H').
        destruct (shapes p es) as [es'|].
        -- destruct IH as (s & outs & -> & Hs). eauto.
        -- now rewrite IH.
      * now rewrite (Forall2_nth_error_None _ _ _ _ H E).
    + specialize (IH _ _ (h w) H).
      destruct (shapes p es) as [es'|].
      * destruct IH as (s & outs & -> & Hs). eauto.
      * now rewrite IH.
Qed.

(** Conversely: a program that runs has shapes. *)
Lemma run_has_shapes p es ls w s outs :
  Forall2 has_shape es ls -> run U p (mkState ls w) = Some (s, outs) ->
  exists es', shapes p es = Some es' /\ Forall2 has_shape es' (vars s).
Proof.
  intros H Hr. pose proof (run_shapes p es ls w H) as Hs.
  destruct (shapes p es) as [es'|].
  - destruct Hs as (s' & outs' & Hr' & Hs'). rewrite Hr in Hr'. injection Hr' as <- <-. eauto.
  - congruence.
Qed.

(** ** What one call does *)
Lemma ctad_passes (vs : list value) : passes vs (ctad_tuple as_tuple vs).
Proof.
  destruct vs as [|v [|v2 vs]]; cbn.
  - constructor. discriminate.
  - destruct v as [a| |l|x y|o]; cbn; try constructor; intros u E; injection E as <-; reflexivity.
  - constructor. discriminate.
Qed.

Lemma steps_performs es ls :
  Forall2 has_shape es ls ->
  Forall (fun l : lz => forall e w, has_shape e l ->
    let '(r, _, w', lg) := step U l w in performs U l w lg w' (outcome r)) ls ->
  forall w, let '(rs, _, w', lg) := steps U ls w in
    performs_all U ls w lg w' (match rs with Ok xs => Some (map fst xs) | _ => None end).
Proof.
  induction 1 as [|e l es ls Hel H IH]; intros Hall w.
  - rewrite steps_nil. constructor.
  - inversion Hall as [|? ? Hl Hls]; subst. rewrite steps_cons.
    specialize (Hl e w Hel). pose proof (step_not_ub l w) as Hub.
    destruct (step U l w) as [[[[[v ch]| |] d'] w1] l1]; cbn in Hub; try congruence; cbn in Hl.
    + specialize (IH Hls w1).
      assert (Hub2 : fst (fst (fst (steps U ls w1))) <> UB)
        by (apply steps_not_ub; apply Forall_forall; intros; apply step_not_ub).
      destruct (steps U ls w1) as [[[[xs| |] ds''] w2] l2]; cbn in *; try congruence.
      * econstructor; eauto.
      * eapply pa_throw_later; eauto.
    + now apply pa_throw.
Qed.

Lemma step_performs l : forall e w, has_shape e l ->
  let '(r, _, w', lg) := step U l w in performs U l w lg w' (outcome r).
Proof.
  induction l as [v ch|g cache deps IH] using lz_ind'; intros e w H.
  - cbn. constructor.
  - rewrite step_core. inversion H as [|d c|f c es ls Hes]; subst.
    + cbn. rewrite core_eq. cbn [existsb snd]. rewrite orb_true_r. cbn [call_fn map].
      destruct (dsem U d w) as [[v|] w'] eqn:E.
      * destruct cache; cbn; constructor; assumption.
      * cbn. now constructor.
    + pose proof (steps_performs es deps Hes IH w) as Hs.
      assert (Hub2 : fst (fst (fst (steps U deps w))) <> UB)
        by (apply steps_not_ub; apply Forall_forall; intros; apply step_not_ub).
      destruct (steps U deps w) as [[[[rs| |] ds] w1] l1]; cbn in Hub2; try congruence; cbn in Hs.
      * rewrite core_eq. cbn [call_fn]. pose proof (ctad_passes (map fst rs)) as Hp.
        destruct (negb (is_some cache) || existsb snd rs) eqn:Ech.
        -- destruct (sem U f (ctad_tuple as_tuple (map fst rs)) w1) as [[o|] w2] eqn:E.
           ++ assert (Hreg : regularized (FRet o) = VRet (match o with Some v => v | None => VVoid end))
                by (destruct o; reflexivity).
              rewrite Hreg. destruct cache as [c|]; cbn.
              ** eapply p_again; eauto.
              ** eapply p_first; eauto.
           ++ cbn. eapply p_throw; eauto.
        -- destruct cache as [c|]; cbn in *; [|discriminate].
           rewrite app_nil_r. eapply p_skip; eauto.
      * now apply p_dep_throw.
Qed.

(** ** Samples, evaluations and comparisons in the log *)
Lemma samples_app (a b : list event) : samples (a ++ b) = samples a ++ samples b.
Proof. apply flat_map_app. Qed.
Lemma evaluations_app (a b : list event) : evaluations (a ++ b) = evaluations a ++ evaluations b.
Proof. apply flat_map_app. Qed.
Lemma comparisons_app (a b : list event) : comparisons (a ++ b) = comparisons a ++ comparisons b.
Proof. apply flat_map_app. Qed.

Scheme performs_min := Minimality for performs Sort Prop
  with performs_all_min := Minimality for performs_all Sort Prop.
Combined Scheme performs_mut from performs_min, performs_all_min.


Ltac inv_shape :=
  match goal with
  | H : has_shape _ ?l |- _ => inversion H; subst; clear H
  | H : Forall2 has_shape _ ?l |- _ => inversion H; subst; clear H
  end.

Lemma performs_samples_mut :
  (forall l w lg w' v, performs U l w lg w' v ->
     forall e, has_shape e l -> v <> None -> samples lg = plain_functions e) /\
  (forall ds w lg w' vs, performs_all U ds w lg w' vs ->
     forall es, Forall2 has_shape es ds -> vs <> None -> samples lg = flat_map plain_functions es).
Proof.
  apply performs_mut; intros; inv_shape; cbn; auto; try congruence;
    rewrite ?samples_app; cbn; rewrite ?app_nil_r;
    try match goal with IH : forall es, _ -> _ -> samples _ = flat_map _ es |- _ = flat_map _ _ =>
          apply IH; [assumption|congruence] end.
  f_equal; [apply H0 | apply H2]; auto; congruence.
Qed.

Lemma performs_evals_mut :
  (forall l w lg w' v, performs U l w lg w' v ->
     forall e, has_shape e l -> subseq (evaluations lg) (postorder e)) /\
  (forall ds w lg w' vs, performs_all U ds w lg w' vs ->
     forall es, Forall2 has_shape es ds -> subseq (evaluations lg) (flat_map postorder es)).
Proof.
  apply performs_mut; intros; inv_shape; cbn; rewrite ?evaluations_app; cbn;
    auto using subseq_nil_l, subseq_refl, subseq_app, subseq_app_r.
Qed.


Lemma cmp_after_app (a b : list event) :
  compares_after_evaluating a -> compares_after_evaluating b -> compares_after_evaluating (a ++ b).
Proof.
  intros Ha Hb lg1 x y lg2 E.
  assert (Hsplit : (exists t, a = lg1 ++ EvCmp x y :: t) \/ (exists t, lg1 = a ++ t /\ b = t ++ EvCmp x y :: lg2)).
  { clear Ha Hb. revert lg1 E. induction a as [|e a IH]; intros lg1 E.
    - right. exists lg1. auto.
    - destruct lg1 as [|e1 lg1]; cbn in E.
      + injection E as -> <-. left. exists a. reflexivity.
      + injection E as -> E. destruct (IH _ E) as [[t ->]|(t & -> & ->)].
        * left. exists t. reflexivity.
        * right. exists t. auto. }
  destruct Hsplit as [[t Ht]|(t & -> & Ht)].
  - exact (Ha _ _ _ _ Ht).
  - destruct (Hb _ _ _ _ Ht) as (lg0 & ev & -> & Hev).
    exists (a ++ lg0), ev. rewrite app_assoc. auto.
Qed.

Lemma cmp_after_nil : compares_after_evaluating (@nil event).
Proof. intros [|? ?]; discriminate. Qed.

Lemma cmp_after_1 (ev : event) :
  match ev with EvCmp _ _ => False | _ => True end -> compares_after_evaluating [ev].
Proof.
  intros H [|e [|e2 lg1]] a b lg2 E; try discriminate.
  injection E as ->. destruct H.
Qed.

Lemma cmp_after_2 (ev : event) a b :
  match ev with EvCmp _ _ => False | _ => True end -> compares_after_evaluating [ev; EvCmp a b].
Proof.
  intros H [|e [|e2 [|e3 lg1]]] x y lg2 E; try discriminate.
  - injection E as -> _. destruct H.
  - injection E as -> _ _ _. exists [], e. split; [reflexivity|]. destruct e; auto.
Qed.

Lemma performs_cmp_mut :
  (forall l w lg w' v, performs U l w lg w' v -> compares_after_evaluating lg) /\
  (forall ds w lg w' vs, performs_all U ds w lg w' vs -> compares_after_evaluating lg).
Proof.
  apply performs_mut; intros; auto using cmp_after_nil, cmp_after_app, cmp_after_1, cmp_after_2.
Qed.

(** ** Fresh lazy functions *)
Lemma fresh_core g c (ds : list lz) : fresh (LCore g c ds) <-> c = None /\ Forall fresh ds.
Proof.
  cbn. split; intros [-> H]; (split; [reflexivity|]).
  - induction ds as [|d ds IH]; constructor; [apply H | apply IH, H].
  - induction H as [|d ds Hd Hds IH]; [exact I | split; assumption].
Qed.

Lemma performs_fresh_mut :
  (forall l w lg w' v, performs U l w lg w' v -> fresh l -> comparisons lg = []) /\
  (forall ds w lg w' vs, performs_all U ds w lg w' vs -> Forall fresh ds -> comparisons lg = []).
Proof.
  apply performs_mut; intros;
    try (match goal with H : fresh _ |- _ => apply fresh_core in H as [H1' H2'] end); subst;
    try discriminate; rewrite ?comparisons_app; cbn; rewrite ?app_nil_r; auto.
  - inversion H3; subst. rewrite H0, H2; auto.
  - inversion H1; auto.
  - inversion H3; subst. rewrite H0, H2; auto.
Qed.

Lemma performs_pending_mut :
  (forall l w lg w' v, performs U l w lg w' v ->
     forall e, has_shape e l -> v <> None -> subseq (pending l) (evaluations lg)) /\
  (forall ds w lg w' vs, performs_all U ds w lg w' vs ->
     forall es, Forall2 has_shape es ds -> vs <> None ->
     subseq (flat_map pending ds) (evaluations lg)).
Proof.
  apply performs_mut; intros; inv_shape; cbn; rewrite ?evaluations_app; cbn; try congruence;
    rewrite ?app_nil_r; auto using subseq_refl, subseq_nil_l.
  - eapply H0; eauto; congruence.
  - apply subseq_app; [eapply H0; eauto; congruence | apply subseq_refl].
  - apply subseq_app_r. eapply H0; eauto; congruence.
  - apply subseq_app; [eapply H0 | eapply H2]; eauto; congruence.
Qed.

Lemma fresh_pending e : forall l, has_shape e l -> fresh l -> pending l = postorder e.
Proof.
  intros l. revert e. induction l as [v ch|g c ds IH] using lz_ind'; intros e Hs Hf.
  - inv_shape. reflexivity.
  - apply fresh_core in Hf as [-> Hf]. inv_shape; cbn; [reflexivity|]. f_equal.
    match goal with H : Forall2 has_shape _ _ |- _ => rename H into Hes0 end.
    clear -IH Hf Hes0. induction Hes0 as [|e l es ls Hel Hes IHes]; cbn; [reflexivity|].
    inversion IH; inversion Hf; subst. f_equal; auto.
Qed.

Lemma subseq_antisym_length {X} (a b : list X) : subseq a b -> length b <= length a -> a = b.
Proof.
  intros H. assert (Hlen : forall (a b : list X), subseq a b -> length a <= length b)
    by (induction 1; cbn; lia).
  induction H as [|x l m H IH|x l m H IH]; cbn; intros Hl; auto.
  - apply Hlen in H. lia.
  - f_equal. apply IH. lia.
Qed.

Lemma subseq_length {X} (a b : list X) : subseq a b -> length a <= length b.
Proof. induction 1; cbn; lia. Qed.

(** ** Constant-only lazy functions *)
Lemma const_only_app f (es : list (expr A fid did)) :
  const_only (EApp f es) <-> Forall const_only es.
Proof.
  cbn. split; intros H.
  - induction es as [|e es IH]; constructor; [apply H | apply IH, H].
  - induction H; [exact I | split; assumption].
Qed.

Lemma const_done l : forall e w v ch l1 w1 lg,
  has_shape e l -> const_only e -> step U l w = (Ok (v, ch), l1, w1, lg) ->
  forall w2, step U l1 w2 = (Ok (v, false), l1, w2, []).
Proof.
  induction l as [u uch|g cache deps IH] using lz_ind'; intros e w v ch l1 w1 lg Hs Hc Hstep w2.
  - inversion Hs; subst. cbn in Hstep. injection Hstep as <- <- <- <- <-. reflexivity.
  - inversion Hs as [|d c|f c es ls Hes]; subst; [destruct Hc|].
    apply const_only_app in Hc. rewrite step_core in Hstep.
    assert (Hdeps : forall rs ds wx lx, steps U deps w = (Ok rs, ds, wx, lx) ->
              forall w2, steps U ds w2 = (Ok (map (fun r => (fst r, false)) rs), ds, w2, [])).
    { clear Hs Hstep. intros rs ds wx lx. revert w rs ds wx lx.
      induction Hes as [|e l es ls Hel Hes IHes]; intros w rs ds wx lx Hsteps w3.
      - injection Hsteps as <- <- <- <-. reflexivity.
      - inversion IH as [|? ? IH1 IH2]; subst. inversion Hc as [|? ? Hc1 Hc2]; subst.
        rewrite steps_cons in Hsteps.
        destruct (step U l w) as [[[[[v1 ch1]| |] l'] wa] la] eqn:El; try discriminate.
        destruct (steps U ls wa) as [[[[xs| |] ds''] wb] lb] eqn:Els; try discriminate.
        injection Hsteps as <- <- <- <-.
        rewrite steps_cons. rewrite (IH1 _ _ _ _ _ _ _ Hel Hc1 El).
        rewrite (IHes IH2 Hc2 _ _ _ _ _ Els). reflexivity. }
    destruct (steps U deps w) as [[[[rs| |] ds] wx] lx] eqn:Esteps; try discriminate.
    specialize (Hdeps _ _ _ _ eq_refl).
    destruct (core U (FnUser f) cache rs wx) as [[[r c'] wy] ly] eqn:Ecore.
    injection Hstep as -> <- <- <-.
    assert (Hc' : c' = Some v).
    { rewrite core_eq in Ecore.
      destruct (negb (is_some cache) || existsb snd rs).
      - destruct (call_fn U _ _ wx) as [[[u|] wz] lz]; [congruence|discriminate].
      - destruct cache; [congruence|discriminate]. }
    subst c'. rewrite step_core, Hdeps, core_eq.
    assert (Hex : existsb snd (map (fun r : value * bool => (fst r, false)) rs) = false).
    { clear. induction rs; cbn; auto. }
    rewrite Hex. reflexivity.
Qed.

(** ** Flags and caches of a node *)
Definition cache_of (l : lz) : option value :=
  match l with LValue _ _ => None | LCore _ c _ => c end.
Definition is_node (l : lz) : Prop := match l with LValue _ _ => False | LCore _ _ _ => True end.

Lemma step_cache l w r l' w' lg :
  is_node l -> step U l w = (r, l', w', lg) ->
  is_node l' /\
  match r with
  | Ok (v, ch) =>
      cache_of l' = Some v /\
      (ch = opt_ne (aeq U) (cache_of l) v \/ (ch = false /\ cache_of l = Some v))
  | _ => cache_of l' = cache_of l
  end.
Proof.
  destruct l as [|g cache deps]; [intros []|intros _]. rewrite step_core.
  destruct (steps U deps w) as [[[[rs| |] ds] wx] lx].
  - rewrite core_eq. destruct (negb (is_some cache) || existsb snd rs) eqn:E.
    + destruct (call_fn U g _ wx) as [[[u|] wz] lz].
      * intros H; injection H as <- <- <- <-. cbn. auto.
      * intros H; injection H as <- <- <- <-. cbn. auto.
    + destruct cache as [c|]; intros H; injection H as <- <- <- <-; cbn; auto.
  - intros H; injection H as <- <- <- <-. cbn. auto.
  - intros H; injection H as <- <- <- <-. cbn. auto.
Qed.

Lemma call_seq_nth (ws : list W) : forall l k r lg,
  is_node l -> nth_error (call_seq U l ws) k = Some (r, lg) ->
  exists lk l' w w',
    is_node lk /\ step U lk w = (r, l', w', lg) /\
    cache_of lk = match last_value (firstn k (call_seq U l ws)) with
                  | Some v => Some v | None => cache_of l end.
Proof.
  induction ws as [|w ws IH]; intros l k r lg Hn Hk; cbn in Hk.
  - now destruct k.
  - cbn. destruct (step U l w) as [[[r0 l'] w'] lg0] eqn:Es.
    destruct k as [|k]; cbn in Hk.
    + injection Hk as <- <-. exists l, l', w, w'. auto.
    + destruct (step_cache l w _ _ _ _ Hn Es) as [Hn' Hc].
      destruct (IH l' k r lg Hn' Hk) as (lk & l2 & wk & wk' & H1 & H2 & H3).
      exists lk, l2, wk, wk'. split; auto. split; auto. rewrite H3. cbn.
      destruct (last_value (firstn k (call_seq U l' ws))); auto.
      destruct r0 as [[v ch]| |]; tauto.
Qed.

(** ** Exceptions *)
Lemma steps_called_all ds : forall w rs ds' w' lg,
  steps U ds w = (Ok rs, ds', w', lg) -> called_all U ds w (map fst rs) ds' w' lg.
Proof.
  induction ds as [|d ds IH]; intros w rs ds' w' lg H.
  - injection H as <- <- <- <-. constructor.
  - rewrite steps_cons in H.
    destruct (step U d w) as [[[[[v ch]| |] d'] w1] l1] eqn:Ed; try discriminate.
    destruct (steps U ds w1) as [[[[xs| |] ds''] w2] l2] eqn:Eds; try discriminate.
    injection H as <- <- <- <-. econstructor; eauto.
Qed.

Lemma called_all_steps ds w vs ds' w' lg :
  called_all U ds w vs ds' w' lg ->
  exists rs, steps U ds w = (Ok rs, ds', w', lg) /\ map fst rs = vs.
Proof.
  induction 1 as [w|d ds w v ch d' w1 lg1 vs ds' w2 lg2 Hs Hc (rs & IH & Hrs)].
  - exists []. auto.
  - exists ((v, ch) :: rs). rewrite steps_cons, Hs, IH. cbn. now rewrite Hrs.
Qed.

Lemma steps_failed ds : forall w ds' w' lg,
  Forall (fun l : lz => forall w l' w' lg, step U l w = (Exc, l', w', lg) ->
            exists path g, failed U l w l' path g) ds ->
  steps U ds w = (Exc, ds', w', lg) ->
  exists ds1 d ds2 vs ds1' w1 lg1 d' path g,
    ds = ds1 ++ d :: ds2 /\ ds' = ds1' ++ d' :: ds2 /\
    called_all U ds1 w vs ds1' w1 lg1 /\ failed U d w1 d' path g.
Proof.
  induction ds as [|d ds IH]; intros w ds' w' lg Hall H.
  - discriminate.
  - inversion Hall as [|? ? Hd Hds]; subst. rewrite steps_cons in H.
    destruct (step U d w) as [[[[[v ch]| |] d'] w1] l1] eqn:Ed; try discriminate.
    + destruct (steps U ds w1) as [[[[xs| |] ds''] w2] l2] eqn:Eds; try discriminate.
      injection H as <- <- <-.
      destruct (IH _ _ _ _ Hds Eds) as (ds1 & d1 & ds2 & vs & ds1' & w3 & lg1 & d1' & path & g & -> & -> & Hc & Hf).
      exists (d :: ds1), d1, ds2, (v :: vs), (d' :: ds1'), w3, (l1 ++ lg1), d1', path, g.
      repeat split; auto. econstructor; eauto.
    + injection H as <- <- <-. destruct (Hd _ _ _ _ Ed) as (path & g & Hf).
      exists [], d, ds, [], [], w, [], d', path, g. repeat split; auto. constructor.
Qed.

Lemma step_failed l : forall w l' w' lg,
  step U l w = (Exc, l', w', lg) -> exists path g, failed U l w l' path g.
Proof.
  induction l as [v ch|g cache deps IH] using lz_ind'; intros w l' w' lg H.
  - discriminate.
  - pose proof H as Hstep. rewrite step_core in H.
    destruct (steps U deps w) as [[[[rs| |] ds] wx] lx] eqn:Es; try discriminate.
    + destruct (core U g cache rs wx) as [[[r c'] wy] ly] eqn:Ecore.
      injection H as -> <- <- <-. rewrite core_eq in Ecore.
      destruct (negb (is_some cache) || existsb snd rs).
      * destruct (call_fn U g _ wx) as [[[u|] wz] lz] eqn:Ef; [discriminate|].
        injection Ecore as <- <- <-. exists [cache], g.
        econstructor; [eapply steps_called_all; eauto | apply ctad_passes | eauto | exact Hstep].
      * destruct cache; discriminate.
    + injection H as <- <- <-.
      destruct (steps_failed _ _ _ _ _ IH Es)
        as (ds1 & d & ds2 & vs & ds1' & w1 & lg1 & d' & path & g' & -> & -> & Hc & Hf).
      exists (cache :: path), g'. econstructor; eauto.
Qed.

Lemma called_all_steps_exc ds1 d ds2 w vs ds1' w1 lg1 d' w2 lg2 :
  called_all U ds1 w vs ds1' w1 lg1 -> step U d w1 = (Exc, d', w2, lg2) ->
  steps U (ds1 ++ d :: ds2) w = (Exc, ds1' ++ d' :: ds2, w2, lg1 ++ lg2).
Proof.
  intros H Hd. induction H as [w|a ds w v ch a' w1 lg1 vs ds' w3 lg3 Hs Hc IH].
  - cbn [app]. rewrite steps_cons, Hd. reflexivity.
  - cbn [app]. rewrite steps_cons, Hs, (IH Hd). now rewrite app_assoc.
Qed.

(** A failure is what the call does. *)
Lemma failed_step l w l' path g :
  failed U l w l' path g -> exists w' lg, step U l w = (Exc, l', w', lg).
Proof.
  induction 1 as [g c ds w vs ds' w1 lg1 args w2 ev Hc Hp Hcall Hs|
                  g c ds1 d ds2 w vs ds1' w1 lg1 d' path g' Hc Hf (w' & lg & IH)].
  - eauto.
  - rewrite step_core, (called_all_steps_exc _ _ _ _ _ _ _ _ _ _ _ Hc IH). eauto.
Qed.

Lemma failed_pending l w l' path g :
  failed U l w l' path g -> last path None = None -> In (label g) (pending l').
Proof.
  induction 1 as [g c ds w vs ds' w1 lg1 args w2 ev Hc Hp Hcall Hs|
                  g c ds1 d ds2 w vs ds1' w1 lg1 d' path g' Hc Hf IH]; intros Hlast.
  - cbn in *. subst c. apply in_or_app. right. now left.
  - cbn. apply in_or_app. left. rewrite flat_map_app. apply in_or_app. right.
    cbn. apply in_or_app. left. apply IH.
    destruct path; [now inversion Hf|]. exact Hlast.
Qed.

(** ** Programs *)
Lemma run_app p q s :
  run U (p ++ q) s =
  match run U p s with
  | Some (s1, o1) => match run U q s1 with Some (s2, o2) => Some (s2, o1 ++ o2) | None => None end
  | None => None
  end.
Proof.
  revert s. induction p as [|o p IH]; intros s; cbn.
  - destruct (run U q s) as [[? ?]|]; reflexivity.
  - destruct (exec U o s) as [[s1 out]|]; [|reflexivity]. rewrite IH.
    destruct (run U p s1) as [[s2 o2]|]; [|reflexivity].
    destruct (run U q s2) as [[s3 o3]|]; reflexivity.
Qed.

(** A lazy function is affected only by its own calls. *)
Lemma exec_other o s s' out y l :
  exec U o s = Some (s', out) -> nth_error (vars s) y = Some l ->
  (forall x, o = Call x -> x <> y) -> nth_error (vars s') y = Some l.
Proof.
  intros He Hy Hx. assert (Hlen : y < length (vars s)) by (apply nth_error_Some; congruence).
  destruct o as [f ss|x|x|h]; cbn in He.
  - destruct (deps_of (vars s) ss); [|discriminate]. injection He as <- <-. cbn.
    now rewrite nth_error_app1.
  - destruct (nth_error (vars s) x); [|discriminate]. injection He as <- <-. cbn.
    now rewrite nth_error_app1.
  - destruct (nth_error (vars s) x); [|discriminate].
    destruct (step U l0 (world s)) as [[[r l'] w'] lg]. injection He as <- <-. cbn.
    rewrite nth_error_update. destruct (Nat.eqb_spec x y); [|assumption].
    destruct (Hx x eq_refl e).
  - injection He as <- <-. exact Hy.
Qed.

(** Induction over a program for one of its variables. *)
Lemma run_var_inv (Inv : lz -> Prop) (Out : output A fid did -> Prop) x :
  (forall l w r l' w' lg, Inv l -> step U l w = (r, l', w', lg) -> Inv l' /\ Out (Some (api_result r), lg)) ->
  forall p s s' outs l,
    nth_error (vars s) x = Some l -> Inv l -> run U p s = Some (s', outs) ->
    Forall Out (outputs_of x p outs) /\ exists l', nth_error (vars s') x = Some l' /\ Inv l'.
Proof.
  intros Hstep p. induction p as [|o p IH]; intros s s' outs l Hx Hl Hr.
  - cbn in Hr. injection Hr as <- <-. cbn. eauto.
  - cbn [run] in Hr. destruct (exec U o s) as [[s1 out]|] eqn:Ee; [|discriminate].
    destruct (run U p s1) as [[s2 outs']|] eqn:Er; [|discriminate]. injection Hr as <- <-.
    assert (Hcase : (exists y, o = Call y /\ y = x) \/ (forall y, o = Call y -> y <> x)).
    { destruct o as [f ss|y|y|h]; try (right; intros; discriminate).
      destruct (Nat.eq_dec y x); [left; eauto | right; intros z E; injection E as <-; auto]. }
    destruct Hcase as [(y & -> & ->)|Hne].
    + cbn in Ee. rewrite Hx in Ee. destruct (step U l (world s)) as [[[r l'] w'] lg] eqn:Es.
      injection Ee as <- <-. destruct (Hstep _ _ _ _ _ _ Hl Es) as [Hl' Hout].
      assert (Hx' : nth_error (vars (mkState (update x l' (vars s)) w')) x = Some l').
      { cbn. rewrite nth_error_update, Nat.eqb_refl.
        assert (Hlen : x < length (vars s)) by (apply nth_error_Some; congruence).
        apply Nat.ltb_lt in Hlen. now rewrite Hlen. }
      destruct (IH _ _ _ _ Hx' Hl' Er) as [H1 H2]. split; auto.
      cbn. rewrite Nat.eqb_refl. constructor; auto.
    + pose proof (exec_other _ _ _ _ _ _ Ee Hx Hne) as Hx'.
      destruct (IH _ _ _ _ Hx' Hl Er) as [H1 H2]. split; auto.
      destruct o as [f ss|y|y|h]; cbn; auto.
      destruct (Nat.eqb_spec x y) as [->|]; auto. destruct (Hne y eq_refl eq_refl).
Qed.

End General.
