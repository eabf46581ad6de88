(** What the changes of RepairModel.v achieve (C94). *)
From Coq Require Import List Bool Arith Lia.
From Verif Require Import Value TupleAlg TupleAlgProofs LazyModel LazySpec LazySpec2 LazyProofs LazyGeneral
  LazyRel LazyThms RepairModel.
Import ListNotations.

Section Repair.
Context {A W fid did : Type}.
Notation value := (val A).
Notation lz := (lz A fid did).
Variable U : user A W fid did.
Notation rsteps C := (steps_with (rstep U C)).

Lemma rsteps_cons C (l : lz) ls w :
  rsteps C (l :: ls) w =
  let '(r, l', w1, lg1) := rstep U C l w in
  match r with
  | Ok x =>
      let '(rs, ls', w2, lg2) := rsteps C ls w1 in
      (match rs with Ok xs => Ok (x :: xs) | Exc => Exc | UB => UB end, l' :: ls', w2, lg1 ++ lg2)
  | Exc => (Exc, l' :: ls, w1, lg1)
  | UB => (UB, l' :: ls, w1, lg1)
  end.
Proof. reflexivity. Qed.

Lemma rcore_eq C g cache args w :
  rcore U C g cache args w =
  if negb (is_some cache) || existsb snd args then
    match call_fn U g (if as_is C then map fst args else ctad_tuple as_tuple (map fst args)) w with
    | (VThrow, w', lg) => (Exc, if own C then None else cache, w', lg)
    | (VRet result, w', lg) =>
        (Ok (result, if filled C then match cache with Some c => negb (veq (aeq U) c result) | None => true end
                     else opt_ne (aeq U) cache result),
         Some result, w',
         lg ++ match cache with None => [] | Some c => [EvCmp c result] end)
    end
  else match cache with
       | Some c => (Ok (c, false), cache, w, [])
       | None => (UB, cache, w, [])
       end.
Proof.
  unfold rcore. rewrite any_pure, transform_pure. cbn [fst].
  change (existsb lr_is_changed args) with (existsb snd args).
  change (map lr_value args) with (map fst args).
  destruct (negb (is_some cache) || existsb snd args) eqn:E; [|reflexivity].
  destruct (as_is C); [rewrite ctad_none|]; destruct (call_fn U g _ w) as [[[v|] w'] lg]; try reflexivity;
    destruct cache; reflexivity.
Qed.

Lemma rstep_core C g cache ds w :
  rstep U C (LCore g cache ds) w =
  let '(rs, ds', w1, l1) := rsteps C ds w in
  match rs with
  | Ok rs' =>
      let '(r, cache', w2, l2) := rcore U C g cache rs' w1 in
      (r, LCore g cache' ds', w2, l1 ++ l2)
  | Exc => (Exc, LCore g (if deps C then None else cache) ds', w1, l1)
  | UB => (UB, LCore g cache ds', w1, l1)
  end.
Proof.
  cbn [rstep]. destruct (rsteps C ds w) as [[[[rs| |] ds'] w1] l1]; try reflexivity. now rewrite ctad_none.
Qed.

Lemma rstep_sample C d cache w :
  rstep U C (LCore (FnSample d) cache [LValue (VAtom (int0 U)) true]) w =
  match dsem U d w with
  | (VThrow, w') => (Exc, LCore (FnSample d) (if own C then None else cache) [LValue (VAtom (int0 U)) true], w', [EvSample d])
  | (VRet v, w') =>
      (Ok (v, if filled C then match cache with Some c => negb (veq (aeq U) c v) | None => true end
              else opt_ne (aeq U) cache v),
       LCore (FnSample d) (Some v) [LValue (VAtom (int0 U)) true], w',
       EvSample d :: match cache with None => [] | Some c => [EvCmp c v] end)
  end.
Proof.
  rewrite rstep_core. cbn [steps_with rstep]. rewrite rcore_eq. cbn [existsb snd orb]. rewrite orb_true_r.
  cbn [call_fn]. destruct (dsem U d w) as [[v|] w1]; reflexivity.
Qed.

(** ** Without exceptions *)

(** One call: the same result and the same effects; the same state unless it throws. *)
Definition same_step C (l : lz) : Prop := forall w,
  let '(r, l', w', lg) := step U l w in
  exists l2, rstep U C l w = (r, l2, w', lg) /\ (r <> Exc \/ own C || deps C = false -> l2 = l').

Lemma steps_same C ls : Forall (same_step C) ls -> forall w,
  let '(r, ls', w', lg) := steps U ls w in
  exists ls2, rsteps C ls w = (r, ls2, w', lg) /\ (r <> Exc \/ own C || deps C = false -> ls2 = ls').
Proof.
  induction 1 as [|l ls Hl Hls IH]; intros w.
  - rewrite steps_nil. exists []. auto.
  - rewrite steps_cons, rsteps_cons. specialize (Hl w).
    destruct (step U l w) as [[[r l1] w1] lg1]. destruct Hl as (l2 & -> & Hl2).
    destruct r as [x| |].
    + specialize (IH w1). destruct (steps U ls w1) as [[[rs ls1] w2] lg2]. destruct IH as (ls2 & -> & Hls2).
      eexists. split; [reflexivity|]. intros Hne. rewrite Hl2 by (left; discriminate). f_equal. apply Hls2.
      destruct Hne as [Hne|Hne]; [left|now right]. destruct rs; congruence.
    + eexists. split; [reflexivity|]. intros Hne. f_equal. apply Hl2.
      destruct Hne as [Hne|Hne]; [congruence|right; exact Hne].
    + eexists. split; [reflexivity|]. intros _. f_equal. apply Hl2. left; discriminate.
Qed.

Lemma step_same C l : as_is C = false -> filled C = false -> same_step C l.
Proof.
  intros Ha Hf. induction l as [u uch|g cache ds IH] using lz_ind'; intros w.
  - rewrite step_value. eexists. split; [reflexivity|auto].
  - pose proof (steps_same C ds IH w) as H. rewrite step_core, rstep_core.
    destruct (steps U ds w) as [[[rs ds1] w1] lg1]. destruct H as (ds2 & -> & Hds).
    destruct rs as [rs| |].
    + rewrite core_eq, rcore_eq, Ha, Hf. rewrite Hds by (left; discriminate).
      destruct (negb (is_some cache) || existsb snd rs).
      * destruct (call_fn U g _ w1) as [[[v|] w2] lg2]; eexists; (split; [reflexivity|]); auto.
        intros [Hne|Hne]; [congruence|]. apply orb_false_iff in Hne as [-> _]. reflexivity.
      * destruct cache; eexists; (split; [reflexivity|]); auto.
    + eexists. split; [reflexivity|]. intros [Hne|Hne]; [congruence|].
      rewrite Hds by (right; exact Hne). apply orb_false_iff in Hne as [_ ->]. reflexivity.
    + eexists. split; [reflexivity|]. intros _. rewrite Hds by (left; discriminate). reflexivity.
Qed.

Lemma exec_same C o s : as_is C = false -> filled C = false ->
  match exec U o s, rexec U C o s with
  | Some (s1, out), Some (s2, out2) =>
      out2 = out /\ (fst out <> Some Exc \/ own C || deps C = false -> s2 = s1)
  | None, None => True
  | _, _ => False
  end.
Proof.
  intros Ha Hf. destruct o as [f ss|x|x|h]; cbn [exec rexec].
  - destruct (deps_of _ _); cbn; auto.
  - destruct (nth_error _ _); cbn; auto.
  - destruct (nth_error _ _) as [l|]; cbn; auto. pose proof (step_same C l Ha Hf (world s)) as H.
    destruct (step U l (world s)) as [[[r l1] w1] lg]. destruct H as (l2 & -> & Hl). cbn.
    split; [reflexivity|]. intros Hne. rewrite Hl; [reflexivity|].
    destruct Hne as [Hne|Hne]; [left|now right]. intros ->. now apply Hne.
  - cbn; auto.
Qed.

Lemma run_same a b p : forall s s' outs, run U p s = Some (s', outs) ->
  Forall (fun out => fst out <> Some Exc) outs -> rrun U (mkChanges a b false false) p s = Some (s', outs).
Proof.
  induction p as [|o p IH]; intros s s' outs Hr Hno; cbn in *; [exact Hr|].
  pose proof (exec_same (mkChanges a b false false) o s eq_refl eq_refl) as H.
  destruct (exec U o s) as [[s1 out]|]; [|discriminate].
  destruct (rexec U _ o s) as [[s2 out2]|]; [|contradiction].
  destruct (run U p s1) as [[s3 outs']|] eqn:Er; [|discriminate]. injection Hr as <- <-.
  inversion Hno; subst. destruct H as (-> & Hs). rewrite Hs by auto.
  now rewrite (IH _ _ _ Er).
Qed.

Lemma run_no_changes p : forall s, rrun U no_changes p s = run U p s.
Proof.
  induction p as [|o p IH]; intros s; cbn [rrun run]; [reflexivity|].
  pose proof (exec_same no_changes o s eq_refl eq_refl) as H.
  destruct (exec U o s) as [[s1 out]|], (rexec U _ o s) as [[s2 out2]|]; try contradiction; [|reflexivity].
  destruct H as [-> Hs]. rewrite Hs by (right; reflexivity). now rewrite IH.
Qed.

(** ** Nothing is evaluated twice in a call *)
Notation shape := (has_shape U).
Definition once C (l : lz) : Prop := forall e w r l' w' lg, shape e l -> rstep U C l w = (r, l', w', lg) ->
  shape e l' /\ subseq (evaluations lg) (postorder e).

Lemma rsteps_once C ls : Forall (once C) ls -> forall es w r ls' w' lg,
  Forall2 shape es ls -> rsteps C ls w = (r, ls', w', lg) ->
  Forall2 shape es ls' /\ subseq (evaluations lg) (flat_map postorder es).
Proof.
  induction 1 as [|l ls Hl Hls IH]; intros es w r ls' w' lg H Hs.
  - inversion H; subst. cbn in Hs. injection Hs as <- <- <- <-. split; [constructor|constructor].
  - inversion H as [|e ? es' ? He Hes]; subst. rewrite rsteps_cons in Hs.
    destruct (rstep U C l w) as [[[r1 l1] w1] lg1] eqn:E1.
    destruct (Hl _ _ _ _ _ _ He E1) as [Hl1 Hlg1]. cbn [flat_map].
    destruct r1 as [x| |].
    + destruct (rsteps C ls w1) as [[[rs ls1] w2] lg2] eqn:E2. injection Hs as <- <- <- <-.
      destruct (IH _ _ _ _ _ _ Hes E2). rewrite evaluations_app. split; [now constructor|now apply subseq_app].
    + injection Hs as <- <- <- <-. split; [now constructor|now apply subseq_app_r].
    + injection Hs as <- <- <- <-. split; [now constructor|now apply subseq_app_r].
Qed.

Lemma rstep_once C l : once C l.
Proof.
  induction l as [u uch|g cache ds IH] using lz_ind'; intros e w r l' w' lg H Hs.
  - inversion H; subst. cbn in Hs. injection Hs as <- <- <- <-. split; [exact H|constructor].
  - inversion H as [|d c|f c es ls Hes]; subst.
    + rewrite rstep_sample in Hs. destruct (dsem U d w) as [[v|] w1]; injection Hs as <- <- <- <-.
      * split; [constructor|]. destruct cache; cbn; apply subseq_refl.
      * split; [constructor|]. apply subseq_refl.
    + rewrite rstep_core in Hs. destruct (rsteps C ds w) as [[[rs ds1] w1] lg1] eqn:Es.
      destruct (rsteps_once C ds IH _ _ _ _ _ _ Hes Es) as [Hds Hlg]. cbn [postorder].
      destruct rs as [rs| |].
      * destruct (rcore U C (FnUser f) cache rs w1) as [[[r1 c1] w2] lg2] eqn:Ec. injection Hs as <- <- <- <-.
        split; [now constructor|]. rewrite evaluations_app. apply subseq_app; [exact Hlg|].
        rewrite rcore_eq in Ec. destruct (negb (is_some cache) || existsb snd rs).
        -- cbn [call_fn] in Ec. destruct (sem U f _ w1) as [o w3].
           destruct (regularized o); injection Ec as <- <- <- <-; [|apply subseq_refl].
           destruct cache; apply subseq_refl.
        -- destruct cache; injection Ec as <- <- <- <-; apply subseq_nil_l.
      * injection Hs as <- <- <- <-. split; [now constructor|now apply subseq_app_r].
      * injection Hs as <- <- <- <-. split; [now constructor|now apply subseq_app_r].
Qed.

Lemma rrun_shapes C p : forall es s es' s' outs,
  Forall2 shape es (vars s) -> shapes p es = Some es' -> rrun U C p s = Some (s', outs) -> Forall2 shape es' (vars s').
Proof.
  induction p as [|o p IH]; intros es s es' s' outs H Hs Hr.
  - cbn in *. injection Hs as <-. injection Hr as <- <-. exact H.
  - cbn [rrun] in Hr. destruct (rexec U C o s) as [[s1 out]|] eqn:Ex; [|discriminate].
    destruct (rrun U C p s1) as [[s2 outs']|] eqn:Er; [|discriminate]. injection Hr as <- <-.
    destruct o as [f ss|x|x|h]; cbn [shapes] in Hs; cbn [rexec exec] in Ex.
    + pose proof (deps_shape U es (vars s) ss H) as Hd.
      destruct (spec_deps EConst EFun es ss) as [us|], (deps_of (vars s) ss) as [os|]; try contradiction; try discriminate.
      injection Ex as <- <-. eapply IH; [|exact Hs|exact Er]. apply Forall2_app; [exact H|].
      constructor; [|constructor]. now constructor.
    + destruct (nth_error es x) as [e|] eqn:E; [|discriminate].
      destruct (Forall2_nth_error _ _ _ _ _ H E) as (l & El & Hl). rewrite El in Ex. injection Ex as <- <-.
      eapply IH; [|exact Hs|exact Er]. apply Forall2_app; auto.
    + destruct (nth_error es x) as [e|] eqn:E; [|discriminate].
      destruct (Forall2_nth_error _ _ _ _ _ H E) as (l & El & Hl). rewrite El in Ex.
      destruct (rstep U C l (world s)) as [[[r l'] w'] lg] eqn:Est. injection Ex as <- <-.
      destruct (rstep_once C l _ _ _ _ _ _ Hl Est) as [Hl' _].
      eapply IH; [|exact Hs|exact Er]. cbn. rewrite <- (update_same es x e E). apply Forall2_update; auto.
    + injection Ex as <- <-. eapply IH; [|exact Hs|exact Er]. exact H.
Qed.

Lemma repaired_at_most_once C p w s outs es x e s' r lg :
  rrun U C p (mkState [] w) = Some (s, outs) -> shapes p [] = Some es -> nth_error es x = Some e ->
  rexec U C (Call x) s = Some (s', (Some r, lg)) -> subseq (evaluations lg) (postorder e).
Proof.
  intros Hr Hs Hx He.
  assert (Hf : Forall2 shape es (vars s)) by (eapply rrun_shapes; [|exact Hs|exact Hr]; constructor).
  destruct (Forall2_nth_error _ _ _ _ _ Hf Hx) as (l & El & Hl).
  cbn [rexec] in He. rewrite El in He. destruct (rstep U C l (world s)) as [[[r0 l0] w0] lg0] eqn:E0.
  injection He as <- <- <-. exact (proj2 (rstep_once C l _ _ _ _ _ _ Hl E0)).
Qed.

(** ** Values *)
Variable pf : fid -> list value -> option value.
Variable rd : did -> W -> value.

Section Values.
Hypothesis Hpt : pure_or_throw U pf rd.
Hypothesis Hsound : sound_eq U.
Variable C : changes.
Hypothesis Hown : own C = true.
Hypothesis Hdeps : deps C = true.
Notation good := (good U pf eq).
Notation delivered := (LazyRel.delivered).
Notation eval := (eval pf rd).

(** What an expression has to satisfy if the changes that concern values are left out. *)
Definition suited (e : expr A fid did) : Prop :=
  (as_is C = false -> regular pf rd e) /\ (filled C = false -> unnested pf rd e).

Lemma suited_app f es : suited (EApp f es) -> Forall suited es.
Proof.
  intros [Hr Hu]. apply Forall_forall; intros e He; split; intros E.
  - specialize (Hr E). apply regular_app in Hr as [_ Hr]. rewrite Forall_forall in Hr. now apply Hr.
  - specialize (Hu E). apply all_results_app in Hu as [_ Hu]. rewrite Forall_forall in Hu. now apply Hu.
Qed.

Lemma compare_sound c (v : value) : (filled C = false -> nested_opt v = false) ->
  (if filled C then match c with Some c => negb (veq (aeq U) c v) | None => true end else opt_ne (aeq U) c v) = false ->
  forall v0, c = Some v0 -> v0 = v.
Proof.
  intros Hn H v0 ->. destruct (filled C).
  - apply negb_false_iff in H. exact (veq_sound _ Hsound _ _ H).
  - apply opt_ne_unnested in H; [|auto]. exact (veq_sound _ Hsound _ _ H).
Qed.

Definition right (l : lz) : Prop := forall e w r l' w' lg,
  good e l -> suited e -> rstep U C l w = (r, l', w', lg) ->
  w' = w /\ good e l' /\
  match r with
  | Ok (v, ch) => v = eval e w /\ delivered l' = Some v /\ (ch = false -> forall v0, delivered l = Some v0 -> v0 = v)
  | Exc => True
  | UB => False
  end.

Lemma rsteps_right ls : Forall right ls -> forall es w r ls' w' lg,
  Forall2 good es ls -> Forall suited es -> rsteps C ls w = (r, ls', w', lg) ->
  w' = w /\ Forall2 good es ls' /\
  match r with
  | Ok rs => map fst rs = map (fun e => eval e w) es /\ map delivered ls' = map Some (map fst rs) /\
             (existsb snd rs = false -> forall vs0, map delivered ls = map Some vs0 -> vs0 = map fst rs)
  | Exc => True
  | UB => False
  end.
Proof.
  induction 1 as [|l ls Hl Hls IH]; intros es w r ls' w' lg Hg Hsu Hs.
  - inversion Hg; subst. cbn in Hs. injection Hs as <- <- <- <-. cbn. repeat split; auto.
    intros _ [|v vs] H; [reflexivity|discriminate].
  - inversion Hg as [|e ? es' ? Hg1 Hg2]; subst. inversion Hsu as [|? ? Hsu1 Hsu2]; subst.
    rewrite rsteps_cons in Hs. destruct (rstep U C l w) as [[[r1 l1] w1] lg1] eqn:E1.
    destruct (Hl _ _ _ _ _ _ Hg1 Hsu1 E1) as (-> & Hgl & Hr).
    destruct r1 as [[v ch]| |]; [| |destruct Hr].
    + destruct Hr as (-> & Hdel & Hch).
      destruct (rsteps C ls w) as [[[rs ls1] w2] lg2] eqn:E2. injection Hs as <- <- <- <-.
      destruct (IH _ _ _ _ _ _ Hg2 Hsu2 E2) as (-> & Hgs & Hrs).
      split; [reflexivity|]. split; [now constructor|].
      destruct rs as [rs| |]; auto. destruct Hrs as (Hv & Hd & Hex). cbn. rewrite Hv, Hdel, Hd.
      split; [reflexivity|]. split; [now rewrite <- Hv|]. intros Hor [|v0 vs0] Hvs; [discriminate|].
      apply orb_false_iff in Hor as [Hc Hor]. cbn in Hvs. injection Hvs as Hv0 Hvs0.
      rewrite (Hch Hc v0 Hv0), (Hex Hor vs0 Hvs0), Hv. reflexivity.
    + injection Hs as <- <- <- <-. split; [reflexivity|]. split; [now constructor|exact I].
Qed.

Lemma rstep_right l : right l.
Proof.
  destruct Hpt as [Hsem Hdsem].
  induction l as [u uch|g cache ds IH] using lz_ind'; intros e w r l' w' lg Hg Hsu Hs.
  - inversion Hg; subst. cbn in Hs. injection Hs as <- <- <- <-. cbn. repeat split; auto. congruence.
  - inversion Hg as [|d c|f c es ls Hes Hc]; subst.
    + rewrite rstep_sample in Hs.
      destruct (Hdsem d w) as [Hd|Hd]; rewrite Hd in Hs; injection Hs as <- <- <- <-.
      * split; [reflexivity|]. split; [constructor|]. split; [reflexivity|]. split; [reflexivity|].
        cbn. intros H. apply compare_sound; [|exact H]. intros Hf. destruct Hsu as [_ Hu]. exact (Hu Hf w).
      * split; [reflexivity|]. split; [constructor|exact I].
    + pose proof (suited_app _ _ Hsu) as Hsus.
      rewrite rstep_core in Hs. destruct (rsteps C ds w) as [[[rs ds1] w1] lg1] eqn:Es.
      destruct (rsteps_right ds IH _ _ _ _ _ _ Hes Hsus Es) as (-> & Hds & Hrs).
      destruct rs as [rs| |]; [| |destruct Hrs].
      * destruct Hrs as (Hvs & Hdel & Hch).
        assert (Hargs : (if as_is C then map fst rs else ctad_tuple as_tuple (map fst rs)) = map fst rs).
        { destruct (as_is C) eqn:Ea; [reflexivity|]. destruct Hsu as [Hreg _]. specialize (Hreg Ea).
          apply regular_app in Hreg as [Hone _]. apply ctad_regular. intros x Hx. rewrite Hx in Hvs.
          destruct es as [|e1 [|e2 es]]; try discriminate. injection Hvs as ->. apply Hone. }
        rewrite rcore_eq, Hargs in Hs. cbn [call_fn] in Hs.
        assert (Heval : fval pf f (map fst rs) = eval (EApp f es) w) by (cbn; now rewrite Hvs).
        destruct (negb (is_some cache) || existsb snd rs) eqn:Ech.
        -- destruct (Hsem f (map fst rs) w) as [Hf|Hf]; rewrite Hf in Hs.
           ++ assert (Hreg' : regularized (FRet (pf f (map fst rs))) = VRet (fval pf f (map fst rs))).
              { unfold regularized, fval. now destruct (pf f _). }
              rewrite Hreg' in Hs. injection Hs as <- <- <- <-. split; [reflexivity|].
              split. { constructor; auto. intros v Hv. injection Hv as <-. eauto. }
              split; [exact Heval|]. split; [reflexivity|].
              cbn. intros H. apply compare_sound; [|exact H]. intros Hfi. rewrite Heval.
              destruct Hsu as [_ Hu]. specialize (Hu Hfi). apply all_results_app in Hu as [Hu _]. apply Hu.
           ++ cbn in Hs. rewrite Hown in Hs. injection Hs as <- <- <- <-. split; [reflexivity|].
              split; [|exact I]. constructor; auto. discriminate.
        -- apply orb_false_iff in Ech as [Hcache Hex].
           destruct cache as [c|]; [|discriminate]. injection Hs as <- <- <- <-.
           destruct (Hc c eq_refl) as (vs & Hvs0 & ->). pose proof (Hch Hex vs Hvs0) as ->.
           split; [reflexivity|]. split. { constructor; auto. intros v Hv. injection Hv as <-. eauto. }
           split; [exact Heval|]. split; [reflexivity|]. cbn. intros _ v0 Hv0. now injection Hv0 as <-.
      * rewrite Hdeps in Hs. injection Hs as <- <- <- <-. split; [reflexivity|]. split; [|exact I].
        constructor; auto. discriminate.
Qed.

Definition fit (e : expr A fid did) (l : lz) : Prop := suited e -> good e l.

Lemma deps_fit es (ls : list lz) ss : Forall2 fit es ls ->
  match spec_deps EConst EFun es ss, deps_of ls ss with
  | Some us, Some os => Forall2 fit us (map (ensure_lazy U) os)
  | None, None => True
  | _, _ => False
  end.
Proof.
  intros H. induction ss as [|s ss IH]; cbn; [constructor|].
  destruct s as [x|d|v]; cbn in *.
  - destruct (nth_error es x) as [e|] eqn:E.
    + destruct (Forall2_nth_error _ _ _ _ _ H E) as (l & -> & Hl); cbn.
      destruct (spec_deps _ _ es ss), (deps_of ls ss); auto; now constructor.
    + rewrite (Forall2_nth_error_None _ _ _ _ H E); cbn. auto.
  - destruct (spec_deps _ _ es ss), (deps_of ls ss); auto. constructor; [intros _; constructor|assumption].
  - destruct (spec_deps _ _ es ss), (deps_of ls ss); auto. constructor; [intros _; constructor|assumption].
Qed.

Lemma fit_new f us os : Forall2 fit us (map (ensure_lazy U) os) -> fit (EApp f us) (mk_lazy U f os).
Proof.
  intros H Hsu. apply good_new. apply suited_app in Hsu.
  clear - H Hsu. induction H; constructor; inversion Hsu; subst; auto.
Qed.

Lemma rrun_fit p : forall es s es' s' outs,
  Forall2 fit es (vars s) -> shapes p es = Some es' -> rrun U C p s = Some (s', outs) -> Forall2 fit es' (vars s').
Proof.
  induction p as [|o p IH]; intros es s es' s' outs H Hs Hr.
  - cbn in *. injection Hs as <-. injection Hr as <- <-. exact H.
  - cbn [rrun] in Hr. destruct (rexec U C o s) as [[s1 out]|] eqn:Ex; [|discriminate].
    destruct (rrun U C p s1) as [[s2 outs']|] eqn:Er; [|discriminate]. injection Hr as <- <-.
    destruct o as [f ss|x|x|h]; cbn [shapes] in Hs; cbn [rexec exec] in Ex.
    + pose proof (deps_fit es (vars s) ss H) as Hd.
      destruct (spec_deps EConst EFun es ss) as [us|], (deps_of (vars s) ss) as [os|]; try contradiction; try discriminate.
      injection Ex as <- <-. eapply IH; [|exact Hs|exact Er]. apply Forall2_app; [exact H|].
      constructor; [|constructor]. now apply fit_new.
    + destruct (nth_error es x) as [e|] eqn:E; [|discriminate].
      destruct (Forall2_nth_error _ _ _ _ _ H E) as (l & El & Hl). rewrite El in Ex. injection Ex as <- <-.
      eapply IH; [|exact Hs|exact Er]. apply Forall2_app; auto.
    + destruct (nth_error es x) as [e|] eqn:E; [|discriminate].
      destruct (Forall2_nth_error _ _ _ _ _ H E) as (l & El & Hl). rewrite El in Ex.
      destruct (rstep U C l (world s)) as [[[r l'] w'] lg] eqn:Est. injection Ex as <- <-.
      eapply IH; [|exact Hs|exact Er]. cbn. rewrite <- (update_same es x e E). apply Forall2_update; auto.
      intros Hsu. now destruct (rstep_right l _ _ _ _ _ _ (Hl Hsu) Hsu Est) as (_ & ? & _).
    + injection Ex as <- <-. eapply IH; [|exact Hs|exact Er]. exact H.
Qed.

Lemma never_outdated_with p w s outs es x e s' r lg :
  rrun U C p (mkState [] w) = Some (s, outs) -> shapes p [] = Some es -> nth_error es x = Some e ->
  suited e -> rexec U C (Call x) s = Some (s', (Some r, lg)) ->
  r = Exc \/ r = Ok (visible (eval e (world s))).
Proof.
  intros Hr Hs Hx Hsu He.
  assert (Hf : Forall2 fit es (vars s)) by (eapply rrun_fit; [|exact Hs|exact Hr]; constructor).
  destruct (Forall2_nth_error _ _ _ _ _ Hf Hx) as (l & El & Hl).
  cbn [rexec] in He. rewrite El in He.
  destruct (rstep U C l (world s)) as [[[r0 l0] w0] lg0] eqn:E0. injection He as <- <- <-.
  destruct (rstep_right l _ _ _ _ _ _ (Hl Hsu) Hsu E0) as (_ & _ & H).
  destruct r0 as [[v ch]| |]; [right|left; reflexivity|destruct H]. destruct H as [-> _].
  apply api_result_visible.
Qed.
End Values.

Lemma never_outdated : pure_or_throw U pf rd -> sound_eq U ->
  forall a b p w s outs es x e s' r lg,
  rrun U (mkChanges true true a b) p (mkState [] w) = Some (s, outs) -> shapes p [] = Some es -> nth_error es x = Some e ->
  (a = false -> regular pf rd e) -> (b = false -> unnested pf rd e) ->
  rexec U (mkChanges true true a b) (Call x) s = Some (s', (Some r, lg)) ->
  r = Exc \/ r = Ok (visible (eval pf rd e (world s))).
Proof.
  intros Hpt Hsound a b p w s outs es x e s' r lg Hr Hs Hx Ha Hb He.
  eapply (never_outdated_with Hpt Hsound (mkChanges true true a b)); eauto. split; assumption.
Qed.

(** ** Effects *)
Section Effects.
Hypothesis Hpure : pure_user U pf rd.
Hypothesis Hexact : exact_eq U.
Variable C : changes.
Hypothesis Has : as_is C = true.
Hypothesis Hfilled : filled C = true.
Notation eval := (eval pf rd).
Notation eqb := (veq (aeq U)).
Notation differs := (differs pf rd eqb).
Notation expected := (expected pf rd eqb).
Notation rel := (rel U pf rd).
Notation in_sync := in_sync.

Lemma veq_spec (x y : value) : eqb x y = true <-> x = y.
Proof. apply veq_exact. exact Hexact. Qed.

Lemma rstep_spec (t : tracked A W fid did) : forall l w, rel t l ->
  exists l', rstep U C l w = (Ok (eval (erase t) w, differs t w), l', w, expected t w) /\ rel (touch w t) l'.
Proof.
  destruct Hpure as [Hsem Hdsem].
  induction t as [v|d last|f last ts IH] using tracked_ind'; intros l w Hrel.
  - inversion Hrel; subst. eexists; split; [reflexivity|]. constructor.
  - inversion Hrel; subst. rewrite rstep_sample, Hdsem, Hfilled.
    unfold LazySpec.differs; cbn. unfold LazySpec.compare_last; cbn.
    destruct last as [w0|]; cbn.
    + eexists; split; [reflexivity|]. exact (rel_fun U pf rd d (Some w)).
    + eexists; split; [reflexivity|]. exact (rel_fun U pf rd d (Some w)).
  - inversion Hrel as [| |f' last' ts' ls Hts Hsync]; subst f' last' ts' l.
    assert (Hd : exists ls', rsteps C ls w
              = (Ok (map (fun t => (eval (erase t) w, differs t w)) ts), ls', w,
                 flat_map (fun t => expected t w) ts)
              /\ Forall2 rel (map (touch w) ts) ls').
    { clear Hsync Hrel. revert IH. induction Hts as [|t l ts ls Htl Hts IHts]; intros IH.
      - exists []. split; [reflexivity|constructor].
      - inversion IH as [|? ? IH1 IH2]; subst.
        destruct (IH1 l w Htl) as (l' & Hstep & Hrel'). destruct (IHts IH2) as (ls' & Hsteps & Hrels').
        exists (l' :: ls'). split; [|now constructor]. rewrite rsteps_cons, Hstep, Hsteps. reflexivity. }
    destruct Hd as (ls' & Hsteps & Hrels').
    rewrite rstep_core, Hsteps, rcore_eq, Has, Hfilled.
    assert (Hvals : map fst (map (fun t => (eval (erase t) w, differs t w)) ts) = map (fun t => eval (erase t) w) ts)
      by (rewrite map_map; reflexivity).
    assert (Hflags : existsb snd (map (fun t => (eval (erase t) w, differs t w)) ts) = existsb (fun t => differs t w) ts).
    { clear. induction ts as [|t ts IH]; cbn; auto. now rewrite <- IH. }
    rewrite Hvals, Hflags.
    assert (Hrel' : forall c, c = fval pf f (map (fun t => eval (erase t) w) ts) ->
      rel (touch w (TApp f last ts)) (LCore (FnUser f) (Some c) ls')).
    { intros c ->. cbn [touch].
      pose proof (rel_app U pf rd f (Some w) (map (touch w) ts) ls' Hrels') as Hr.
      cbn [option_map] in Hr.
      assert (He : eval (EApp f (map erase (map (touch w) ts))) w = fval pf f (map (fun t => eval (erase t) w) ts)).
      { cbn. f_equal. rewrite !map_map. apply map_ext. intros t. now rewrite erase_touch. }
      rewrite He in Hr. apply Hr. intros w0 Hw0. injection Hw0 as <-.
      apply Forall_forall. intros t Ht. apply in_map_iff in Ht as (t0 & <- & _). apply touch_in_sync. }
    assert (Heval : eval (erase (TApp f last ts)) w = fval pf f (map (fun t => eval (erase t) w) ts)).
    { cbn. f_equal. rewrite map_map. reflexivity. }
    cbn [call_fn]. rewrite Hsem.
    assert (Hreg : regularized (FRet (pf f (map (fun t => eval (erase t) w) ts)))
                   = VRet (fval pf f (map (fun t => eval (erase t) w) ts))).
    { unfold regularized, fval. now destruct (pf f _). }
    destruct last as [w0|]; cbn [option_map is_some negb orb].
    + destruct (existsb (fun t => differs t w) ts) eqn:Hex.
      * rewrite Hreg. eexists; split; [|apply Hrel'; reflexivity].
        cbn [LazySpec.expected]. rewrite Hex. unfold LazySpec.compare_last, LazySpec.differs.
        cbn [last_of]. rewrite Heval. reflexivity.
      * assert (Hsame : map (fun t => eval (erase t) w0) ts = map (fun t => eval (erase t) w) ts).
        { specialize (Hsync w0 eq_refl). clear -Hsync Hex Hexact.
          induction Hsync as [|t ts Ht Hts IH]; cbn in *; auto.
          apply orb_false_iff in Hex as [Hd Hex]. f_equal; [|auto].
          destruct t as [v|d l|g l us]; [reflexivity| |].
          - cbn in Ht; subst l. unfold LazySpec.differs in Hd. cbn in Hd.
            apply negb_false_iff in Hd. now apply veq_spec in Hd.
          - cbn [LazyProofs.in_sync last_of] in Ht; subst l. unfold LazySpec.differs in Hd. cbn [last_of] in Hd.
            apply negb_false_iff in Hd. now apply veq_spec in Hd. }
        assert (Hc : eval (EApp f (map erase ts)) w0 = fval pf f (map (fun t => eval (erase t) w) ts)).
        { cbn. f_equal. rewrite map_map. exact Hsame. }
        rewrite Hc. eexists; split; [|apply Hrel'; reflexivity].
        cbn [LazySpec.expected]. rewrite Hex. unfold LazySpec.differs. cbn [last_of].
        rewrite Heval.
        change (eval (erase (TApp f (Some w0) ts)) w0) with (eval (EApp f (map erase ts)) w0).
        rewrite Hc.
        assert (Hrefl : eqb (fval pf f (map (fun t => eval (erase t) w) ts))
                            (fval pf f (map (fun t => eval (erase t) w) ts)) = true)
          by (now apply veq_spec).
        rewrite Hrefl. reflexivity.
    + rewrite Hreg. eexists; split; [|apply Hrel'; reflexivity].
      cbn [LazySpec.expected]. unfold LazySpec.compare_last, LazySpec.differs. cbn [last_of].
      rewrite Heval. reflexivity.
Qed.

Lemma rrun_spec p : forall ts ls w ts' outs, Forall2 rel ts ls ->
  tracked_run pf rd eqb p ts w = Some (ts', outs) -> exists s, rrun U C p (mkState ls w) = Some (s, outs).
Proof.
  induction p as [|o p IH]; intros ts ls w ts' outs Hrel Ht.
  - cbn in *. injection Ht as <- <-. eauto.
  - destruct o as [f ss|x|x|h]; cbn [tracked_run rrun rexec exec vars world] in *.
    + pose proof (deps_rel U pf rd ts ls ss Hrel) as Hd.
      destruct (spec_deps TConst _ ts ss) as [us|], (deps_of ls ss) as [os|]; try contradiction; try discriminate.
      destruct (tracked_run pf rd eqb p _ w) as [[ts1 outs1]|] eqn:Et; [|discriminate]. injection Ht as <- <-.
      destruct (IH (ts ++ [TApp f None us]) (ls ++ [mk_lazy U f os]) w ts1 outs1) as [s ->]; eauto.
      apply Forall2_app; [assumption|]. constructor; [|constructor].
      unfold mk_lazy. apply (rel_app U pf rd f None us _ Hd). discriminate.
    + destruct (nth_error ts x) as [t|] eqn:E; [|discriminate].
      destruct (Forall2_nth_error _ _ _ _ _ Hrel E) as (l & -> & Hl).
      destruct (tracked_run pf rd eqb p _ w) as [[ts1 outs1]|] eqn:Et; [|discriminate]. injection Ht as <- <-.
      destruct (IH (ts ++ [t]) (ls ++ [l]) w ts1 outs1) as [s ->]; eauto. apply Forall2_app; auto.
    + destruct (nth_error ts x) as [t|] eqn:E; [|discriminate].
      destruct (Forall2_nth_error _ _ _ _ _ Hrel E) as (l & -> & Hl).
      destruct (rstep_spec t l w Hl) as (l' & -> & Hl').
      destruct (tracked_run pf rd eqb p _ w) as [[ts1 outs1]|] eqn:Et; [|discriminate]. injection Ht as <- <-.
      destruct (IH (update x (touch w t) ts) (update x l' ls) w ts1 outs1) as [s ->]; eauto.
      * now apply Forall2_update.
      * rewrite api_visible. eauto.
    + destruct (tracked_run pf rd eqb p _ (h w)) as [[ts1 outs1]|] eqn:Et; [|discriminate]. injection Ht as <- <-.
      destruct (IH ts ls (h w) ts1 outs1 Hrel Et) as [s ->]; eauto.
Qed.
End Effects.

Lemma repaired_effects : pure_user U pf rd -> exact_eq U -> forall a b p w ts outs,
  tracked_run pf rd (veq (aeq U)) p [] w = Some (ts, outs) ->
  exists s, rrun U (mkChanges a b true true) p (mkState [] w) = Some (s, outs).
Proof.
  intros Hpure Hexact a b p w ts outs H.
  eapply (rrun_spec Hpure Hexact (mkChanges a b true true) eq_refl eq_refl); [constructor|exact H].
Qed.
End Repair.
