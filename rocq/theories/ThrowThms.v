(** Proofs about value operations that throw (C58). *)
From Coq Require Import List Bool Arith Lia.
From Verif Require Import Value TupleAlg TupleAlgProofs LazyModel LazySpec LazySpec2 LazyProofs LazyGeneral
  LazyThms SharedModel HistorySpec HistoryThms ThrowModel ThrowSpec.
Import ListNotations.

Section Proofs.
Context {A W fid did H : Type}.
Notation value := (val A).
Notation expr := (expr A fid did).
Notation lz := (lz A fid did).
Notation op := (op A W fid did).
Notation event := (event A fid did).
Variable U : user A W fid did.
Variable O : vops A W H.

Lemma map_copy w : forall (l : list (value * bool)) s,
  fst (map_eff (copy_value O w) l s) = map fst l.
Proof.
  induction l as [|[v c] l IH]; intros s; [reflexivity|]. cbn [map_eff].
  destruct (copy_value O w (v, c) s) as [y s1] eqn:E. specialize (IH s1).
  destruct (map_eff (copy_value O w) l s1) as [ys s2]. cbn in *. f_equal; [|exact IH].
  unfold copy_value in E. destruct s as [[|] h]; now injection E as <- _.
Qed.

Lemma transform_copy w (l : list (value * bool)) s :
  exists s', transform as_tuple l (copy_value O w) s = (ctad_tuple as_tuple (map fst l), s').
Proof.
  unfold transform. pose proof (map_copy w l s) as E.
  destruct (map_eff (copy_value O w) l s) as [ys s']. cbn in E. subst. eauto.
Qed.

Lemma tsteps_cons (step : lz -> W -> H -> res (value * bool) * lz * W * H * list event) d ds w h :
  tsteps_with step (d :: ds) w h =
  let '(r, d', w1, h1, l1) := step d w h in
  match r with
  | Ok x =>
      let '(rs, ds'', w2, h2, l2) := tsteps_with step ds w1 h1 in
      (match rs with Ok xs => Ok (x :: xs) | Exc => Exc | UB => UB end,
       d' :: ds'', w2, h2, l1 ++ l2)
  | Exc => (Exc, d' :: ds, w1, h1, l1)
  | UB => (UB, d' :: ds, w1, h1, l1)
  end.
Proof. reflexivity. Qed.

(** ** Nothing throws *)
Section Quiet.
Hypothesis Hq : never_throws U O.

Lemma map_copy_true w : forall (l : list (value * bool)) h,
  exists h', snd (map_eff (copy_value O w) l (true, h)) = (true, h').
Proof.
  destruct Hq as (Hc & _). induction l as [|[v c] l IH]; intros h; [cbn; eauto|].
  cbn [map_eff copy_value]. pose proof (Hc (lr_value (v, c)) w h) as E.
  destruct (ocopy O (lr_value (v, c)) w h) as [b h1]. cbn in E. subst b.
  destruct (IH h1) as (h2 & E2). destruct (map_eff (copy_value O w) l (true, h1)) as [ys s2]. cbn in *. eauto.
Qed.

Lemma tcore_quiet g cache args w h :
  let '(r, c, w1, lg) := core U g cache args w in
  exists h1, tcore U O g cache args w h = (r, c, w1, h1, lg).
Proof.
  rewrite core_eq. unfold tcore. rewrite any_pure. cbn [fst].
  change (existsb lr_is_changed args) with (existsb snd args).
  destruct (negb (is_some cache) || existsb snd args).
  - unfold transform. pose proof (map_copy w args (true, h)) as E1.
    destruct (map_copy_true w args h) as (h1 & E2).
    destruct (map_eff (copy_value O w) args (true, h)) as [ys s']. cbn in E1, E2. subst.
    destruct (call_fn U g (ctad_tuple as_tuple (map fst args)) w) as [[[v|] w1] lg]; [|eauto].
    destruct Hq as (_ & Hcmp & Hn & Ha). unfold store. destruct cache as [c|].
    + pose proof (Hcmp c v w1 h1) as E. destruct (ocmp O c v w1 h1) as [b h2]. cbn in E. subst b.
      pose proof (Ha c v w1 h2) as E. destruct (oassign O c v w1 h2) as [b h3]. cbn in E. subst b. eauto.
    + pose proof (Hn v w1 h1) as E. destruct (onew O v w1 h1) as [b h2]. cbn in E. subst b. eauto.
  - destruct cache; eauto.
Qed.

Lemma tstep_quiet l : forall w h,
  let '(r, l', w1, lg) := step U l w in exists h1, tstep U O l w h = (r, l', w1, h1, lg).
Proof.
  induction l as [v ch|g cache deps IH] using lz_ind'; intros w h.
  - cbn. eauto.
  - rewrite step_core. cbn [tstep].
    assert (Hs : forall w h, let '(rs, ds, w1, lg) := steps U deps w in
                 exists h1, tsteps_with (tstep U O) deps w h = (rs, ds, w1, h1, lg)).
    { clear w h. induction IH as [|d ds Hd _ IHds]; intros w h; [cbn; eauto|].
      rewrite steps_cons. specialize (Hd w h). destruct (step U d w) as [[[r d'] w1] l1].
      destruct Hd as (h1 & Hd). rewrite tsteps_cons, Hd. destruct r as [x| |]; eauto.
      specialize (IHds w1 h1). destruct (steps U ds w1) as [[[rs ds'] w2] l2].
      destruct IHds as (h2 & ->). eauto. }
    specialize (Hs w h). destruct (steps U deps w) as [[[rs ds] w1] l1]. destruct Hs as (h1 & ->).
    destruct rs as [rs| |]; eauto. rewrite ctad_none.
    pose proof (tcore_quiet g cache rs w1 h1) as Hc. destruct (core U g cache rs w1) as [[[r c] w2] l2].
    destruct Hc as (h2 & ->). eauto.
Qed.

Lemma texec_quiet o s h :
  match exec U o s, texec U O o s h with
  | Some (s1, out), Some (s2, _, out') => s2 = s1 /\ same_or_lost out out'
  | None, None => True
  | _, _ => False
  end.
Proof.
  destruct o as [f ss|x|x|g]; cbn [texec].
  - destruct (exec U (New f ss) s) as [[s1 out]|]; [split; [reflexivity|split; auto]|exact I].
  - destruct (exec U (Copy x) s) as [[s1 out]|]; [split; [reflexivity|split; auto]|exact I].
  - cbn [exec]. destruct (nth_error (vars s) x) as [l|]; [|exact I].
    unfold tcall. pose proof (tstep_quiet l (world s) h) as E.
    destruct (step U l (world s)) as [[[r l'] w'] lg]. destruct E as (h1 & ->).
    destruct r as [[v ch]| |]; try (split; [reflexivity|split; auto]; fail).
    destruct (oreturn O v w' h1) as [[|] h2]; (split; [reflexivity|split; [reflexivity|]]); [now left|].
    right. destruct v; cbn; eauto.
  - cbn [exec]. split; [reflexivity|split; auto].
Qed.

Lemma trun_quiet p : forall s h,
  match run U p s, trun U O p s h with
  | Some (s1, outs), Some (s2, _, outs') => s2 = s1 /\ Forall2 same_or_lost outs outs'
  | None, None => True
  | _, _ => False
  end.
Proof.
  induction p as [|o p IH]; intros s h; [cbn; auto|]. cbn [run trun].
  pose proof (texec_quiet o s h) as E.
  destruct (exec U o s) as [[s1 out]|], (texec U O o s h) as [[[s2 h2] out']|]; try easy.
  destruct E as (-> & E). specialize (IH s1 h2).
  destruct (run U p s1) as [[s3 outs]|], (trun U O p s1 h2) as [[[s4 h4] outs']|]; try easy.
  destruct IH as (-> & IH). split; auto.
Qed.

Theorem quiet_runs p s h s1 outs :
  run U p s = Some (s1, outs) ->
  exists h1 outs', trun U O p s h = Some (s1, h1, outs') /\ Forall2 same_or_lost outs outs'.
Proof.
  intros E. pose proof (trun_quiet p s h) as Hr. rewrite E in Hr.
  destruct (trun U O p s h) as [[[s2 h2] outs']|]; [|easy]. destruct Hr as (-> & Hr). eauto.
Qed.

Theorem quiet_values pf rd :
  pure_user U pf rd -> sound_eq U ->
  forall p w h es vals,
    eager pf rd p [] w = Some (es, vals) -> Forall (regular pf rd) es -> Forall (unnested pf rd) es ->
    exists s h1 outs, trun U O p (mkState [] w) h = Some (s, h1, outs) /\
      Forall2 (fun r v => r = Ok v \/ r = Exc) (results outs) vals.
Proof.
  intros Hp Hs p w h es vals He Hr Hu.
  destruct (eager_value U pf rd Hp Hs p w es vals He Hr Hu) as (s & outs & Er & Ev).
  destruct (quiet_runs p _ h _ _ Er) as (h1 & outs' & Et & Hl).
  exists s, h1, outs'. split; [exact Et|]. clear - Hl Ev. revert vals Ev.
  induction Hl as [|o o' outs outs' (_ & Ho) _ IH]; intros vals Ev.
  - destruct vals; [constructor|discriminate].
  - cbn [results flat_map] in *. destruct Ho as [->|(v & E & ->)].
    + destruct (fst o) as [r|]; [|apply IH; exact Ev].
      destruct vals as [|v vals]; [discriminate|]. injection Ev as -> Ev. constructor; [auto|apply IH; exact Ev].
    + rewrite E in Ev. destruct vals as [|v' vals]; [discriminate|]. injection Ev as -> Ev.
      constructor; [auto|apply IH; exact Ev].
Qed.

End Quiet.

(** ** Anything throws *)
Section Inv.
Variable pf : fid -> list value -> option value.
Variable rd : did -> W -> value.
Hypothesis Hpt : pure_or_throw U pf rd.
Hypothesis Hon : old_or_new O.
Variable P : W -> Prop.

(** All cached values of [l], which stands for [e], are mixed values. *)
Inductive kept : expr -> lz -> Prop :=
| kept_const v : kept (EConst v) (LValue v false)
| kept_fun d c :
    (forall v, c = Some v -> mixed pf rd P (EFun d) v) ->
    kept (EFun d) (LCore (FnSample d) c [LValue (VAtom (int0 U)) true])
| kept_app f c us ds :
    Forall2 kept us ds ->
    (forall v, c = Some v -> mixed pf rd P (EApp f us) v) ->
    kept (EApp f us) (LCore (FnUser f) c ds).

Definition good_result (e : expr) (w : W) (lg : list event) (r : res (value * bool)) : Prop :=
  match r with
  | Ok (v, _) =>
      mixed pf rd P e v /\ (evaluations lg = postorder e -> regular pf rd e -> v = eval pf rd e w)
  | Exc => True
  | UB => False
  end.

Definition good_results (es : list expr) (w : W) (lg : list event) (r : res (list (value * bool))) : Prop :=
  match r with
  | Ok rs =>
      mixed_all pf rd P es (map fst rs) /\
      (evaluations lg = flat_map postorder es -> Forall (regular pf rd) es ->
       map fst rs = map (fun e => eval pf rd e w) es)
  | Exc => True
  | UB => False
  end.

Definition good_step (l : lz) : Prop :=
  forall e w h r l' w' h' lg,
    kept e l -> P w -> tstep U O l w h = (r, l', w', h', lg) ->
    w' = w /\ kept e l' /\ subseq (evaluations lg) (postorder e) /\ good_result e w lg r.

Lemma tsteps_good ls : Forall good_step ls ->
  forall us w h r ls' w' h' lg,
    Forall2 kept us ls -> P w -> tsteps_with (tstep U O) ls w h = (r, ls', w', h', lg) ->
    w' = w /\ Forall2 kept us ls' /\ subseq (evaluations lg) (flat_map postorder us) /\ good_results us w lg r.
Proof.
  induction 1 as [|l ls Hl _ IH]; intros us w h r ls' w' h' lg Hu Hw Hs.
  - inversion Hu; subst. cbn in Hs. injection Hs as <- <- <- <- <-. repeat split; auto; constructor.
  - inversion Hu as [|e ? us' ? He Hus]; subst. rewrite tsteps_cons in Hs.
    destruct (tstep U O l w h) as [[[[r1 l1] w1] h1] lg1] eqn:E1.
    destruct (Hl _ _ _ _ _ _ _ _ He Hw E1) as (-> & Hl1 & Hs1 & Hr1).
    destruct r1 as [[v ch]| |]; [| |destruct Hr1].
    + destruct (tsteps_with (tstep U O) ls w h1) as [[[[r2 ls2] w2] h2] lg2] eqn:E2.
      destruct (IH _ _ _ _ _ _ _ _ Hus Hw E2) as (-> & Hl2 & Hs2 & Hr2).
      injection Hs as <- <- <- <- <-. rewrite evaluations_app. cbn [flat_map].
      repeat split; auto using subseq_app.
      destruct r2 as [rs| |]; auto. cbn [good_result good_results] in *. destruct Hr1 as [Hm1 He1], Hr2 as [Hm2 He2].
      cbn [map fst]. split; [constructor; auto|]. rewrite evaluations_app. intros E Hreg.
      apply subseq_full_app in E as [Ea Eb]; auto. inversion Hreg; subst. f_equal; auto.
    + injection Hs as <- <- <- <- <-. cbn [flat_map]. repeat split; auto using subseq_app_r.
Qed.

Lemma store_good e cache result w h r c' h' lc :
  (forall v, cache = Some v -> mixed pf rd P e v) -> mixed pf rd P e result ->
  store U O cache result w h = (r, c', h', lc) ->
  (forall v, c' = Some v -> mixed pf rd P e v) /\ evaluations lc = [] /\
  ((exists ch, r = Ok (result, ch)) \/ r = Exc).
Proof.
  intros Hc Hm Hs. unfold store in Hs. destruct cache as [c|].
  - destruct (ocmp O c result w h) as [[b|] h1].
    + pose proof (Hon c result w h1) as Ho. destruct (oassign O c result w h1) as [[v|] h2];
        injection Hs as <- <- <- <-; (split; [|split; eauto]); intros u Hu; injection Hu as <-; auto.
      destruct (Ho v eq_refl) as [->| ->]; auto.
    + injection Hs as <- <- <- <-. eauto.
  - destruct (onew O result w h) as [[|] h1]; injection Hs as <- <- <- <-; (split; [|split; eauto]);
      intros u Hu; [injection Hu as <-; auto|discriminate].
Qed.

Lemma tstep_good l : good_step l.
Proof.
  destruct Hpt as [Hsem Hdsem].
  induction l as [v ch|g cache deps IH] using lz_ind'; intros e w h r l' w' h' lg Hf Hw Hs.
  - inversion Hf; subst. cbn in Hs. injection Hs as <- <- <- <- <-. repeat split; auto; constructor.
  - inversion Hf as [|d c Hc|f c us ds Hus Hc]; subst.
    + cbn [tstep tsteps_with ctad_tuple] in Hs. unfold tcore in Hs.
      rewrite any_pure in Hs. cbn [fst existsb lr_is_changed snd] in Hs. rewrite orb_true_r in Hs.
      destruct (transform_copy w [(VAtom (int0 U), true)] (true, h)) as ([ok h1] & Et).
      rewrite Et in Hs. destruct ok.
      * cbn [call_fn] in Hs.
        destruct (Hdsem d w) as [Hd|Hd]; rewrite Hd in Hs.
        -- destruct (store U O cache (rd d w) w h1) as [[[r2 c2] h2] lc] eqn:Est.
           destruct (store_good (EFun d) _ _ _ _ _ _ _ _ Hc (mixed_fun _ _ _ _ _ Hw) Est) as (Hc2 & Hl & Hr).
           injection Hs as <- <- <- <- <-.
           repeat split; [now constructor| |].
           ++ change (subseq (inr d :: evaluations lc) [inr d]). rewrite Hl. apply subseq_refl.
           ++ destruct Hr as [(ch & ->)| ->]; [|exact I]. split; [now constructor|reflexivity].
        -- injection Hs as <- <- <- <- <-. repeat split; [now constructor|]. apply subseq_refl.
      * injection Hs as <- <- <- <- <-. repeat split; [now constructor|]. apply subseq_nil_l.
    + cbn [tstep] in Hs.
      destruct (tsteps_with (tstep U O) deps w h) as [[[[rs ds'] w1] h1] lg1] eqn:Es.
      destruct (tsteps_good deps IH _ _ _ _ _ _ _ _ Hus Hw Es) as (-> & Hds & Hsub & Hrs).
      destruct rs as [rs| |]; [| |destruct Hrs].
      * rewrite ctad_none in Hs. destruct Hrs as [Hm Hv].
        unfold tcore in Hs. rewrite any_pure in Hs. cbn [fst] in Hs.
        destruct (negb (is_some cache) || existsb lr_is_changed rs) eqn:Ech.
        -- destruct (transform_copy w rs (true, h1)) as ([ok h2] & Et). rewrite Et in Hs. destruct ok.
           ++ cbn [call_fn] in Hs.
              destruct (Hsem f (ctad_tuple as_tuple (map fst rs)) w) as [Hfe|Hfe]; rewrite Hfe in Hs.
              ** assert (Hreg : regularized (FRet (pf f (ctad_tuple as_tuple (map fst rs)))) =
                                VRet (fval pf f (ctad_tuple as_tuple (map fst rs)))).
                 { unfold regularized, fval. now destruct (pf f _). }
                 rewrite Hreg in Hs.
                 destruct (store U O cache (fval pf f (ctad_tuple as_tuple (map fst rs))) w h2)
                   as [[[r2 c2] h3] lc] eqn:Est.
                 assert (Hmx : mixed pf rd P (EApp f us) (fval pf f (ctad_tuple as_tuple (map fst rs)))).
                 { econstructor; [exact Hm|apply ctad_passes]. }
                 destruct (store_good _ _ _ _ _ _ _ _ _ Hc Hmx Est) as (Hc2 & Hl & Hr).
                 
                 assert (El : forall a, evaluations (lg1 ++ EvCall f a :: lc) = evaluations lg1 ++ [inl f]).
                 { intros a. rewrite evaluations_app. change (evaluations (EvCall f a :: lc)) with (inl (B := did) f :: evaluations lc).
                   now rewrite Hl. }
                 injection Hs as <- <- <- <- <-. cbn [app]. rewrite El.
                 repeat split; [now constructor| |].
                 --- apply subseq_app; auto. apply subseq_refl.
                 --- destruct Hr as [(ch & ->)| ->]; [|exact I]. split; [exact Hmx|].
                     cbn [postorder]. rewrite El.
                     intros E Hrg. apply app_inj_tail in E as [E _].
                     apply regular_app in Hrg as [Hr1 Hr2]. rewrite (Hv E Hr2).
                     rewrite (passes_regular _ _ (ctad_passes _)); [reflexivity|].
                     destruct us as [|u [|u2 us]]; cbn; auto.
              ** injection Hs as <- <- <- <- <-. repeat split; [now constructor|].
                 rewrite evaluations_app. apply subseq_app; auto. apply subseq_refl.
           ++ injection Hs as <- <- <- <- <-. rewrite app_nil_r. repeat split; [now constructor|].
              now apply subseq_app_r.
        -- apply orb_false_iff in Ech as [Hcache _]. destruct cache as [c|]; [|discriminate].
           injection Hs as <- <- <- <- <-. rewrite app_nil_r.
           repeat split; auto; [now constructor|now apply subseq_app_r|].
           cbn [postorder]. intros E _. apply subseq_length in Hsub. rewrite E, app_length in Hsub. cbn in Hsub. lia.
      * injection Hs as <- <- <- <- <-. repeat split; [now constructor|]. now apply subseq_app_r.
Qed.

(** ** Programs *)
Lemma deps_kept es vs ss us os :
  Forall2 kept es vs ->
  spec_deps EConst EFun es ss = Some us -> deps_of vs ss = Some os ->
  Forall2 kept us (map (ensure_lazy U) os).
Proof.
  intros Hv. revert us os. induction ss as [|s ss IH]; intros us os Hu Hd; cbn in Hu, Hd.
  - injection Hu as <-. injection Hd as <-. constructor.
  - destruct (dep_of vs s) as [o|] eqn:Eo; [|discriminate].
    destruct (deps_of vs ss) as [os'|]; [|discriminate]. injection Hd as <-.
    destruct (spec_deps EConst EFun es ss) as [ts|];
      [|destruct s as [x|d|v]; cbn in Hu; try destruct (nth_error es x); discriminate].
    destruct s as [x|d|v]; cbn in Hu, Eo.
    + destruct (nth_error es x) as [t|] eqn:Et; [|discriminate]. injection Hu as <-.
      destruct (Forall2_nth_error _ _ _ _ _ Hv Et) as (l & El & Hl). rewrite El in Eo. injection Eo as <-.
      constructor; auto.
    + injection Hu as <-. injection Eo as <-. constructor; auto. constructor. discriminate.
    + injection Hu as <-. injection Eo as <-. constructor; auto. constructor.
Qed.

Lemma tcall_good e l w h r l' w' h' lg :
  kept e l -> P w -> tcall U O l w h = (r, l', w', h', lg) ->
  w' = w /\ kept e l' /\ good_result e w lg r.
Proof.
  intros Hk Hw Hc. unfold tcall in Hc. destruct (tstep U O l w h) as [[[[r1 l1] w1] h1] lg1] eqn:E.
  destruct (tstep_good l _ _ _ _ _ _ _ _ Hk Hw E) as (-> & Hl & _ & Hr).
  destruct r1 as [[v ch]| |]; [|injection Hc as <- <- <- <- <-; auto|destruct Hr].
  destruct (oreturn O v w h1) as [[|] h2]; injection Hc as <- <- <- <- <-; auto. repeat split; auto.
Qed.

Lemma trun_kept p : forall es vs w h s h' outs es',
  Forall2 kept es vs -> (forall w', In w' (call_worlds p w) -> P w') ->
  trun U O p (mkState vs w) h = Some (s, h', outs) -> shapes p es = Some es' ->
  Forall2 kept es' (vars s) /\
  forall p2, (forall w', In w' (call_worlds (p ++ p2) w) -> P w') ->
             forall w', In w' (call_worlds p2 (world s)) -> P w'.
Proof.
  induction p as [|o p IH]; intros es vs w h s h' outs es' Hv Hp Hr Hsh.
  - cbn in *. injection Hr as <- <- <-. injection Hsh as <-. split; auto.
  - destruct o as [f ss|x|x|k]; cbn [trun texec exec vars world shapes call_worlds app] in *.
    + destruct (deps_of vs ss) as [ds|] eqn:Ed; [|discriminate].
      destruct (trun U O p _ h) as [[[s2 h2] outs2]|] eqn:Er; [|discriminate]. injection Hr as <- <- <-.
      destruct (spec_deps EConst EFun es ss) as [us|] eqn:Eu; [|discriminate].
      refine (IH _ _ _ _ _ _ _ _ _ Hp Er Hsh).
      apply Forall2_app; auto. constructor; [|constructor]. constructor; [|discriminate].
      eapply deps_kept; eauto.
    + destruct (nth_error es x) as [e|] eqn:Ee; [|discriminate].
      destruct (Forall2_nth_error _ _ _ _ _ Hv Ee) as (l & El & Hl). rewrite El in Hr.
      destruct (trun U O p _ h) as [[[s2 h2] outs2]|] eqn:Er; [|discriminate]. injection Hr as <- <- <-.
      refine (IH _ _ _ _ _ _ _ _ _ Hp Er Hsh). apply Forall2_app; auto.
    + destruct (nth_error es x) as [e|] eqn:Ee; [|discriminate].
      destruct (Forall2_nth_error _ _ _ _ _ Hv Ee) as (l & El & Hl). rewrite El in Hr.
      destruct (tcall U O l w h) as [[[[r l'] w'] h1] lg] eqn:Es.
      destruct (trun U O p _ h1) as [[[s2 h2] outs2]|] eqn:Er; [|discriminate]. injection Hr as <- <- <-.
      destruct (tcall_good _ _ _ _ _ _ _ _ _ Hl (Hp w (or_introl eq_refl)) Es) as (-> & Hl' & _).
      assert (Hv2 : Forall2 kept es (update x l' vs)) by (eapply update_Forall2; eauto).
      destruct (IH es (update x l' vs) w h1 s2 h2 outs2 es' Hv2 (fun w' H => Hp w' (or_intror H)) Er Hsh) as [IH1 IH2].
      split; auto. intros p2 Hp2. apply IH2. intros w' Hw'. apply Hp2. now right.
    + destruct (trun U O p _ h) as [[[s2 h2] outs2]|] eqn:Er; [|discriminate]. injection Hr as <- <- <-.
      eapply IH; eauto.
Qed.

End Inv.

Lemma call_worlds_app (p q : list op) : forall w w',
  In w' (call_worlds p w) -> In w' (call_worlds (p ++ q) w).
Proof.
  induction p as [|o p IH]; intros w w' Hw'; [destruct Hw'|].
  destruct o; cbn in *; auto. destruct Hw'; auto.
Qed.

Theorem throw_real_inputs pf rd : pure_or_throw U pf rd -> old_or_new O ->
  forall p x w h s h1 outs s' h2 r lg es,
  trun U O p (mkState [] w) h = Some (s, h1, outs) ->
  texec U O (Call x) s h1 = Some (s', h2, (Some r, lg)) ->
  shapes p [] = Some es ->
  r <> UB /\
  forall o, r = Ok o ->
    exists e v, nth_error es x = Some e /\ o = visible v /\
      mixed pf rd (fun w' => In w' (call_worlds (p ++ [Call x]) w)) e v /\
      (evaluations lg = postorder e -> regular pf rd e -> o = visible (eval pf rd e (world s))).
Proof.
  intros Hpt Hon p x w h s h1 outs s' h2 r lg es Hr Hx Hsh.
  set (P := fun w' => In w' (call_worlds (p ++ [Call x]) w)).
  destruct (trun_kept pf rd Hpt Hon P p [] [] w h s h1 outs es) as [Hv Hw]; auto.
  { intros w' Hw'. now apply call_worlds_app. }
  specialize (Hw [Call x] (fun _ H => H)). cbn in Hw. cbn [texec] in Hx.
  destruct (nth_error (vars s) x) as [l|] eqn:El; [|discriminate].
  destruct (Forall2_nth_error_r _ _ _ _ _ Hv El) as (e & He & Hl).
  destruct (tcall U O l (world s) h1) as [[[[r0 l'] w'] h'] lg'] eqn:Es. injection Hx as <- <- <- <-.
  destruct (tcall_good pf rd Hpt Hon P _ _ _ _ _ _ _ _ _ Hl (Hw _ (or_introl eq_refl)) Es) as (_ & _ & Hr0).
  destruct r0 as [[v ch]| |]; [| |destruct Hr0].
  - split; [destruct v; discriminate|]. intros o Ho. destruct Hr0 as [Hm Hev]. exists e, v. repeat split; auto.
    + destruct v; cbn in Ho; injection Ho as <-; reflexivity.
    + intros E Hrg. rewrite <- (Hev E Hrg). destruct v; cbn in Ho; injection Ho as <-; reflexivity.
  - split; discriminate.
Qed.

(** ** Caches *)
Lemma called_app g (a b : list event) : called g a \/ called g b -> called g (a ++ b).
Proof.
  destruct g as [f|d]; cbn.
  - intros [(x & Hx)|(x & Hx)]; exists x; apply in_or_app; auto.
  - intros [Hx|Hx]; apply in_or_app; auto.
Qed.

Lemma refreshed_app (l : lz) : forall l' (a b : list event),
  refreshed a l l' \/ refreshed b l l' -> refreshed (a ++ b) l l'.
Proof.
  induction l as [v ch|g c ds IH] using lz_ind'; intros l' a b Hr.
  - destruct Hr as [Hr|Hr]; inversion Hr; subst; constructor.
  - assert (Hd : forall ds' lg, Forall2 (refreshed lg) ds ds' -> lg = a \/ lg = b ->
              Forall2 (refreshed (a ++ b)) ds ds').
    { clear Hr. intros ds' lg Hd Hlg. induction Hd; constructor.
      - inversion IH; subst. destruct Hlg; subst; auto.
      - inversion IH; subst. auto. }
    destruct Hr as [Hr|Hr]; inversion Hr as [|? ? ? ? ? Hc Hds]; subst; (constructor; [|eapply Hd; eauto]);
      (destruct Hc as [Hc|[Hc Hn]]; [now left|right; split; [apply called_app|]; auto]).
Qed.

Lemma refreshed_refl lg (l : lz) : refreshed lg l l.
Proof.
  induction l as [v ch|g c ds IH] using lz_ind'; constructor; [now left|]. induction IH; constructor; auto.
Qed.

Lemma refreshed_refl_all lg (ds : list lz) : Forall2 (refreshed lg) ds ds.
Proof. induction ds; constructor; auto using refreshed_refl. Qed.

Lemma call_fn_called g args w r w1 lg : call_fn U g args w = (r, w1, lg) -> called g lg.
Proof.
  destruct g as [f|d]; cbn.
  - destruct (sem U f args w) as [x w2]. intros E. injection E as _ _ <-. exists args. now left.
  - destruct (dsem U d w) as [x w2]. intros E. injection E as _ _ <-. now left.
Qed.

Lemma tcore_refreshed g cache args w h r c w1 h1 lg :
  tcore U O g cache args w h = (r, c, w1, h1, lg) ->
  c = cache \/ (called g lg /\ c <> None).
Proof.
  unfold tcore. destruct (negb (is_some cache) || fst (any args (pure1 lr_is_changed) tt)).
  - destruct (transform as_tuple args (copy_value O w) (true, h)) as [vs [[|] h2]].
    + destruct (call_fn U g vs w) as [[[v|] w2] lg1] eqn:Ec.
      * unfold store. destruct cache as [c0|].
        -- destruct (ocmp O c0 v w2 h2) as [[b|] h3].
           ++ destruct (oassign O c0 v w2 h3) as [[u|] h4]; intros E; injection E as _ <- _ _ <-;
                right; (split; [apply called_app; left; eapply call_fn_called; eauto|discriminate]).
           ++ intros E; injection E as _ <- _ _ _. now left.
        -- destruct (onew O v w2 h2) as [[|] h3]; intros E; injection E as _ <- _ _ <-.
           ++ right; (split; [apply called_app; left; eapply call_fn_called; eauto|discriminate]).
           ++ now left.
      * intros E; injection E as _ <- _ _ _. now left.
    + intros E; injection E as _ <- _ _ _. now left.
  - destruct cache; intros E; injection E as _ <- _ _ _; now left.
Qed.

Lemma tstep_refreshed (l : lz) : forall w h r l' w1 h1 lg,
  tstep U O l w h = (r, l', w1, h1, lg) -> refreshed lg l l'.
Proof.
  induction l as [v ch|g cache deps IH] using lz_ind'; intros w h r l' w1 h1 lg Hs.
  - cbn in Hs. injection Hs as _ <- _ _ _. constructor.
  - cbn [tstep] in Hs.
    assert (Hd : forall w h rs ds w1 h1 lg, tsteps_with (tstep U O) deps w h = (rs, ds, w1, h1, lg) ->
              Forall2 (refreshed lg) deps ds).
    { clear Hs. induction IH as [|d ds0 Hd _ IHds]; intros w0 h0 rs ds w2 h2 lg2 E.
      - cbn in E. injection E as _ <- _ _ _. constructor.
      - rewrite tsteps_cons in E. destruct (tstep U O d w0 h0) as [[[[r1 d1] w3] h3] lg1] eqn:E1.
        specialize (Hd _ _ _ _ _ _ _ E1).
        destruct r1 as [x| |].
        + destruct (tsteps_with (tstep U O) ds0 w3 h3) as [[[[rs2 ds2] w4] h4] lg4] eqn:E2.
          injection E as _ <- _ _ <-. specialize (IHds _ _ _ _ _ _ _ E2). constructor.
          * apply refreshed_app; auto.
          * clear - IHds. induction IHds; constructor; auto using refreshed_app.
        + injection E as _ <- _ _ <-. constructor; auto using refreshed_refl_all.
        + injection E as _ <- _ _ <-. constructor; auto using refreshed_refl_all. }
    destruct (tsteps_with (tstep U O) deps w h) as [[[[rs ds] w2] h2] lg2] eqn:Es.
    specialize (Hd _ _ _ _ _ _ _ Es).
    destruct rs as [rs| |].
    + destruct (tcore U O g cache (ctad_tuple (fun _ => None) rs) w2 h2) as [[[[r3 c3] w3] h3] lg3] eqn:Ec.
      injection Hs as _ <- _ _ <-. constructor.
      * destruct (tcore_refreshed _ _ _ _ _ _ _ _ _ _ Ec) as [->|[Hc Hn]]; [now left|].
        right. split; [apply called_app; auto|exact Hn].
      * clear - Hd. induction Hd; constructor; auto using refreshed_app.
    + injection Hs as _ <- _ _ <-. constructor; auto.
    + injection Hs as _ <- _ _ <-. constructor; auto.
Qed.

Theorem throw_caches x s h s' h' o lg :
  texec U O (Call x) s h = Some (s', h', (o, lg)) ->
  exists l l', nth_error (vars s) x = Some l /\ refreshed lg l l' /\ vars s' = update x l' (vars s).
Proof.
  cbn [texec]. destruct (nth_error (vars s) x) as [l|]; [|discriminate].
  unfold tcall. destruct (tstep U O l (world s) h) as [[[[r l'] w1] h1] lg1] eqn:E.
  apply tstep_refreshed in E. intros Hx. exists l, l'. split; [reflexivity|].
  destruct r as [[v ch]| |]; [destruct (oreturn O v w1 h1) as [[|] h2]| |]; injection Hx as <- _ _ <-; auto.
Qed.

End Proofs.

(** ** Exceptions reach the caller *)
Section Watched.
Context {A W fid did H : Type}.
Notation value := (val A).
Notation lz := (lz A fid did).
Variable U : user A W fid did.
Variable O : vops A W H.
Variable pf : fid -> list value -> option value.
Variable rd : did -> W -> value.
Hypothesis Hp : pure_user U pf rd.

(** The outcome of something that started with nothing thrown. *)
Definition told {X} (r : res X) (t : bool) : Prop :=
  match r with Ok _ => t = false | Exc => t = true | UB => False end.

Lemma copy_watched w : forall (l : list (value * bool)) h ok t,
  ok = negb t ->
  exists ys h' t', map_eff (copy_value (watched O) w) l (ok, (h, t)) = (ys, (negb t', (h', t'))).
Proof.
  induction l as [|[v c] l IH]; intros h ok t ->; [cbn; eauto|]. cbn [map_eff copy_value].
  destruct (negb t) eqn:Et.
  - apply negb_true_iff in Et. subst t. cbn [watched ocopy fst snd].
    destruct (ocopy O (lr_value (v, c)) w h) as [ok h1].
    destruct (IH h1 ok (false || negb ok)) as (ys & h' & t' & ->); [now destruct ok|]. eauto.
  - apply negb_false_iff in Et. subst t.
    destruct (IH h false true eq_refl) as (ys & h' & t' & ->). eauto.
Qed.

Lemma call_fn_pure g vs w : exists v lg, call_fn U g vs w = (VRet v, w, lg).
Proof.
  destruct Hp as [Hs Hd]. destruct g as [f|d]; cbn.
  - rewrite Hs. destruct (pf f vs) as [v|]; cbn; eauto.
  - rewrite Hd. eauto.
Qed.

Lemma tcore_watched g cache args w h r c w1 h1 t lg :
  tcore U (watched O) g cache args w (h, false) = (r, c, w1, (h1, t), lg) -> told r t.
Proof.
  unfold tcore. destruct (negb (is_some cache) || fst (any args (pure1 lr_is_changed) tt)) eqn:Ech.
  - unfold transform. destruct (copy_watched w args h true false eq_refl) as (ys & h2 & t2 & ->).
    destruct t2; cbn [negb].
    + intros E. injection E as <- _ _ _ <- _. reflexivity.
    + destruct (call_fn_pure g (ctad_tuple as_tuple ys) w) as (v & lg1 & ->).
      unfold store. destruct cache as [c0|]; cbn [watched ocmp oassign onew fst snd].
      * destruct (ocmp O c0 v w h2) as [[b|] h3]; cbn [fst snd].
        -- destruct (oassign O c0 v w h3) as [[u|] h4]; intros E; injection E as <- _ _ _ <- _; reflexivity.
        -- intros E; injection E as <- _ _ _ <- _; reflexivity.
      * destruct (onew O v w h2) as [[|] h3]; intros E; injection E as <- _ _ _ <- _; reflexivity.
  - apply orb_false_iff in Ech as [Ec _]. destruct cache as [c0|]; [|discriminate].
    intros E; injection E as <- _ _ _ <- _; reflexivity.
Qed.

Lemma tstep_watched (l : lz) : forall w h r l' w1 h1 t lg,
  tstep U (watched O) l w (h, false) = (r, l', w1, (h1, t), lg) -> told r t.
Proof.
  induction l as [v ch|g cache deps IH] using lz_ind'; intros w h r l' w1 h1 t lg Hs.
  - cbn in Hs. injection Hs as <- _ _ _ <- _. reflexivity.
  - cbn [tstep] in Hs.
    assert (Hd : forall w h rs ds w1 h1 t lg,
              tsteps_with (tstep U (watched O)) deps w (h, false) = (rs, ds, w1, (h1, t), lg) -> told rs t).
    { clear Hs. induction IH as [|d ds0 Hd _ IHds]; intros w0 h0 rs ds w2 h2 t2 lg2 E.
      - cbn in E. injection E as <- _ _ _ <- _. reflexivity.
      - rewrite tsteps_cons in E.
        destruct (tstep U (watched O) d w0 (h0, false)) as [[[[r1 d1] w3] [h3 t3]] lg1] eqn:E1.
        specialize (Hd _ _ _ _ _ _ _ _ E1).
        destruct r1 as [x| |]; cbn in Hd; [subst t3| |destruct Hd].
        + destruct (tsteps_with (tstep U (watched O)) ds0 w3 (h3, false)) as [[[[rs2 ds2] w4] [h4 t4]] lg4] eqn:E2.
          injection E as <- _ _ _ <- _. specialize (IHds _ _ _ _ _ _ _ _ E2). now destruct rs2.
        + injection E as <- _ _ _ <- _. exact Hd. }
    destruct (tsteps_with (tstep U (watched O)) deps w (h, false)) as [[[[rs ds] w2] [h2 t2]] lg2] eqn:Es.
    specialize (Hd _ _ _ _ _ _ _ _ Es).
    destruct rs as [rs| |]; cbn in Hd; [subst t2| |destruct Hd].
    + destruct (tcore U (watched O) g cache (ctad_tuple (fun _ => None) rs) w2 (h2, false))
        as [[[[r3 c3] w3] [h3 t3]] lg3] eqn:Ec.
      apply tcore_watched in Ec. injection Hs as <- _ _ _ <- _. exact Ec.
    + injection Hs as <- _ _ _ <- _. exact Hd.
Qed.

(** Watching changes nothing. *)
Lemma copy_same w : forall (l : list (value * bool)) ok h t,
  let '(ys, (ok', h')) := map_eff (copy_value O w) l (ok, h) in
  exists t', map_eff (copy_value (watched O) w) l (ok, (h, t)) = (ys, (ok', (h', t'))).
Proof.
  induction l as [|[v c] l IH]; intros ok h t; [cbn; eauto|]. cbn [map_eff copy_value]. destruct ok.
  - cbn [watched ocopy fst snd]. destruct (ocopy O (lr_value (v, c)) w h) as [ok h1].
    specialize (IH ok h1 (t || negb ok)). destruct (map_eff (copy_value O w) l (ok, h1)) as [ys [ok' h']].
    destruct IH as (t' & ->). eauto.
  - specialize (IH false h t). destruct (map_eff (copy_value O w) l (false, h)) as [ys [ok' h']].
    destruct IH as (t' & ->). eauto.
Qed.

Lemma tcore_same g cache args w h t :
  let '(r, c, w1, h1, lg) := tcore U O g cache args w h in
  exists t', tcore U (watched O) g cache args w (h, t) = (r, c, w1, (h1, t'), lg).
Proof.
  unfold tcore. destruct (negb (is_some cache) || fst (any args (pure1 lr_is_changed) tt)).
  - unfold transform. pose proof (copy_same w args true h t) as E.
    destruct (map_eff (copy_value O w) args (true, h)) as [ys [ok h1]]. destruct E as (t1 & ->).
    destruct ok; [|eauto]. destruct (call_fn U g (ctad_tuple as_tuple ys) w) as [[[v|] w1] lg]; [|eauto].
    unfold store. destruct cache as [c|]; cbn [watched ocmp oassign onew fst snd].
    + destruct (ocmp O c v w1 h1) as [[b|] h2]; [|eauto]. cbn [fst snd].
      destruct (oassign O c v w1 h2) as [[u|] h3]; eauto.
    + destruct (onew O v w1 h1) as [[|] h2]; eauto.
  - destruct cache; eauto.
Qed.

Lemma tstep_same (l : lz) : forall w h t,
  let '(r, l', w1, h1, lg) := tstep U O l w h in
  exists t', tstep U (watched O) l w (h, t) = (r, l', w1, (h1, t'), lg).
Proof.
  induction l as [v ch|g cache deps IH] using lz_ind'; intros w h t; [cbn; eauto|]. cbn [tstep].
  assert (Hd : forall w h t, let '(rs, ds, w1, h1, lg) := tsteps_with (tstep U O) deps w h in
            exists t', tsteps_with (tstep U (watched O)) deps w (h, t) = (rs, ds, w1, (h1, t'), lg)).
  { clear w h t. induction IH as [|d ds0 Hd _ IHds]; intros w h t; [cbn; eauto|].
    rewrite tsteps_cons. specialize (Hd w h t).
    destruct (tstep U O d w h) as [[[[r1 d1] w3] h3] lg1]. destruct Hd as (t1 & Hd).
    rewrite tsteps_cons, Hd. destruct r1 as [x| |]; [|eauto|eauto].
    specialize (IHds w3 h3 t1). destruct (tsteps_with (tstep U O) ds0 w3 h3) as [[[[rs2 ds2] w4] h4] lg4].
    destruct IHds as (t2 & ->). eauto. }
  specialize (Hd w h t). destruct (tsteps_with (tstep U O) deps w h) as [[[[rs ds] w2] h2] lg2].
  destruct Hd as (t1 & ->). destruct rs as [rs| |]; [|eauto|eauto].
  pose proof (tcore_same g cache (ctad_tuple (fun _ => None) rs) w2 h2 t1) as Hc.
  destruct (tcore U O g cache (ctad_tuple (fun _ => None) rs) w2 h2) as [[[[r3 c3] w3] h3] lg3].
  destruct Hc as (t2 & ->). eauto.
Qed.

Theorem throw_reaches_caller x s h s' h' r lg :
  texec U O (Call x) s h = Some (s', h', (Some r, lg)) ->
  exists thrown : bool,
    texec U (watched O) (Call x) s (h, false) = Some (s', (h', thrown), (Some r, lg)) /\
    if thrown then r = Exc else exists v, r = Ok v.
Proof.
  cbn [texec]. destruct (nth_error (vars s) x) as [l|]; [|discriminate].
  unfold tcall. pose proof (tstep_same l (world s) h false) as Hs.
  destruct (tstep U O l (world s) h) as [[[[r1 l'] w1] h1] lg1]. destruct Hs as (t1 & E).
  rewrite E. apply tstep_watched in E. destruct r1 as [[v ch]| |]; cbn in E; [subst t1| |destruct E].
  - cbn [watched oreturn fst snd]. destruct (oreturn O v w1 h1) as [[|] h2]; intros Hx; injection Hx as <- <- <- <-; cbn;
      eexists; (split; [reflexivity|]); cbn.
    + destruct v; eauto.
    + reflexivity.
  - intros Hx; injection Hx as <- <- <- <-. subst t1. eexists; split; reflexivity.
Qed.

End Watched.
