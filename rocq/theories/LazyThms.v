(** The property theorems about lazy functions, proved from the lemmas of
    LazyProofs.v, LazyGeneral.v and LazyRel.v.  The statements are repeated,
    alone, in PropsLazy.v. *)
From Coq Require Import List Bool Arith Lia.
From Verif Require Import Value TupleAlg TupleAlgProofs LazyModel LazySpec LazySpec2 LazyProofs LazyGeneral LazyRel.
Import ListNotations.

Section Thms.
Context {A W fid did : Type}.
Notation value := (val A).
Notation lz := (lz A fid did).
Notation event := (event A fid did).

(** ** Values *)
Lemma seen_eq (rs : list (res (option value))) vals :
  Forall2 (seen eq) rs vals -> rs = map Ok vals.
Proof.
  induction 1 as [|r v rs vals H Hs IH]; cbn; [reflexivity|]. f_equal; [|exact IH].
  destruct r as [[x|]| |], v as [y|]; cbn in H; try contradiction; congruence.
Qed.

Lemma eager_value (U : user A W fid did) pf rd :
  pure_user U pf rd -> sound_eq U ->
  forall p w es vals,
    eager pf rd p [] w = Some (es, vals) -> Forall (regular pf rd) es -> Forall (unnested pf rd) es ->
    exists s outs, run U p (mkState [] w) = Some (s, outs) /\ results outs = map Ok vals.
Proof.
  intros Hp Hs p w es vals He Hr Hn.
  destruct (run_good U pf rd Hp eq) with (p := p) (es := @nil (expr A fid did)) (ls := @nil lz) (w := w) (es' := es) (vals := vals)
    as (s & outs & Hrun & Hseen); auto.
  - intros; congruence.
  - intros x y. apply veq_sound. exact Hs.
  - intros; congruence.
  - intros; congruence.
  - intros f xs ys Hxy. f_equal. induction Hxy; congruence.
  - intros; reflexivity.
  - exists s, outs. split; auto. now apply seen_eq.
Qed.

Lemma exact_effects (U : user A W fid did) pf rd :
  pure_user U pf rd -> exact_eq U ->
  forall p w es vals,
    eager pf rd p [] w = Some (es, vals) -> Forall (regular pf rd) es -> Forall (never_null pf rd) es ->
    exists s ts outs,
      run U p (mkState [] w) = Some (s, outs) /\
      tracked_run pf rd (veq (aeq U)) p [] w = Some (ts, outs).
Proof.
  intros Hp Hs p w es vals He Hr Hn.
  pose proof (run_refines U pf rd Hp Hs p [] [] w (Forall2_nil _)) as H.
  cbn in H. rewrite He in H. destruct (H Hr Hn) as (s & ts & outs & H1 & H2 & _). eauto.
Qed.

Lemma coarse_value (U : user A W fid did) pf rd :
  pure_user U pf rd ->
  (forall a, aeq U a a = true) ->
  (forall a b, aeq U a b = aeq U b a) ->
  (forall a b c, aeq U a b = true -> aeq U b c = true -> aeq U a c = true) ->
  (forall f xs ys, Forall2 (fun x y => veq (aeq U) x y = true) xs ys ->
     veq (aeq U) (fval pf f xs) (fval pf f ys) = true) ->
  forall p w es vals,
    eager pf rd p [] w = Some (es, vals) -> Forall (regular pf rd) es -> Forall (unnested pf rd) es ->
    exists s outs, run U p (mkState [] w) = Some (s, outs) /\
      Forall2 (seen (fun x y => veq (aeq U) x y = true)) (results outs) vals.
Proof.
  intros Hp Hrefl Hsym Htrans Hf p w es vals He Hr Hn.
  eapply (run_good U pf rd Hp (fun x y => veq (aeq U) x y = true)); eauto.
  - apply veq_refl, Hrefl.
  - intros x y H. now rewrite veq_sym.
  - apply veq_trans, Htrans.
  - intros x y H. rewrite veq_sym in H by assumption. now apply (veq_as_tuple (aeq U)).
  - intros x y H. exact (veq_nested _ _ _ H).
  - intros x; split; [|intros ->; reflexivity]. destruct x as [| | | |[x|]]; cbn; congruence.
Qed.

(** ** Calling once *)
Lemma exec_call_inv (U : user A W fid did) x s s' r lg :
  exec U (Call x) s = Some (s', (Some r, lg)) ->
  exists l l' r', nth_error (vars s) x = Some l /\
    step U l (world s) = (r', l', world s', lg) /\ r = api_result r' /\
    vars s' = update x l' (vars s).
Proof.
  cbn. destruct (nth_error (vars s) x) as [l|]; [|discriminate].
  destruct (step U l (world s)) as [[[r' l'] w'] lg'] eqn:Es. intros H. injection H as <- <- <-.
  exists l, l', r'. auto.
Qed.

Lemma api_result_Ok_inv (r : res (value * bool)) v :
  api_result r = Ok v -> exists u ch, r = Ok (u, ch) /\ v = visible u.
Proof.
  destruct r as [[u ch]| |]; try discriminate. intros H. exists u, ch. split; [reflexivity|].
  destruct u; cbn in *; congruence.
Qed.

Lemma api_result_visible (u : value) ch : api_result (Ok (u, ch)) = Ok (visible u).
Proof. destruct u; reflexivity. Qed.

Lemma call_once (U : user A W fid did) f x :
  forall q s s' outs,
    nth_error (vars s) x = Some (mk_lazy U f []) -> run U q s = Some (s', outs) ->
    exists n m v,
      outputs_of x q outs = repeat (Some Exc, [EvCall f []]) n ++
        match m with
        | None => []
        | Some k => (Some (Ok v), [EvCall f []]) :: repeat (Some (Ok v), []) k
        end.
Proof.
  assert (Hdone : forall q s s' outs u, nth_error (vars s) x = Some (LCore (FnUser f) (Some u) []) ->
            run U q s = Some (s', outs) ->
            exists k, outputs_of x q outs = repeat (Some (Ok (visible u)), []) k).
  { intros q s s' outs u Hx Hr.
    destruct (run_var_inv U (fun l => l = LCore (FnUser f) (Some u) [])
                (fun o => o = (Some (Ok (visible u)), [])) x) with (p := q) (s := s) (s' := s') (outs := outs)
                (l := LCore (FnUser f) (Some u) ([] : list lz)) as [Hall _]; auto.
    - intros l w r l' w' lg -> Hs. rewrite step_core, steps_nil, core_eq in Hs. cbn in Hs.
      injection Hs as <- <- <- <-. now rewrite api_result_visible.
    - exists (length (outputs_of x q outs)).
      clear -Hall. induction Hall as [|o os -> Hos IH]; cbn; [reflexivity|]. now rewrite IH at 1. }
  induction q as [|o q IH]; intros s s' outs Hx Hr.
  - cbn in Hr. injection Hr as <- <-. exists 0, None, None. reflexivity.
  - cbn [run] in Hr. destruct (exec U o s) as [[s1 out]|] eqn:Ee; [|discriminate].
    destruct (run U q s1) as [[s2 outs']|] eqn:Er; [|discriminate]. injection Hr as <- <-.
    assert (Hcase : (exists y, o = Call y /\ y = x) \/ (forall y, o = Call y -> y <> x)).
    { destruct o as [g ss|y|y|h]; try (right; intros; discriminate).
      destruct (Nat.eq_dec y x); [left; eauto | right; intros z E; injection E as <-; auto]. }
    destruct Hcase as [(y & -> & ->)|Hne].
    + cbn [exec] in Ee. rewrite Hx in Ee. unfold mk_lazy in Ee. cbn [map] in Ee.
      rewrite step_core, steps_nil, core_eq in Ee. cbn [is_some negb orb map ctad_tuple call_fn app] in Ee.
      assert (Hlen : x < length (vars s)) by (apply nth_error_Some; congruence).
      apply Nat.ltb_lt in Hlen.
      destruct (sem U f [] (world s)) as [[o|] w'].
      * assert (Hreg : regularized (FRet o) = VRet (match o with Some v => v | None => VVoid end))
          by (destruct o; reflexivity).
        rewrite Hreg in Ee. set (u := match o with Some v => v | None => VVoid end) in *.
        injection Ee as <- <-.
        assert (Hx' : nth_error (update x (LCore (FnUser f) (Some u) []) (vars s)) x
                      = Some (LCore (FnUser f) (Some u) [])).
        { rewrite nth_error_update, Nat.eqb_refl, Hlen. reflexivity. }
        destruct (Hdone q (mkState _ w') _ _ u Hx' Er) as [k Hk].
        exists 0, (Some k), (visible u). cbn [outputs_of repeat app]. rewrite Nat.eqb_refl, Hk.
        f_equal. f_equal. f_equal. apply (api_result_visible u true).
      * cbn in Ee. injection Ee as <- <-.
        assert (Hx' : nth_error (update x (LCore (FnUser f) None []) (vars s)) x
                      = Some (mk_lazy U f [])).
        { rewrite nth_error_update, Nat.eqb_refl, Hlen. reflexivity. }
        destruct (IH (mkState _ w') _ _ Hx' Er) as (n & m & v & Hk).
        exists (S n), m, v. cbn [outputs_of repeat app]. rewrite Nat.eqb_refl, Hk. reflexivity.
    + pose proof (exec_other _ _ _ _ _ _ _ Ee Hx Hne) as Hx'.
      destruct (IH _ _ _ Hx' Er) as (n & m & v & Hk). exists n, m, v. rewrite <- Hk.
      destruct o as [g ss|y|y|h]; cbn; auto.
      destruct (Nat.eqb_spec x y) as [->|]; auto. destruct (Hne y eq_refl eq_refl).
Qed.

(** ** A program's variable and its shape *)
Lemma program_var (U : user A W fid did) p w s outs es x e :
  run U p (mkState [] w) = Some (s, outs) -> shapes p [] = Some es -> nth_error es x = Some e ->
  exists l, nth_error (vars s) x = Some l /\ has_shape U e l.
Proof.
  intros Hr Hs Hx. destruct (run_has_shapes U p [] [] w s outs (Forall2_nil _) Hr) as (es' & Hs' & Hall).
  rewrite Hs in Hs'. injection Hs' as <-. eapply Forall2_nth_error; eauto.
Qed.

Lemma samples_of_call (U : user A W fid did) p w s outs es x e s' v lg :
  run U p (mkState [] w) = Some (s, outs) -> shapes p [] = Some es -> nth_error es x = Some e ->
  exec U (Call x) s = Some (s', (Some (Ok v), lg)) ->
  samples lg = plain_functions e.
Proof.
  intros Hr Hs Hx He. destruct (program_var _ _ _ _ _ _ _ _ Hr Hs Hx) as (l & Hl & Hshape).
  destruct (exec_call_inv _ _ _ _ _ _ He) as (l0 & l' & r & Hl0 & Hstep & Hres & _).
  rewrite Hl in Hl0. injection Hl0 as <-.
  symmetry in Hres. destruct (api_result_Ok_inv _ _ Hres) as (u & ch & -> & _).
  pose proof (step_performs U l e (world s) Hshape) as Hp. rewrite Hstep in Hp.
  apply (proj1 (performs_samples_mut U) _ _ _ _ _ Hp e Hshape). discriminate.
Qed.

Lemma performs_of_call (U : user A W fid did) p w s outs x s' r lg :
  run U p (mkState [] w) = Some (s, outs) ->
  exec U (Call x) s = Some (s', (Some r, lg)) ->
  exists l e r', nth_error (vars s) x = Some l /\ has_shape U e l /\ r = api_result r' /\
    performs U l (world s) lg (world s') (outcome r').
Proof.
  intros Hr He. destruct (exec_call_inv _ _ _ _ _ _ He) as (l & l' & r' & Hl & Hstep & Hres & _).
  destruct (run_has_shapes U p [] [] w s outs (Forall2_nil _) Hr) as (es & Hs & Hall).
  assert (Hx : exists e, nth_error es x = Some e /\ has_shape U e l).
  { destruct (nth_error es x) as [e|] eqn:E.
    - destruct (Forall2_nth_error _ _ _ _ _ Hall E) as (l0 & Hl0 & Hsh). exists e. split; congruence.
    - rewrite (Forall2_nth_error_None _ _ _ _ Hall E) in Hl. discriminate. }
  destruct Hx as (e & Hx & Hsh). exists l, e, r'. repeat split; auto.
  pose proof (step_performs U l e (world s) Hsh) as Hp. rewrite Hstep in Hp. exact Hp.
Qed.

Lemma evaluations_of_call (U : user A W fid did) p w s outs es x e s' r lg :
  run U p (mkState [] w) = Some (s, outs) -> shapes p [] = Some es -> nth_error es x = Some e ->
  exec U (Call x) s = Some (s', (Some r, lg)) ->
  subseq (evaluations lg) (postorder e).
Proof.
  intros Hr Hs Hx He. destruct (program_var _ _ _ _ _ _ _ _ Hr Hs Hx) as (l & Hl & Hshape).
  destruct (exec_call_inv _ _ _ _ _ _ He) as (l0 & l' & r' & Hl0 & Hstep & Hres & _).
  rewrite Hl in Hl0. injection Hl0 as <-.
  pose proof (step_performs U l e (world s) Hshape) as Hp. rewrite Hstep in Hp.
  exact (proj1 (performs_evals_mut U) _ _ _ _ _ Hp e Hshape).
Qed.

(** ** Programs that have not called anything yet *)
Lemma fresh_nth (ls : list lz) x l : Forall fresh ls -> nth_error ls x = Some l -> fresh l.
Proof. intros H Hx. rewrite Forall_forall in H. apply H. eapply nth_error_In; eauto. Qed.

Lemma deps_fresh (U : user A W fid did) (ls : list lz) ss os :
  Forall fresh ls -> deps_of ls ss = Some os -> Forall fresh (map (ensure_lazy U) os).
Proof.
  intros Hf. revert os. induction ss as [|s ss IH]; intros os H; cbn in H.
  - injection H as <-. constructor.
  - destruct (dep_of ls s) as [o|] eqn:Eo; [|discriminate].
    destruct (deps_of ls ss) as [os'|]; [|discriminate]. injection H as <-. cbn. constructor; auto.
    destruct s as [x|d|v]; cbn in Eo.
    + destruct (nth_error ls x) as [l|] eqn:E; [|discriminate]. injection Eo as <-. cbn.
      eapply fresh_nth; eauto.
    + injection Eo as <-. cbn. auto.
    + injection Eo as <-. exact I.
Qed.

Lemma run_fresh (U : user A W fid did) p : forall s s' outs,
  no_call p -> Forall fresh (vars s) -> run U p s = Some (s', outs) -> Forall fresh (vars s').
Proof.
  induction p as [|o p IH]; intros s s' outs Hn Hf Hr; cbn [run] in Hr.
  - injection Hr as <- <-. exact Hf.
  - inversion Hn as [|? ? Ho Hn']; subst.
    destruct (exec U o s) as [[s1 out]|] eqn:Ee; [|discriminate].
    destruct (run U p s1) as [[s2 outs']|] eqn:Er; [|discriminate]. injection Hr as <- <-.
    eapply IH; [exact Hn'| |exact Er]. destruct o as [f ss|x|x|h]; cbn in Ee; [| |destruct Ho|].
    + destruct (deps_of (vars s) ss) as [os|] eqn:Ed; [|discriminate]. injection Ee as <- <-. cbn.
      apply Forall_app. split; auto. constructor; [|constructor].
      apply fresh_core. split; [reflexivity|]. eapply deps_fresh; eauto.
    + destruct (nth_error (vars s) x) as [l|] eqn:E; [|discriminate]. injection Ee as <- <-. cbn.
      apply Forall_app. split; auto. constructor; [|constructor]. eapply fresh_nth; eauto.
    + injection Ee as <- <-. exact Hf.
Qed.

Lemma first_call_evaluates_all (U : user A W fid did) p w s outs es x e s' v lg :
  no_call p ->
  run U p (mkState [] w) = Some (s, outs) -> shapes p [] = Some es -> nth_error es x = Some e ->
  exec U (Call x) s = Some (s', (Some (Ok v), lg)) ->
  evaluations lg = postorder e.
Proof.
  intros Hn Hr Hs Hx He. destruct (program_var _ _ _ _ _ _ _ _ Hr Hs Hx) as (l & Hl & Hshape).
  destruct (exec_call_inv _ _ _ _ _ _ He) as (l0 & l' & r' & Hl0 & Hstep & Hres & _).
  rewrite Hl in Hl0. injection Hl0 as <-.
  symmetry in Hres. destruct (api_result_Ok_inv _ _ Hres) as (u & ch & -> & _).
  assert (Hf : fresh l) by (eapply fresh_nth; [eapply run_fresh; eauto; constructor | eauto]).
  pose proof (step_performs U l e (world s) Hshape) as Hp. rewrite Hstep in Hp.
  apply subseq_antisym_length.
  - exact (proj1 (performs_evals_mut U) _ _ _ _ _ Hp e Hshape).
  - assert (Hsub : subseq (pending l) (evaluations lg)).
    { apply (proj1 (performs_pending_mut U) _ _ _ _ _ Hp e Hshape). discriminate. }
    rewrite (fresh_pending U e l Hshape Hf) in Hsub. now apply subseq_length in Hsub.
Qed.

Lemma first_call_compares_nothing (U : user A W fid did) p w s outs x s' r lg :
  no_call p -> run U p (mkState [] w) = Some (s, outs) ->
  exec U (Call x) s = Some (s', (Some r, lg)) -> comparisons lg = [].
Proof.
  intros Hn Hr He. destruct (performs_of_call _ _ _ _ _ _ _ _ _ Hr He) as (l & e & r' & Hl & Hsh & _ & Hp).
  apply (proj1 (performs_fresh_mut U) _ _ _ _ _ Hp).
  eapply fresh_nth; [eapply run_fresh; eauto; constructor | eauto].
Qed.

(** ** Constants *)
Lemma constants_never_again (U : user A W fid did) p w s outs es x e s1 v lg :
  run U p (mkState [] w) = Some (s, outs) -> shapes p [] = Some es -> nth_error es x = Some e ->
  const_only e ->
  exec U (Call x) s = Some (s1, (Some (Ok v), lg)) ->
  forall q s2 outs2, run U q s1 = Some (s2, outs2) ->
  Forall (fun o => o = (Some (Ok v), [])) (outputs_of x q outs2).
Proof.
  intros Hr Hs Hx Hc He q s2 outs2 Hq.
  destruct (program_var _ _ _ _ _ _ _ _ Hr Hs Hx) as (l & Hl & Hshape).
  destruct (exec_call_inv _ _ _ _ _ _ He) as (l0 & l' & r' & Hl0 & Hstep & Hres & Hvars).
  rewrite Hl in Hl0. injection Hl0 as <-.
  symmetry in Hres. destruct (api_result_Ok_inv _ _ Hres) as (u & ch & -> & ->).
  pose proof (const_done U l e _ _ _ _ _ _ Hshape Hc Hstep) as Hdone.
  assert (Hx1 : nth_error (vars s1) x = Some l').
  { rewrite Hvars, nth_error_update, Nat.eqb_refl.
    assert (Hlen : x < length (vars s)) by (apply nth_error_Some; congruence).
    apply Nat.ltb_lt in Hlen. now rewrite Hlen. }
  destruct (run_var_inv U (fun l => l = l') (fun o => o = (Some (Ok (visible u)), [])) x)
    with (p := q) (s := s1) (s' := s2) (outs := outs2) (l := l') as [Hall _]; auto.
  intros l1 w1 r l2 w2 lg2 -> Hs2. rewrite Hdone in Hs2. injection Hs2 as <- <- <- <-.
  now rewrite api_result_visible.
Qed.

(** ** Cut-off *)
Lemma dep_flag (U : user A W fid did) d w v ch d' w1 lg :
  step U d w = (Ok (v, ch), d', w1, lg) -> same_as_before U d v -> ch = false.
Proof.
  destruct d as [u uch|g [c|] ds]; cbn [same_as_before]; intros Hs Hb; [| |destruct Hb].
  - rewrite step_value in Hs. now injection Hs as _ <- _ _ _.
  - destruct (step_cache U (LCore _ _ _) _ _ _ _ _ I Hs) as [_ [_ H]]. cbn in H.
    destruct Hb as [Hb Hn]. destruct H as [->|[-> _]]; [|reflexivity].
    rewrite opt_ne_nonnull by exact Hn. now rewrite Hb.
Qed.

Lemma called_all_flags (U : user A W fid did) ds w vs ds' w' lg :
  called_all U ds w vs ds' w' lg ->
  exists rs, steps U ds w = (Ok rs, ds', w', lg) /\ map fst rs = vs /\
    (Forall2 (same_as_before U) ds vs -> existsb snd rs = false) /\
    ((forall a, aeq U a a = true) -> Forall (fun v => has_nullopt v = false) vs ->
     existsb snd rs = false -> Forall2 (same_as_before U) ds vs).
Proof.
  induction 1 as [w|d ds w v ch d' w1 lg1 vs ds' w2 lg2 Hs Hc (rs & IH & Hrs & Hfl & Hback)].
  - exists []. repeat split; auto.
  - exists ((v, ch) :: rs). rewrite steps_cons, Hs, IH. cbn. split; [reflexivity|]. split; [now rewrite Hrs|].
    split.
    + intros Hb. inversion Hb; subst. cbn. rewrite (dep_flag _ _ _ _ _ _ _ _ Hs) by assumption. auto.
    + intros Hrefl Hnn Hex. inversion Hnn as [|? ? Hn1 Hn2]; subst.
      apply orb_false_iff in Hex as [-> Hex]. constructor; auto.
      destruct d as [u uch|g cache dds]; cbn.
      * rewrite step_value in Hs. now injection Hs.
      * destruct (step_cache U (LCore _ _ _) _ _ _ _ _ I Hs) as [_ [_ H]]. cbn in H.
        rewrite opt_ne_nonnull in H by exact Hn1.
        destruct cache as [c|]; [|destruct H as [H|[_ H]]; discriminate].
        split; [|exact Hn1].
        destruct H as [H|[_ H]]; [symmetry in H; now apply negb_false_iff in H|].
        injection H as ->. now apply veq_refl.
Qed.

Lemma cutoff (U : user A W fid did) f c ds w vs ds' w' lg :
  called_all U ds w vs ds' w' lg -> Forall2 (same_as_before U) ds vs ->
  step U (LCore (FnUser f) (Some c) ds) w = (Ok (c, false), LCore (FnUser f) (Some c) ds', w', lg).
Proof.
  intros Hc Hb. destruct (called_all_flags _ _ _ _ _ _ _ Hc) as (rs & Hs & _ & Hfl & _).
  rewrite step_core, Hs, core_eq, (Hfl Hb). cbn. now rewrite app_nil_r.
Qed.

Lemma called_all_passes (U : user A W fid did) ds w vs ds' w' lg :
  called_all U ds w vs ds' w' lg -> passes vs (ctad_tuple as_tuple vs).
Proof. intros _. apply ctad_passes. Qed.

(** If something changed, the wrapped function is called right after the
    dependencies. *)
Lemma evaluated_when_changed (U : user A W fid did) f c ds w vs ds' w' lg :
  (forall a, aeq U a a = true) -> Forall (fun v => has_nullopt v = false) vs ->
  called_all U ds w vs ds' w' lg ->
  (c = None \/ ~ Forall2 (same_as_before U) ds vs) ->
  exists args r l' w2 lg2, passes vs args /\
    step U (LCore (FnUser f) c ds) w = (r, l', w2, lg ++ EvCall f args :: lg2).
Proof.
  intros Hrefl Hnn Hc Hb. destruct (called_all_flags _ _ _ _ _ _ _ Hc) as (rs & Hs & <- & _ & Hback).
  rewrite step_core, Hs, core_eq.
  assert (Hch : negb (is_some c) || existsb snd rs = true).
  { destruct Hb as [->|Hb]; [reflexivity|]. apply orb_true_iff. right.
    destruct (existsb snd rs); [reflexivity|]. destruct (Hb (Hback Hrefl Hnn eq_refl)). }
  rewrite Hch. cbn [call_fn]. destruct (sem U f _ w') as [o w2].
  destruct (regularized o) as [v|].
  - eexists (ctad_tuple as_tuple (map fst rs)), _, _, w2, _. split; [apply ctad_passes|]. reflexivity.
  - eexists (ctad_tuple as_tuple (map fst rs)), _, _, w2, []. split; [apply ctad_passes|]. reflexivity.
Qed.

(** Whatever equality is: a plain function dependency that delivered a value not
    equal to its previous one causes an evaluation. *)
Lemma sample_changed_flag (U : user A W fid did) ds w vs ds' w' lg :
  called_all U ds w vs ds' w' lg ->
  forall i d old v,
  nth_error ds i = Some (LCore (FnSample d) (Some old) [LValue (VAtom (int0 U)) true]) ->
  nth_error vs i = Some v -> nested_opt v = false -> veq (aeq U) old v = false ->
  forall rs, steps U ds w = (Ok rs, ds', w', lg) -> existsb snd rs = true.
Proof.
  induction 1 as [w|d ds w v ch d' w1 lg1 vs ds' w2 lg2 Hs Hc IH]; intros i dd old u Hi Hu Hnest Hne rs Hsteps.
  - destruct i; discriminate.
  - rewrite steps_cons, Hs in Hsteps.
    destruct (steps U ds w1) as [[[[xs| |] ds''] w3] l3] eqn:Eds; try discriminate.
    destruct (called_all_steps _ _ _ _ _ _ _ Hc) as (rs' & Hrs' & _). rewrite Hrs' in Eds.
    injection Eds as -> -> -> ->. injection Hsteps as <-.
    cbn. destruct i as [|i]; cbn in Hi, Hu.
    + injection Hi as ->. injection Hu as ->.
      rewrite step_core, steps_cons, step_value, steps_nil in Hs. cbn [app] in Hs.
      rewrite core_eq in Hs. cbn [is_some negb orb existsb snd call_fn] in Hs.
      destruct (dsem U dd w) as [[y|] wy]; [|discriminate]. injection Hs as -> <- _ _ _.
      destruct (opt_ne (aeq U) (Some old) u) eqn:Eo; [reflexivity|].
      apply opt_ne_unnested in Eo; congruence.
    + apply orb_true_iff. right. eapply IH; eauto.
Qed.

Lemma sample_changed_evaluates (U : user A W fid did) f c ds w vs ds' w' lg i d old v :
  called_all U ds w vs ds' w' lg ->
  nth_error ds i = Some (LCore (FnSample d) (Some old) [LValue (VAtom (int0 U)) true]) ->
  nth_error vs i = Some v -> nested_opt v = false -> veq (aeq U) old v = false ->
  exists args r l' w2 lg2, passes vs args /\
    step U (LCore (FnUser f) c ds) w = (r, l', w2, lg ++ EvCall f args :: lg2).
Proof.
  intros Hc Hi Hv Hnest Hne. destruct (called_all_steps _ _ _ _ _ _ _ Hc) as (rs & Hs & <-).
  pose proof (sample_changed_flag _ _ _ _ _ _ _ Hc i d old v Hi Hv Hnest Hne rs Hs) as Hex.
  rewrite step_core, Hs, core_eq, Hex, orb_true_r. cbn [call_fn]. destruct (sem U f _ w') as [o w2].
  destruct (regularized o) as [u|].
  - eexists (ctad_tuple as_tuple (map fst rs)), _, _, w2, _. split; [apply ctad_passes|]. reflexivity.
  - eexists (ctad_tuple as_tuple (map fst rs)), _, _, w2, []. split; [apply ctad_passes|]. reflexivity.
Qed.

(** ** Change flags *)
Lemma change_flag (U : user A W fid did) f deps ws k v ch lg :
  (forall a, aeq U a a = true) ->
  nth_error (call_seq U (mk_lazy U f deps) ws) k = Some (Ok (v, ch), lg) -> has_nullopt v = false ->
  (ch = true <->
   match last_value (firstn k (call_seq U (mk_lazy U f deps) ws)) with
   | None => True
   | Some previous => veq (aeq U) previous v = false
   end).
Proof.
  intros Hrefl Hk Hn'.
  destruct (call_seq_nth U ws (mk_lazy U f deps) k _ _ I Hk) as (lk & l' & w & w' & Hn & Hs & Hc).
  destruct (step_cache U _ _ _ _ _ _ Hn Hs) as [_ [_ H]].
  cbn [cache_of mk_lazy] in Hc. rewrite Hc in H.
  rewrite opt_ne_nonnull in H by exact Hn'.
  destruct (last_value _) as [c|]; [|destruct H as [->|[_ H]]; [intuition|discriminate]].
  destruct H as [->|[-> H]]; [|injection H as ->].
  - split; intros E; [now apply negb_true_iff in E | now rewrite E].
  - rewrite (veq_refl _ Hrefl). split; discriminate.
Qed.

(** What is delivered: what the wrapped function just returned, or what the last
    successful call delivered. *)
Lemma step_fn (U : user A W fid did) g c ds w r l' w' lg :
  step U (LCore g c ds) w = (r, l', w', lg) -> exists c' ds', l' = LCore g c' ds'.
Proof.
  rewrite step_core. destruct (steps U ds w) as [[[[rs| |] ds1] wx] lx].
  - destruct (core U g c rs wx) as [[[r0 c'] w2] l2]. intros H; injection H as _ <- _ _. eauto.
  - intros H; injection H as _ <- _ _. eauto.
  - intros H; injection H as _ <- _ _. eauto.
Qed.

Lemma call_seq_fn (U : user A W fid did) g (ws : list W) : forall c ds k r lg,
  nth_error (call_seq U (LCore g c ds) ws) k = Some (r, lg) ->
  exists ck dk l' w w', step U (LCore g ck dk) w = (r, l', w', lg) /\
    ck = match last_value (firstn k (call_seq U (LCore g c ds) ws)) with
         | Some v => Some v | None => c end.
Proof.
  induction ws as [|w ws IH]; intros c ds k r lg Hk; cbn in Hk; [now destruct k|].
  cbn [call_seq]. fold (step U) in *.
  change (match step U (LCore g c ds) w with (r, l', _, lg) => (r, lg) :: call_seq U l' ws end) with (call_seq U (LCore g c ds) (w :: ws)).
  change (nth_error (call_seq U (LCore g c ds) (w :: ws)) k = Some (r, lg)) in Hk.
  remember (LCore g c ds) as l eqn:El. cbn [call_seq] in Hk |- *.
  destruct (step U l w) as [[[r0 l'] w'] lg0] eqn:Es. subst l.
  destruct k as [|k]; cbn in Hk.
  - injection Hk as <- <-. exists c, ds, l', w, w'. auto.
  - destruct (step_fn _ _ _ _ _ _ _ _ _ Es) as (c1 & ds1 & ->).
    destruct (step_cache U (LCore g c ds) w _ _ _ _ I Es) as [_ Hc]. cbn [cache_of] in Hc.
    destruct (IH c1 ds1 k r lg Hk) as (ck & dk & l2 & wk & wk' & H1 & H2).
    exists ck, dk, l2, wk, wk'. split; auto. rewrite H2. cbn.
    destruct (last_value (firstn k (call_seq U (LCore g c1 ds1) ws))); auto.
    destruct r0 as [[v ch]| |]; tauto.
Qed.

Lemma flag_unnested (aeq : A -> A -> bool) previous (v : value) :
  nested_opt v = false ->
  opt_ne aeq previous v = if has_nullopt v then match previous with None => false | Some _ => true end
                          else match previous with None => true | Some u => negb (veq aeq u v) end.
Proof.
  intros Hn. destruct (has_nullopt v) eqn:E; [|now apply opt_ne_nonnull].
  destruct v as [| | | |[[| | | |]|]]; try discriminate. reflexivity.
Qed.

Lemma delivered (U : user A W fid did) f deps ws k v ch lg :
  nth_error (call_seq U (mk_lazy U f deps) ws) k = Some (Ok (v, ch), lg) ->
  let previous := last_value (firstn k (call_seq U (mk_lazy U f deps) ws)) in
  (exists before args o w w',
     lg = before ++ EvCall f args :: match previous with None => [] | Some u => [EvCmp u v] end /\
     sem U f args w = (FRet o, w') /\ v = match o with Some u => u | None => VVoid end /\
     (nested_opt v = false ->
      ch = if has_nullopt v then match previous with None => false | Some _ => true end
           else match previous with None => true | Some u => negb (veq (aeq U) u v) end)) \/
  (previous = Some v /\ ch = false).
Proof.
  intros Hk. cbv zeta. unfold mk_lazy in *.
  destruct (call_seq_fn U _ _ _ _ _ _ _ Hk) as (ck & dk & l' & w & w' & Hs & Hc).
  assert (Ec : ck = last_value (firstn k (call_seq U (LCore (FnUser f) None (map (ensure_lazy U) deps)) ws)))
    by (rewrite Hc; now destruct (last_value _)).
  rewrite <- Ec. clear Hk Hc Ec. rewrite step_core in Hs.
  destruct (steps U dk w) as [[[[rs| |] ds1] wx] lx]; try discriminate.
  rewrite core_eq in Hs. destruct (negb (is_some ck) || existsb snd rs) eqn:E.
  - cbn [call_fn] in Hs. destruct (sem U f _ wx) as [o wy] eqn:Ef.
    destruct o as [[u|]|]; cbn [regularized] in Hs; [| |discriminate].
    + injection Hs as <- <- _ _ <-. left. exists lx. eexists. exists (Some u), wx, wy.
      split; [|split; [exact Ef|split; [reflexivity|apply flag_unnested]]]. cbn. now destruct ck.
    + injection Hs as <- <- _ _ <-. left. exists lx. eexists. exists None, wx, wy.
      split; [|split; [exact Ef|split; [reflexivity|intros _; reflexivity]]]. cbn. now destruct ck.
  - destruct ck as [c|]; [|discriminate]. injection Hs as <- <- _ _ _. now right.
Qed.

(** ** Void *)
Lemma void_step (U : user A W fid did) f c ds w r l' w' lg :
  void_function U f -> (c = None \/ c = Some VVoid) ->
  step U (LCore (FnUser f) c ds) w = (r, l', w', lg) ->
  (exists c' ds', l' = LCore (FnUser f) c' ds' /\ (c' = None \/ c' = Some VVoid)) /\
  match r with
  | Ok (v, ch) => v = VVoid /\ ch = negb (is_some c)
  | Exc => True
  | UB => False
  end.
Proof.
  intros Hv Hc Hs. pose proof (step_not_ub U (LCore (FnUser f) c ds) w) as Hub.
  rewrite Hs in Hub. cbn in Hub. rewrite step_core in Hs.
  destruct (steps U ds w) as [[[[rs| |] ds'] wx] lx].
  - rewrite core_eq in Hs. cbn [call_fn] in Hs.
    destruct (negb (is_some c) || existsb snd rs) eqn:Ech.
    + destruct (sem U f (ctad_tuple as_tuple (map fst rs)) wx) as [o wz] eqn:Esem.
      destruct (Hv (ctad_tuple as_tuple (map fst rs)) wx) as [H|H]; rewrite Esem in H; cbn in H; subst o; cbn in Hs.
      * injection Hs as <- <- <- <-. split; [exists (Some VVoid), ds'; auto|].
        split; [reflexivity|]. destruct Hc as [->| ->]; reflexivity.
      * injection Hs as <- <- <- <-. split; [exists c, ds'; auto|]. exact I.
    + destruct Hc as [->| ->]; [discriminate|]. injection Hs as <- <- <- <-.
      split; [exists (Some VVoid), ds'; auto|]. auto.
  - injection Hs as <- <- <- <-. split; [exists c, ds'; auto|]. exact I.
  - injection Hs as <- <- <- <-. congruence.
Qed.

Lemma void_calls (U : user A W fid did) f deps ws k r lg :
  void_function U f ->
  nth_error (call_seq U (mk_lazy U f deps) ws) k = Some (r, lg) ->
  r = Exc \/
  (api_result r = Ok None /\
   r = Ok (VVoid, match last_value (firstn k (call_seq U (mk_lazy U f deps) ws)) with
                  | None => true | Some _ => false end)).
Proof.
  intros Hv. unfold mk_lazy. generalize (map (ensure_lazy U) deps). intros ds.
  assert (Hgen : forall ws c ds k, (c = None \/ c = Some VVoid) ->
    nth_error (call_seq U (LCore (FnUser f) c ds) ws) k = Some (r, lg) ->
    r = Exc \/ (api_result r = Ok None /\
      r = Ok (VVoid, match last_value (firstn k (call_seq U (LCore (FnUser f) c ds) ws)) with
                     | None => negb (is_some c) | Some _ => false end))).
  { clear ws k ds. induction ws as [|w ws IH]; intros c ds k Hc Hk; cbn [call_seq] in Hk |- *; [now destruct k|].
    destruct (step U (LCore (FnUser f) c ds) w) as [[[r0 l'] w'] lg0] eqn:Es.
    destruct (void_step _ _ _ _ _ _ _ _ _ Hv Hc Es) as ((c' & ds' & -> & Hc') & Hr0).
    destruct k as [|k]; cbn in Hk.
    - injection Hk as -> ->. destruct r as [[v ch]| |]; auto; [|destruct Hr0].
      destruct Hr0 as [-> ->]. right. auto.
    - destruct (IH c' ds' k Hc' Hk) as [->|[Ha Hr]]; [now left|]. right. split; auto.
      rewrite Hr. f_equal. f_equal. cbn.
      destruct (step_cache U (LCore _ _ _) _ _ _ _ _ I Es) as [_ Hcache]. cbn in Hcache.
      destruct (last_value (firstn k _)); auto.
      destruct r0 as [[v ch]| |]; [|now subst|destruct Hr0].
      destruct Hcache as [-> _]. reflexivity. }
  intros Hk. destruct (Hgen ws None ds k) as [H|H]; auto.
Qed.

(** ** Copies *)
Lemma called_all_world (U : user A W fid did) (Hro : readonly_user U) (l : lz) :
  forall w, snd (fst (step U l w)) = w.
Proof.
  destruct Hro as [H1 H2].
  induction l as [v ch|g c ds IH] using lz_ind'; intros w; [reflexivity|].
  assert (Hs : forall w, snd (fst (steps U ds w)) = w).
  { clear w. induction IH as [|d ds Hd Hds IHds]; intros w; [reflexivity|].
    rewrite steps_cons. specialize (Hd w).
    destruct (step U d w) as [[[[x| |] d'] w1] l1]; cbn in *; subst; auto.
    specialize (IHds w). destruct (steps U ds w) as [[[rs ds'] w2] l2]; cbn in *. auto. }
  rewrite step_core. specialize (Hs w).
  destruct (steps U ds w) as [[[[rs| |] ds'] w1] l1]; cbn in *; subst; auto.
  rewrite core_eq. destruct (negb (is_some c) || existsb snd rs).
  - destruct g as [f|d]; cbn [call_fn].
    + specialize (H1 f (ctad_tuple as_tuple (map fst rs)) w).
      destruct (sem U f _ w) as [o w2]; cbn in H1; subst. destruct (regularized o); reflexivity.
    + specialize (H2 d w). destruct (dsem U d w) as [[v|] w2]; cbn in H2; subst; reflexivity.
  - destruct c; reflexivity.
Qed.

(** Two states that differ at most in variable [x]. *)
Definition agree_except (x : nat) (s1 s2 : pstate A W fid did) : Prop :=
  world s1 = world s2 /\ length (vars s1) = length (vars s2) /\
  forall y, y <> x -> nth_error (vars s1) y = nth_error (vars s2) y.

Lemma nth_error_snoc {X} (l m : list X) a y :
  length l = length m -> nth_error l y = nth_error m y ->
  nth_error (l ++ [a]) y = nth_error (m ++ [a]) y.
Proof.
  intros Hlen H. destruct (Nat.lt_ge_cases y (length l)) as [Hl|Hl].
  - rewrite !nth_error_app1 by lia. exact H.
  - rewrite !nth_error_app2 by lia. now rewrite Hlen.
Qed.

Lemma deps_agree x (l m : list lz) ss :
  length l = length m -> (forall y, y <> x -> nth_error l y = nth_error m y) ->
  Forall (fun s : depspec A did => match s with DVar y => y <> x | _ => True end) ss ->
  deps_of l ss = deps_of m ss.
Proof.
  intros Hlen H Hss. induction Hss as [|s ss Hs Hss IH]; cbn; [reflexivity|]. rewrite IH.
  destruct s as [y|d|v]; cbn; auto. now rewrite (H y Hs).
Qed.

Lemma not_affected (U : user A W fid did) (Hro : readonly_user U) x p : forall s1 s2 s1' outs1,
  x < length (vars s1) -> not_copied x p -> agree_except x s1 s2 ->
  run U p s1 = Some (s1', outs1) ->
  exists s2' outs2, run U p s2 = Some (s2', outs2) /\
    outputs_except x p outs1 = outputs_except x p outs2.
Proof.
  induction p as [|o p IH]; intros s1 s2 s1' outs1 Hlt Hn Hag Hr; cbn [run] in *.
  - injection Hr as <- <-. eauto.
  - inversion Hn as [|? ? Ho Hn']; subst. destruct Hag as (Hw & Hlen & Hnth).
    destruct (exec U o s1) as [[t1 out]|] eqn:Ee; [|discriminate].
    destruct (run U p t1) as [[t2 outs']|] eqn:Er; [|discriminate]. injection Hr as <- <-.
    destruct o as [f ss|y|y|h]; cbn [exec] in *.
    + rewrite (deps_agree x (vars s1) (vars s2) ss Hlen Hnth Ho) in Ee.
      destruct (deps_of (vars s2) ss) as [os|]; [|discriminate]. injection Ee as <- <-.
      eassert (Hlt' : x < length (vars (mkState (vars s1 ++ [mk_lazy U f os]) (world s1))))
        by (cbn; rewrite app_length; lia).
      assert (Hag' : agree_except x (mkState (vars s1 ++ [mk_lazy U f os]) (world s1))
                                    (mkState (vars s2 ++ [mk_lazy U f os]) (world s2))).
      { repeat split; cbn; auto; [rewrite !app_length; cbn; lia|].
        intros y Hy. apply nth_error_snoc; auto. }
      destruct (IH _ _ _ _ Hlt' Hn' Hag' Er) as (s2' & outs2 & -> & Hout).
      eexists _, _. split; [reflexivity|]. cbn. now rewrite Hout.
    + rewrite (Hnth y Ho) in Ee.
      destruct (nth_error (vars s2) y) as [l|] eqn:El; [|discriminate]. injection Ee as <- <-.
      assert (Hlt' : x < length (vars (mkState (vars s1 ++ [l]) (world s1))))
        by (cbn; rewrite app_length; lia).
      assert (Hag' : agree_except x (mkState (vars s1 ++ [l]) (world s1))
                                    (mkState (vars s2 ++ [l]) (world s2))).
      { repeat split; cbn; auto; [rewrite !app_length; cbn; lia|].
        intros z Hz. apply nth_error_snoc; auto. }
      destruct (IH _ _ _ _ Hlt' Hn' Hag' Er) as (s2' & outs2 & -> & Hout).
      eexists _, _. split; [reflexivity|]. cbn. now rewrite Hout.
    + destruct (Nat.eq_dec y x) as [->|Hyx].
      * destruct (nth_error (vars s1) x) as [l1|] eqn:E1; [|discriminate].
        assert (H2 : exists l2, nth_error (vars s2) x = Some l2).
        { destruct (nth_error (vars s2) x) eqn:E2; eauto. apply nth_error_None in E2.
          lia. }
        destruct H2 as [l2 E2]. rewrite E2.
        pose proof (called_all_world U Hro l1 (world s1)) as Hw1.
        pose proof (called_all_world U Hro l2 (world s2)) as Hw2.
        destruct (step U l1 (world s1)) as [[[r1 l1'] w1'] lg1].
        destruct (step U l2 (world s2)) as [[[r2 l2'] w2'] lg2]. cbn in Hw1, Hw2. subst w1' w2'.
        injection Ee as <- <-.
        assert (Hlt' : x < length (vars (mkState (update x l1' (vars s1)) (world s1))))
          by (cbn; now rewrite update_length).
        assert (Hag' : agree_except x (mkState (update x l1' (vars s1)) (world s1))
                                      (mkState (update x l2' (vars s2)) (world s2))).
        { repeat split; cbn; auto; [now rewrite !update_length|].
          intros z Hz. rewrite !nth_error_update.
          destruct (Nat.eqb_spec x z); [congruence|auto]. }
        destruct (IH _ _ _ _ Hlt' Hn' Hag' Er) as (s2' & outs2 & -> & Hout).
        eexists _, _. split; [reflexivity|]. cbn. now rewrite Nat.eqb_refl.
      * rewrite (Hnth y Hyx) in Ee.
        destruct (nth_error (vars s2) y) as [l|] eqn:El; [|discriminate].
        rewrite Hw in Ee. destruct (step U l (world s2)) as [[[r l'] w'] lg].
        injection Ee as <- <-.
        assert (Hlt' : x < length (vars (mkState (update y l' (vars s1)) w')))
          by (cbn; now rewrite update_length).
        assert (Hag' : agree_except x (mkState (update y l' (vars s1)) w')
                                      (mkState (update y l' (vars s2)) w')).
        { repeat split; cbn; auto; [now rewrite !update_length|].
          intros z Hz. rewrite !nth_error_update.
          destruct (Nat.eqb_spec y z); [now rewrite Hlen|auto]. }
        destruct (IH _ _ _ _ Hlt' Hn' Hag' Er) as (s2' & outs2 & -> & Hout).
        eexists _, _. split; [reflexivity|]. cbn.
        destruct (Nat.eqb_spec x y); [congruence|]. now rewrite Hout.
    + injection Ee as <- <-.
      assert (Hag' : agree_except x (mkState (vars s1) (h (world s1))) (mkState (vars s2) (h (world s2)))).
      { repeat split; cbn; auto. now rewrite Hw. }
      destruct (IH (mkState (vars s1) (h (world s1))) _ _ _ Hlt Hn' Hag' Er) as (s2' & outs2 & -> & Hout).
      eexists _, _. split; [reflexivity|]. cbn. now rewrite Hout.
Qed.

Lemma copies_independent (U : user A W fid did) (Hro : readonly_user U) x p s s1 o1 s1' outs1 :
  exec U (Call x) s = Some (s1, o1) -> not_copied x p -> run U p s1 = Some (s1', outs1) ->
  exists s2' outs2, run U p s = Some (s2', outs2) /\
    outputs_except x p outs1 = outputs_except x p outs2.
Proof.
  intros He Hn Hr. cbn in He.
  destruct (nth_error (vars s) x) as [l|] eqn:El; [|discriminate].
  pose proof (called_all_world U Hro l (world s)) as Hw.
  destruct (step U l (world s)) as [[[r l'] w'] lg]. cbn in Hw. subst w'. injection He as <- _.
  assert (Hlen : x < length (vars s)) by (apply nth_error_Some; congruence).
  eapply (not_affected U Hro x p); [|exact Hn| |exact Hr].
  - cbn. now rewrite update_length.
  - repeat split; cbn; [now rewrite update_length|].
    intros y Hy. rewrite nth_error_update. destruct (Nat.eqb_spec x y); congruence.
Qed.

(** ** Exceptions *)
Lemma exception_effect (U : user A W fid did) x s s' lg :
  exec U (Call x) s = Some (s', (Some Exc, lg)) ->
  exists l l' path g,
    nth_error (vars s) x = Some l /\ vars s' = update x l' (vars s) /\
    failed U l (world s) l' path g /\
    (last path None = None -> In (label g) (pending l')).
Proof.
  intros He. destruct (exec_call_inv _ _ _ _ _ _ He) as (l & l' & r & Hl & Hs & Hr & Hv).
  assert (r = Exc) as -> by (destruct r as [[[ | | | |] ?]| |]; cbn in Hr; congruence).
  destruct (step_failed U l _ _ _ _ Hs) as (path & g & Hf).
  exists l, l', path, g. repeat split; auto. eapply failed_pending; eauto.
Qed.

Lemma pending_evaluated (U : user A W fid did) p w s outs x s' v lg :
  run U p (mkState [] w) = Some (s, outs) ->
  exec U (Call x) s = Some (s', (Some (Ok v), lg)) ->
  exists l, nth_error (vars s) x = Some l /\ subseq (pending l) (evaluations lg).
Proof.
  intros Hr He. destruct (performs_of_call _ _ _ _ _ _ _ _ _ Hr He) as (l & e & r' & Hl & Hsh & Hres & Hp).
  exists l. split; auto. symmetry in Hres. destruct (api_result_Ok_inv _ _ Hres) as (u & ch & -> & _).
  apply (proj1 (performs_pending_mut U) _ _ _ _ _ Hp e Hsh). discriminate.
Qed.

Lemma safe_calls_right (U : user A W fid did) pf rd :
  pure_or_throw U pf rd -> sound_eq U ->
  forall ws e l, good U pf eq e l -> regular pf rd e -> unnested pf rd e -> safe_calls U l ws ->
  forall k w v ch lg, nth_error ws k = Some w ->
    nth_error (call_seq U l ws) k = Some (Ok (v, ch), lg) -> v = eval pf rd e w.
Proof.
  intros Hpt Hsound. induction ws as [|w0 ws IH]; intros e l Hg Hreg Hun Hsafe k w v ch lg Hw Hk.
  - now destruct k.
  - cbn in Hsafe, Hk. destruct (step U l w0) as [[[r l'] w'] lg0] eqn:Es.
    destruct Hsafe as [Hsafe0 Hsafe].
    destruct (step_good_all U pf rd Hpt eq) with (l := l) (e := e) (w := w0) (r := r) (l' := l') (w' := w') (lg := lg0)
      as [-> Hr]; auto.
    + intros; congruence.
    + intros x y. apply veq_sound, Hsound.
    + intros; congruence.
    + intros; congruence.
    + intros f xs ys Hxy. f_equal. induction Hxy; congruence.
    + destruct k as [|k]; cbn in Hw, Hk.
      * injection Hw as <-. injection Hk as -> ->. exact (proj1 Hr).
      * assert (Hg' : good U pf eq e l').
        { destruct r as [[u uch]| |]; [apply Hr| |destruct Hr].
          destruct Hr as (path & g & Hf & Hgood). apply Hgood. eapply Hsafe0; eauto. }
        eapply IH; eauto.
Qed.

Lemma no_call_good (U : user A W fid did) pf p : forall es ls w s outs es',
  no_call p -> Forall2 (good U pf eq) es ls -> shapes p es = Some es' ->
  run U p (mkState ls w) = Some (s, outs) -> Forall2 (good U pf eq) es' (vars s).
Proof.
  induction p as [|o p IH]; intros es ls w s outs es' Hn Hg Hs Hr.
  - cbn in *. injection Hs as <-. injection Hr as <- _. exact Hg.
  - inversion Hn as [|? ? Ho Hn']; subst.
    destruct o as [f ss|x|x|h]; cbn [shapes run exec vars world] in *; [| |destruct Ho|].
    + pose proof (deps_good U pf eq es ls ss Hg) as Hd.
      destruct (spec_deps EConst EFun es ss) as [us|]; [|discriminate].
      destruct (deps_of ls ss) as [os|]; [|contradiction].
      destruct (run U p _) as [[s2 o2]|] eqn:Er; [|discriminate]. injection Hr as <- _.
      eapply IH; [exact Hn'| |exact Hs|exact Er].
      apply Forall2_app; auto. constructor; [|constructor]. now apply good_new.
    + destruct (nth_error es x) as [e|] eqn:E; [|discriminate].
      destruct (Forall2_nth_error _ _ _ _ _ Hg E) as (l & El & Hl). rewrite El in Hr.
      destruct (run U p _) as [[s2 o2]|] eqn:Er; [|discriminate]. injection Hr as <- _.
      eapply IH; [exact Hn'| |exact Hs|exact Er]. apply Forall2_app; auto.
    + destruct (run U p _) as [[s2 o2]|] eqn:Er; [|discriminate]. injection Hr as <- _.
      eapply IH; eauto.
Qed.

Lemma after_exception (U : user A W fid did) pf rd :
  pure_or_throw U pf rd -> sound_eq U ->
  forall p w s outs es x e l ws,
    no_call p -> run U p (mkState [] w) = Some (s, outs) -> shapes p [] = Some es ->
    nth_error es x = Some e -> regular pf rd e -> unnested pf rd e -> nth_error (vars s) x = Some l ->
    safe_calls U l ws ->
    forall k wk v ch lg, nth_error ws k = Some wk ->
      nth_error (call_seq U l ws) k = Some (Ok (v, ch), lg) -> v = eval pf rd e wk.
Proof.
  intros Hpt Hsound p w s outs es x e l ws Hn Hr Hs Hx Hreg Hun Hl Hsafe k wk v ch lg Hw Hk.
  pose proof (no_call_good U pf p [] [] w s outs es Hn (Forall2_nil _) Hs Hr) as Hall.
  destruct (Forall2_nth_error _ _ _ _ _ Hall Hx) as (l0 & Hl0 & Hg).
  rewrite Hl in Hl0. injection Hl0 as <-.
  eapply safe_calls_right; eauto.
Qed.

(** ** No undefined behaviour *)
Lemma never_ub (U : user A W fid did) p : forall s s' outs,
  run U p s = Some (s', outs) -> Forall (fun o => fst o <> Some UB) outs.
Proof.
  induction p as [|o p IH]; intros s s' outs Hr; cbn [run] in Hr.
  - injection Hr as <- <-. constructor.
  - destruct (exec U o s) as [[s1 out]|] eqn:Ee; [|discriminate].
    destruct (run U p s1) as [[s2 outs']|] eqn:Er; [|discriminate]. injection Hr as <- <-.
    constructor; [|eauto].
    destruct o as [f ss|x|x|h]; cbn in Ee.
    + destruct (deps_of _ _); [|discriminate]. injection Ee as <- <-. discriminate.
    + destruct (nth_error _ _); [|discriminate]. injection Ee as <- <-. discriminate.
    + destruct (nth_error (vars s) x) as [l|]; [|discriminate].
      pose proof (step_not_ub U l (world s)) as Hub.
      destruct (step U l (world s)) as [[[r l'] w'] lg]. cbn in Hub. injection Ee as <- <-.
      cbn. intros H. apply Hub. destruct r as [[[ | | | |] ?]| |]; cbn in H; congruence.
    + injection Ee as <- <-. discriminate.
Qed.

(** ** Corollaries in terms of programs *)
Lemma call_once_new (U : user A W fid did) f q s s1 o s' outs :
  exec U (New f []) s = Some (s1, o) -> run U q s1 = Some (s', outs) ->
  exists n m v,
    outputs_of (length (vars s)) q outs = repeat (Some Exc, [EvCall f []]) n ++
      match m with
      | None => []
      | Some k => (Some (Ok v), [EvCall f []]) :: repeat (Some (Ok v), []) k
      end.
Proof.
  intros He Hr. cbn in He. injection He as <- <-.
  apply (call_once U f (length (vars s)) q) with (2 := Hr). cbn.
  rewrite nth_error_app2, Nat.sub_diag; [reflexivity|lia].
Qed.

Lemma comparisons_of_call (U : user A W fid did) p w s outs x s' r lg :
  run U p (mkState [] w) = Some (s, outs) ->
  exec U (Call x) s = Some (s', (Some r, lg)) ->
  compares_after_evaluating lg.
Proof.
  intros Hr He. destruct (performs_of_call _ _ _ _ _ _ _ _ _ Hr He) as (l & e & r' & _ & _ & _ & Hp).
  eapply (proj1 (performs_cmp_mut U)); eauto.
Qed.

Lemma what_a_call_does (U : user A W fid did) p w s outs x s' r lg :
  run U p (mkState [] w) = Some (s, outs) ->
  exec U (Call x) s = Some (s', (Some r, lg)) ->
  exists l r', nth_error (vars s) x = Some l /\ r = api_result r' /\
    performs U l (world s) lg (world s') (outcome r').
Proof.
  intros Hr He. destruct (performs_of_call _ _ _ _ _ _ _ _ _ Hr He) as (l & e & r' & H1 & _ & H2 & H3); eauto.
Qed.

Lemma call_others (U : user A W fid did) x s s1 o1 :
  exec U (Call x) s = Some (s1, o1) ->
  forall y, y <> x -> nth_error (vars s1) y = nth_error (vars s) y.
Proof.
  cbn. intros H y Hy. destruct (nth_error (vars s) x) as [l|]; [|discriminate].
  destruct (step U l (world s)) as [[[r l'] w'] lg]. injection H as <- <-. cbn.
  rewrite nth_error_update. destruct (Nat.eqb_spec x y); congruence.
Qed.

Lemma called_all_app (U : user A W fid did) ds1 w vs1 ds1' w1 lg1 ds2 vs2 ds2' w2 lg2 :
  called_all U ds1 w vs1 ds1' w1 lg1 -> called_all U ds2 w1 vs2 ds2' w2 lg2 ->
  called_all U (ds1 ++ ds2) w (vs1 ++ vs2) (ds1' ++ ds2') w2 (lg1 ++ lg2).
Proof.
  induction 1 as [w|d ds w v ch d' w1 lg vs ds' w3 lg3 Hs Hc IH]; intros H2; cbn; auto.
  rewrite <- app_assoc. econstructor; eauto.
Qed.

Lemma node_changed_evaluates (U : user A W fid did) f c ds1 g old ds0 ds2 w
    vs1 ds1' w1 lg1 vs0 ds0' w0 lg0 v ch d' args0 rest w2 vs2 ds2' w3 lg2 :
  called_all U ds1 w vs1 ds1' w1 lg1 ->
  called_all U ds0 w1 vs0 ds0' w0 lg0 ->
  step U (LCore (FnUser g) (Some old) ds0) w1 = (Ok (v, ch), d', w2, lg0 ++ EvCall g args0 :: rest) ->
  nested_opt v = false -> veq (aeq U) old v = false ->
  called_all U ds2 w2 vs2 ds2' w3 lg2 ->
  exists args r l' w4 lg3, passes (vs1 ++ v :: vs2) args /\
    step U (LCore (FnUser f) c (ds1 ++ LCore (FnUser g) (Some old) ds0 :: ds2)) w =
      (r, l', w4, lg1 ++ (lg0 ++ EvCall g args0 :: rest) ++ lg2 ++ EvCall f args :: lg3).
Proof.
  intros H1 H0 Hs Hnest Hv H2.
  assert (Hch : ch = true).
  { destruct (called_all_steps U _ _ _ _ _ _ H0) as (rs & Hst & Hrs).
    rewrite step_core, Hst, core_eq in Hs. cbn [is_some negb orb] in Hs.
    destruct (existsb snd rs).
    - destruct (call_fn U (FnUser g) _ w0) as [[[u|] w5] l5]; [|discriminate].
      injection Hs as <- <- <- <- _.
      destruct (opt_ne (aeq U) (Some old) u) eqn:Eo; [reflexivity|].
      apply opt_ne_unnested in Eo; congruence.
    - exfalso. injection Hs as _ _ _ _ Hlg. rewrite app_nil_r in Hlg.
      apply (f_equal (@length _)) in Hlg. rewrite app_length in Hlg. cbn in Hlg. lia. }
  subst ch.
  assert (Hall : called_all U (ds1 ++ LCore (FnUser g) (Some old) ds0 :: ds2) w (vs1 ++ v :: vs2)
                   (ds1' ++ d' :: ds2') w3 (lg1 ++ (lg0 ++ EvCall g args0 :: rest) ++ lg2)).
  { eapply called_all_app; [exact H1|]. econstructor; eauto. }
  assert (Hflag : exists rs, steps U (ds1 ++ LCore (FnUser g) (Some old) ds0 :: ds2) w =
            (Ok rs, ds1' ++ d' :: ds2', w3, lg1 ++ (lg0 ++ EvCall g args0 :: rest) ++ lg2) /\
            map fst rs = vs1 ++ v :: vs2 /\ existsb snd rs = true).
  { clear Hall. induction H1 as [w|d ds w u ch d'' w1 lg vs ds' w5 lg5 Hsd Hc IH].
    - cbn [app]. destruct (called_all_steps U _ _ _ _ _ _ H2) as (rs & Hst & Hrs).
      exists ((v, true) :: rs). rewrite steps_cons, Hs, Hst. cbn. rewrite Hrs. auto.
    - destruct (IH H0 Hs) as (rs & Hst & Hrs & Hex).
      exists ((u, ch) :: rs). cbn [app]. rewrite steps_cons, Hsd, Hst. cbn.
      rewrite Hrs, Hex, orb_true_r, !app_assoc. auto. }
  destruct Hflag as (rs & Hst & Hrs & Hex).
  exists (ctad_tuple as_tuple (vs1 ++ v :: vs2)).
  rewrite step_core, Hst, core_eq, Hex, orb_true_r, Hrs. cbn [call_fn].
  assert (Hp : passes (vs1 ++ v :: vs2) (ctad_tuple as_tuple (vs1 ++ v :: vs2)))
    by (eapply called_all_passes; eauto).
  destruct (sem U f _ w3) as [[[o|]|] w6]; cbn [regularized]; repeat eexists;
    try exact Hp; rewrite <- ?app_assoc; cbn [app]; rewrite <- ?app_assoc; reflexivity.
Qed.

(** ** Dependencies and arguments *)
Lemma classification (U : user A W fid did) (o : depobj A fid did) :
  match o with
  | ObjLazy l => ensure_lazy U o = l
  | ObjPlain d =>
      forall ws k r lg, nth_error (call_seq U (ensure_lazy U o) ws) k = Some (r, lg) ->
        exists w, nth_error ws k = Some w /\ samples lg = [d] /\
          (forall f args, ~ In (EvCall f args) lg) /\
          match fst (dsem U d w), r with
          | VRet v, Ok (v', _) => v' = v
          | VThrow, Exc => True
          | _, _ => False
          end
  | ObjRawLazy _ v | ObjValue v =>
      forall w, step U (ensure_lazy U o) w = (Ok (v, false), ensure_lazy U o, w, [])
  end.
Proof.
  destruct o as [l|l v|d|v].
  - reflexivity.
  - reflexivity.
  - change (ensure_lazy U (ObjPlain d)) with (sample_node U d). unfold sample_node. generalize (@None value) as c.
    intros c ws. revert c.
    induction ws as [|w ws IH]; intros c k r lg H; cbn [call_seq] in H; [destruct k; discriminate|].
    rewrite step_core in H. change (steps U [LValue (VAtom (int0 U)) true] w)
      with (@Ok (list (value * bool)) [(VAtom (int0 U), true)], [@LValue A fid did (VAtom (int0 U)) true], w, @nil event) in H.
    cbn beta iota zeta in H. rewrite core_eq in H. cbn [existsb snd] in H. rewrite orb_true_r in H.
    cbn [call_fn] in H. destruct (dsem U d w) as [[v|] w'] eqn:Ed.
    + destruct k as [|k].
      * cbn in H. injection H as <- <-. exists w. rewrite Ed. cbn. repeat split; auto.
        -- destruct c; reflexivity.
        -- intros f args Hin. destruct c; cbn in Hin; intuition discriminate.
      * cbn [nth_error] in H. destruct (IH _ _ _ _ H) as (w0 & H0 & H1). exists w0. cbn. auto.
    + destruct k as [|k].
      * cbn in H. injection H as <- <-. exists w. rewrite Ed. cbn. repeat split; auto.
        intros f args Hin. cbn in Hin; intuition discriminate.
      * cbn [nth_error] in H. destruct (IH _ _ _ _ H) as (w0 & H0 & H1). exists w0. cbn. auto.
  - reflexivity.
Qed.

Lemma own_arguments (U : user A W fid did) f c ds w vs ds' w' lg r l' w2 lg2 :
  called_all U ds w vs ds' w' lg ->
  step U (LCore (FnUser f) c ds) w = (r, l', w2, lg2) ->
  exists own, lg2 = lg ++ own /\
    (own = [] \/ exists args rest, own = EvCall f args :: rest /\
       (forall g args', ~ In (EvCall g args') rest) /\
       args = match vs with [VTuple l] => l | [VPair x y] => [x; y] | _ => vs end).
Proof.
  intros Hc Hs. destruct (called_all_steps U _ _ _ _ _ _ Hc) as (rs & Hst & Hrs).
  rewrite step_core, Hst in Hs.
  destruct (core U (FnUser f) c rs w') as [[[r' c'] w3] own] eqn:Ec. injection Hs as <- <- <- <-.
  exists own. split; [reflexivity|]. rewrite core_eq in Ec.
  destruct (negb (is_some c) || existsb snd rs).
  - rewrite Hrs in Ec. cbn [call_fn] in Ec.
    assert (Hargs : ctad_tuple as_tuple vs = match vs with [VTuple l] => l | [VPair x y] => [x; y] | _ => vs end).
    { destruct vs as [|v [|v2 vs]]; [reflexivity| |now destruct v]. now destruct v. }
    right. destruct (sem U f (ctad_tuple as_tuple vs) w') as [[o|] w4]; cbn [regularized] in Ec.
    + exists (ctad_tuple as_tuple vs).
      destruct o, c; injection Ec as <- <- <- <-; eexists; (split; [reflexivity|]);
        (split; [intros g a Hin; cbn in Hin; intuition discriminate|auto]).
    + injection Ec as <- <- <- <-. exists (ctad_tuple as_tuple vs), [].
      repeat split; auto.
  - left. destruct c; injection Ec; auto.
Qed.

(** ** Repeating a call *)
Section Exact.
Variable U : user A W fid did.
Variable pf : fid -> list value -> option value.
Variable rd : did -> W -> value.
Hypothesis Hpure : pure_user U pf rd.
Hypothesis Hexact : exact_eq U.
Notation eqb := (veq (aeq U)).

Lemma touched_same w (t : tracked A W fid did) : differs pf rd eqb (touch w t) w = false.
Proof.
  assert (Hr : forall v, negb (eqb v v) = false).
  { intros v. apply negb_false_iff. now apply eqb_spec. }
  destruct t as [v|d last|f last ts]; unfold differs; cbn [touch last_of]; auto.
Qed.

Lemma touched_no_call w (t : tracked A W fid did) :
  Forall (fun ev => match ev with EvCall _ _ => False | _ => True end)
         (expected pf rd eqb (touch w t) w).
Proof.
  induction t as [v|d last|f last ts IH] using tracked_ind'; cbn [touch expected].
  - constructor.
  - repeat constructor.
  - apply Forall_app. split.
    + rewrite flat_map_concat_map, map_map, <- flat_map_concat_map.
      induction IH as [|t ts Ht Hts IHts]; cbn; [constructor|]. apply Forall_app. auto.
    + assert (Hex : existsb (fun t => differs pf rd eqb t w) (map (touch w) ts) = false).
      { clear IH. induction ts as [|t ts IHts]; cbn; [reflexivity|]. now rewrite touched_same. }
      rewrite Hex. constructor.
Qed.

Lemma touch_touch w (t : tracked A W fid did) : touch w (touch w t) = touch w t.
Proof.
  induction t as [v|d last|f last ts IH] using tracked_ind'; cbn; auto.
  f_equal. rewrite map_map. induction IH as [|t ts Ht Hts IHts]; cbn; auto. now rewrite Ht, IHts.
Qed.

Lemma step_spec_inv t l w r l' w' lg :
  rel U pf rd t l -> regular pf rd (erase t) /\ never_null pf rd (erase t) -> step U l w = (r, l', w', lg) ->
  r = Ok (eval pf rd (erase t) w, differs pf rd eqb t w) /\ w' = w /\
  lg = expected pf rd eqb t w /\ rel U pf rd (touch w t) l'.
Proof.
  intros Hrel [Hreg Hnn] Hs. destruct (step_spec U pf rd Hpure Hexact t l w Hrel Hreg Hnn) as (l1 & Hs1 & Hrel1).
  rewrite Hs in Hs1. injection Hs1 as -> -> -> ->. auto.
Qed.

Lemma pure_readonly : readonly_user U.
Proof.
  destruct Hpure as [H1 H2]. split; intros; [now rewrite H1|now rewrite H2].
Qed.

Lemma classic_call (o : op A W fid did) x : o = Call x \/ (forall y, o = Call y -> y <> x).
Proof.
  destruct o as [f ss|y|y|h]; try (right; intros; discriminate).
  destruct (Nat.eq_dec y x) as [->|]; [now left | right; intros z E; injection E as <-; auto].
Qed.

Lemma no_env_world q : forall s s' outs,
  no_env q -> run U q s = Some (s', outs) -> world s' = world s.
Proof.
  induction q as [|o q IH]; intros s s' outs Hn Hr; cbn [run] in Hr.
  - now injection Hr as <- _.
  - inversion Hn as [|? ? Ho Hn']; subst.
    destruct (exec U o s) as [[s1 out]|] eqn:Ee; [|discriminate].
    destruct (run U q s1) as [[s2 outs']|] eqn:Er; [|discriminate]. injection Hr as <- <-.
    rewrite (IH _ _ _ Hn' Er). destruct o as [f ss|x|x|h]; cbn in Ee; [| | |destruct Ho].
    + destruct (deps_of _ _); [|discriminate]. now injection Ee as <- _.
    + destruct (nth_error _ _); [|discriminate]. now injection Ee as <- _.
    + destruct (nth_error (vars s) x) as [l|]; [|discriminate].
      pose proof (called_all_world U pure_readonly l (world s)) as Hw.
      destruct (step U l (world s)) as [[[r l'] w'] lg]. now injection Ee as <- _.
Qed.

Lemma eager_tracked p : forall ts0 w es vals ts outs,
  eager pf rd p (map erase ts0) w = Some (es, vals) ->
  tracked_run pf rd eqb p ts0 w = Some (ts, outs) -> es = map erase ts.
Proof.
  induction p as [|o p IH]; intros ts0 w es vals ts outs He Ht; cbn in He, Ht.
  - injection He as <- _. injection Ht as <- _. reflexivity.
  - destruct o as [f ss|x|x|h].
    + rewrite spec_deps_erase in He.
      destruct (spec_deps TConst _ ts0 ss) as [us|]; [|discriminate]. cbn in He.
      destruct (tracked_run pf rd eqb p _ w) as [[ts1 o1]|] eqn:E1; [|discriminate].
      injection Ht as <- _. eapply IH; [|exact E1]. rewrite map_app. exact He.
    + rewrite nth_error_map in He. destruct (nth_error ts0 x) as [t|]; [|discriminate]. cbn in He.
      destruct (tracked_run pf rd eqb p _ w) as [[ts1 o1]|] eqn:E1; [|discriminate].
      injection Ht as <- _. eapply IH; [|exact E1]. rewrite map_app. exact He.
    + rewrite nth_error_map in He. destruct (nth_error ts0 x) as [t|] eqn:Ex; [|discriminate]. cbn in He.
      destruct (eager pf rd p (map erase ts0) w) as [[es1 v1]|] eqn:Ee; [|discriminate].
      injection He as <- _.
      destruct (tracked_run pf rd eqb p _ w) as [[ts1 o1]|] eqn:E1; [|discriminate].
      injection Ht as <- _. eapply IH; [|exact E1].
      rewrite map_update, erase_touch, update_same; [exact Ee|].
      rewrite nth_error_map, Ex. reflexivity.
    + destruct (tracked_run pf rd eqb p _ (h w)) as [[ts1 o1]|] eqn:E1; [|discriminate].
      injection Ht as <- _. eapply IH; [exact He|exact E1].
Qed.

Lemma repeat_call p w es vals s outs x s1 v lg :
  eager pf rd p [] w = Some (es, vals) -> Forall (regular pf rd) es -> Forall (never_null pf rd) es ->
  run U p (mkState [] w) = Some (s, outs) ->
  exec U (Call x) s = Some (s1, (Some (Ok v), lg)) ->
  forall q s2 outs2 r lg2 s3, no_env q -> run U q s1 = Some (s2, outs2) ->
    exec U (Call x) s2 = Some (s3, (Some r, lg2)) ->
    r = Ok v /\ Forall (fun ev => match ev with EvCall _ _ => False | _ => True end) lg2 /\
    exists l u l', nth_error (vars s2) x = Some l /\
      step U l (world s2) = (Ok (u, false), l', world s3, lg2).
Proof.
  intros He Hreg Hnn Hr Hc q s2 outs2 r lg2 s3 Hq Hr2 Hc2.
  pose proof (run_refines U pf rd Hpure Hexact p [] [] w (Forall2_nil _)) as H.
  cbn in H. rewrite He in H. destruct (H Hreg Hnn) as (s' & ts & outs' & Hr' & Ht & Hrel & _).
  rewrite Hr in Hr'. injection Hr' as <- <-.
  destruct (exec_call_inv _ _ _ _ _ _ Hc) as (l & l' & r' & Hl & Hs & Hres & Hv).
  assert (Hexist : exists t, nth_error ts x = Some t /\ rel U pf rd t l).
  { destruct (nth_error ts x) as [t|] eqn:E.
    - destruct (Forall2_nth_error _ _ _ _ _ Hrel E) as (l0 & Hl0 & Hrl). exists t. split; congruence.
    - rewrite (Forall2_nth_error_None _ _ _ _ Hrel E) in Hl. discriminate. }
  destruct Hexist as (t & Ht0 & Hrl).
  assert (Hregt : regular pf rd (erase t) /\ never_null pf rd (erase t)).
  { assert (Hes : es = map erase ts) by exact (eager_tracked p [] w es vals ts outs He Ht).
    rewrite Forall_forall in Hreg, Hnn.
    split; [apply Hreg|apply Hnn]; rewrite Hes; apply in_map; eapply nth_error_In; eauto. }
  destruct (step_spec_inv _ _ _ _ _ _ _ Hrl Hregt Hs) as (-> & Hw1 & _ & Hrel').
  assert (Hx1 : nth_error (vars s1) x = Some l').
  { rewrite Hv, nth_error_update, Nat.eqb_refl.
    assert (Hlen : x < length (vars s)) by (apply nth_error_Some; congruence).
    apply Nat.ltb_lt in Hlen. now rewrite Hlen. }
  (* between the two calls, x is only ever called in the same world *)
  assert (Hinv : forall q s s' outs, no_env q -> run U q s = Some (s', outs) ->
            forall l, nth_error (vars s) x = Some l -> rel U pf rd (touch (world s) t) l ->
            exists l2, nth_error (vars s') x = Some l2 /\ rel U pf rd (touch (world s) t) l2).
  { clear -Hpure Hexact Hregt. induction q as [|o q IH]; intros s s' outs Hn Hr l Hl Hrl; cbn [run] in Hr.
    - injection Hr as <- _. eauto.
    - inversion Hn as [|? ? Ho Hn']; subst.
      destruct (exec U o s) as [[s1 out]|] eqn:Ee; [|discriminate].
      destruct (run U q s1) as [[s2 outs']|] eqn:Er; [|discriminate]. injection Hr as <- <-.
      assert (Hw : world s1 = world s).
      { eapply (no_env_world [o]); [constructor; [exact Ho|constructor]|].
        cbn. rewrite Ee. reflexivity. }
      destruct (classic_call o x) as [->|Hne].
      + cbn in Ee. rewrite Hl in Ee. destruct (step U l (world s)) as [[[r l'] w'] lg] eqn:Es.
        injection Ee as <- <-.
        assert (Hregt' : regular pf rd (erase (touch (world s) t)) /\ never_null pf rd (erase (touch (world s) t))) by (now rewrite erase_touch).
        destruct (step_spec_inv _ _ _ _ _ _ _ Hrl Hregt' Es) as (_ & _ & _ & Hrel').
        rewrite touch_touch in Hrel'. cbn in Hw. subst w'.
        eapply (IH (mkState (update x l' (vars s)) (world s))); [exact Hn'|exact Er| |exact Hrel'].
        cbn. rewrite nth_error_update, Nat.eqb_refl.
        assert (Hlen : x < length (vars s)) by (apply nth_error_Some; congruence).
        apply Nat.ltb_lt in Hlen. now rewrite Hlen.
      + rewrite <- Hw in Hrl |- *. eapply IH; [exact Hn'|exact Er| |exact Hrl].
        eapply exec_other; eauto. }
  rewrite <- Hw1 in Hrel'.
  destruct (Hinv q s1 s2 outs2 Hq Hr2 l' Hx1 Hrel') as (l2 & Hl2 & Hrel2).
  destruct (exec_call_inv _ _ _ _ _ _ Hc2) as (l2' & l3 & r2 & Hl2' & Hs2 & Hres2 & _).
  rewrite Hl2 in Hl2'. injection Hl2' as <-.
  assert (Hw2 : world s2 = world s1) by (eapply no_env_world; eauto).
  pose proof Hs2 as Hs2'. rewrite Hw2 in Hs2.
  assert (Hregt' : regular pf rd (erase (touch (world s1) t)) /\ never_null pf rd (erase (touch (world s1) t))) by (now rewrite erase_touch).
  destruct (step_spec_inv _ _ _ _ _ _ _ Hrel2 Hregt' Hs2) as (-> & _ & -> & _).
  rewrite Hres, Hres2, !api_result_visible, erase_touch. rewrite Hw1. split; [reflexivity|].
  split; [apply touched_no_call|].
  rewrite touched_same, Hw1 in Hs2'. eauto.
Qed.

(** ** When the wrapped function is evaluated *)
Lemma expected_postorder w (t : tracked A W fid did) f args :
  In (EvCall f args) (expected pf rd eqb t w) -> In (inl f) (postorder (erase t)).
Proof.
  induction t as [v|d last|g last ts IH] using tracked_ind'; cbn [expected erase postorder].
  - intros [].
  - unfold compare_last. cbn [last_of]. destruct last; cbn; intuition discriminate.
  - intros H. apply in_app_or in H as [H|H].
    + apply in_or_app. left. apply in_flat_map in H as (t & Ht & H).
      apply in_flat_map. exists (erase t). split; [now apply in_map|].
      rewrite Forall_forall in IH. now apply IH.
    + apply in_or_app. right. destruct last as [w0|]; unfold compare_last in H; cbn [last_of] in H.
      * destruct (existsb _ ts); [|destruct H]. destruct H as [H|[H|[]]]; [|discriminate].
        injection H as -> _. now left.
      * destruct H as [H|[]]. injection H as -> _. now left.
Qed.

Lemma differs_sync w0 w (t : tracked A W fid did) :
  in_sync t w0 -> (differs pf rd eqb t w = true <-> eval pf rd (erase t) w0 <> eval pf rd (erase t) w).
Proof.
  assert (Hneg : forall a b, negb (eqb a b) = true <-> a <> b).
  { intros a b. rewrite negb_true_iff. split.
    - intros H ->. rewrite (proj2 (eqb_spec U Hexact b b) eq_refl) in H. discriminate.
    - intros H. destruct (eqb a b) eqn:E; auto. apply (eqb_spec U Hexact) in E. contradiction. }
  destruct t as [v|d last|f last ts]; intros Hs; unfold differs.
  - cbn. split; [discriminate|congruence].
  - cbn in Hs; subst last. cbn [last_of]. apply Hneg.
  - cbn in Hs; subst last. cbn [last_of]. apply Hneg.
Qed.

Lemma reeval_calls f (ws : list W) : forall last us l,
  rel U pf rd (TApp f last us) l -> regular pf rd (EApp f (map erase us)) /\ never_null pf rd (EApp f (map erase us)) ->
  ~ In (inl f) (flat_map postorder (map erase us)) ->
  forall k wk r lg, nth_error ws k = Some wk -> nth_error (call_seq U l ws) k = Some (r, lg) ->
    (exists args, In (EvCall f args) lg) <->
    match (match k with 0 => last | S j => nth_error ws j end) with
    | None => True
    | Some w0 => exists e, In e (map erase us) /\ eval pf rd e w0 <> eval pf rd e wk
    end.
Proof.
  induction ws as [|w ws IH]; intros last us l Hrel Hreg Hnin k wk r lg Hwk Hk; [now destruct k|].
  cbn [call_seq] in Hk. destruct (step U l w) as [[[r0 l'] w'] lg0] eqn:Es.
  destruct (step_spec_inv _ _ _ _ _ _ _ Hrel Hreg Es) as (-> & _ & -> & Hrel').
  destruct k as [|k]; cbn in Hwk, Hk.
  - injection Hwk as <-. injection Hk as <- <-. cbn [expected].
    assert (Hno : forall args, ~ In (EvCall f args) (flat_map (fun t => expected pf rd eqb t w) us)).
    { intros args H. apply in_flat_map in H as (t & Ht & H). apply Hnin.
      apply in_flat_map. exists (erase t). split; [now apply in_map|]. eapply expected_postorder; eauto. }
    destruct last as [w0|].
    + inversion Hrel as [| |f' last' ts' ls Hts Hsync]; subst.
      assert (Hiff : existsb (fun t => differs pf rd eqb t w) us = true <->
                     exists e, In e (map erase us) /\ eval pf rd e w0 <> eval pf rd e w).
      { specialize (Hsync w0 eq_refl). rewrite existsb_exists. rewrite Forall_forall in Hsync. split.
        - intros (t & Ht & Hd). exists (erase t). split; [now apply in_map|].
          now apply (differs_sync w0 w t (Hsync t Ht)).
        - intros (e & He & Hd). apply in_map_iff in He as (t & <- & Ht). exists t. split; auto.
          now apply (differs_sync w0 w t (Hsync t Ht)). }
      rewrite <- Hiff. destruct (existsb _ us).
      * split; auto. intros _. eexists. apply in_or_app. right. now left.
      * split; [|discriminate]. intros [args H]. rewrite app_nil_r in H. destruct (Hno _ H).
    + split; auto. intros _. eexists. apply in_or_app. right. now left.
  - cbn [touch] in Hrel'.
    assert (Hmap : map erase (map (touch w) us) = map erase us).
    { rewrite map_map. apply map_ext. intros t. apply erase_touch. }
    specialize (IH (Some w) (map (touch w) us) l' Hrel'). rewrite Hmap in IH.
    specialize (IH Hreg Hnin k wk r lg Hwk Hk).
    destruct k as [|k]; exact IH.
Qed.

Lemma reeval_iff p w es vals f ss ds s outs :
  eager pf rd p [] w = Some (es, vals) -> Forall (regular pf rd) es -> Forall (never_null pf rd) es ->
  spec_deps EConst EFun es ss = Some ds -> regular pf rd (EApp f ds) -> never_null pf rd (EApp f ds) ->
  ~ In (inl f) (flat_map postorder ds) ->
  run U (p ++ [New f ss]) (mkState [] w) = Some (s, outs) ->
  exists l, nth_error (vars s) (length es) = Some l /\
  forall ws k wk r lg,
    nth_error ws k = Some wk -> nth_error (call_seq U l ws) k = Some (r, lg) ->
    (exists args, In (EvCall f args) lg) <->
    match k with
    | 0 => True
    | S j => exists wj e, nth_error ws j = Some wj /\ In e ds /\ eval pf rd e wj <> eval pf rd e wk
    end.
Proof.
  intros He Hreg Hnn Hd Hregf Hnnf Hnin Hr.
  pose proof (run_refines U pf rd Hpure Hexact p [] [] w (Forall2_nil _)) as H.
  cbn in H. rewrite He in H. destruct (H Hreg Hnn) as (s0 & ts & outs0 & Hr0 & Ht & Hrel & _).
  rewrite run_app, Hr0 in Hr. cbn [run exec] in Hr.
  destruct (deps_of (vars s0) ss) as [os|] eqn:Eos; [|discriminate]. injection Hr as <- _.
  assert (Hes : es = map erase ts).
  { pose proof (eager_tracked p [] w es vals ts outs0 He Ht). assumption. }
  assert (Hlen : length es = length (vars s0)).
  { rewrite Hes, map_length. eapply Forall2_length; eauto. }
  exists (mk_lazy U f os). split.
  - cbn. rewrite nth_error_app2 by lia. now rewrite Hlen, Nat.sub_diag.
  - intros ws k wk r lg Hwk Hk.
    pose proof (deps_rel U pf rd ts (vars s0) ss Hrel) as Hdr. rewrite Eos in Hdr.
    rewrite Hes, spec_deps_erase in Hd.
    destruct (spec_deps TConst _ ts ss) as [us|]; [|discriminate]. injection Hd as <-.
    assert (Hrel1 : rel U pf rd (TApp f None us) (mk_lazy U f os)).
    { unfold mk_lazy. apply (rel_app U pf rd f None us _ Hdr). discriminate. }
    rewrite (reeval_calls f ws None us _ Hrel1 (conj Hregf Hnnf) Hnin k wk r lg Hwk Hk).
    destruct k as [|j]; [reflexivity|].
    destruct (nth_error ws j) as [wj|] eqn:Ej.
    + split; [intros (e & H1 & H2); eauto|]. intros (wj' & e & H1 & H2 & H3).
      injection H1 as <-. eauto.
    + apply nth_error_None in Ej. assert (S j < length ws) by (apply nth_error_Some; congruence). lia.
Qed.

End Exact.

(** Creating and copying is silent, in every program (C04). *)
Section Silent.
Variable U : user A W fid did.

Theorem creation_silent : forall (p : list (op A W fid did)) s s' outs,
  run U p s = Some (s', outs) ->
  Forall2 (fun o out => match o with New _ _ | Copy _ => out = (None, []) | _ => True end) p outs.
Proof.
  induction p as [|o p IH]; intros s s' outs H; cbn [run] in H.
  - injection H as <- <-. constructor.
  - destruct (exec U o s) as [[s1 out]|] eqn:E; [|discriminate].
    destruct (run U p s1) as [[s2 outs']|] eqn:Er; [|discriminate]. injection H as <- <-.
    constructor; [|eapply IH; exact Er].
    destruct o as [f ss|x|x|h]; auto; cbn [exec] in E.
    + destruct (deps_of (vars s) ss); [|discriminate]. congruence.
    + destruct (nth_error (vars s) x); [|discriminate]. congruence.
Qed.

Theorem creation_no_effect : forall (p : list (op A W fid did)) s s' outs,
  Forall (fun o => match o with New _ _ | Copy _ => True | _ => False end) p ->
  run U p s = Some (s', outs) ->
  world s' = world s /\ firstn (length (vars s)) (vars s') = vars s.
Proof.
  induction p as [|o p IH]; intros s s' outs Hp H; cbn [run] in H.
  - injection H as <- <-. split; [reflexivity|]. apply firstn_all.
  - destruct (exec U o s) as [[s1 out]|] eqn:E; [|discriminate].
    destruct (run U p s1) as [[s2 outs']|] eqn:Er; [|discriminate]. injection H as <- <-.
    inversion Hp as [|? ? H1 H2]; subst. destruct (IH _ _ _ H2 Er) as [Hw Hv].
    assert (G : world s1 = world s /\ exists l, vars s1 = vars s ++ [l]).
    { destruct o as [f ss|x|x|h]; try easy; cbn [exec] in E.
      - destruct (deps_of (vars s) ss); [|discriminate]. injection E as <- _. cbn. eauto.
      - destruct (nth_error (vars s) x); [|discriminate]. injection E as <- _. cbn. eauto. }
    destruct G as [Gw (l & Gv)]. split; [congruence|]. rewrite Gv in Hv.
    transitivity (firstn (length (vars s)) (firstn (length (vars s ++ [l])) (vars s2))).
    + rewrite firstn_firstn, Nat.min_l by (rewrite app_length; lia). reflexivity.
    + rewrite Hv, firstn_app, firstn_all, Nat.sub_diag. cbn. apply app_nil_r.
Qed.
End Silent.
End Thms.
