(** Proofs for C55. *)
From Coq Require Import List Bool Arith Lia.
From Verif Require Import Value TupleAlg LazyModel LazySpec LazySpec2 TupleAlgProofs LazyProofs LazyGeneral LazyThms OptionalSpec.
Import ListNotations.

Section Optional.
Context {A W fid did : Type}.
Notation value := (val A).
Variable U : user A W fid did.
Variable pf : fid -> list value -> option value.
Variable rd : did -> W -> value.
Hypothesis Hpure : pure_user U pf rd.
Hypothesis Hsound : sound_eq U.
Notation eval := (eval pf rd).
Notation eqb := (veq (aeq U)).
Notation reports := (reports pf rd eqb).
Notation actions := (actions pf rd eqb).
Notation rel := (rel U pf rd).

Lemma opt_ne_news c (v : value) : nested_opt v = false -> opt_ne (aeq U) c v = news eqb c v.
Proof.
  intros Hn. unfold news.
  destruct (has_nullopt v) eqn:E.
  - destruct v as [| | | |[[| | | |]|]]; try discriminate. cbn. now destruct c.
  - rewrite opt_ne_nonnull by exact E.
    assert (is_null v = false) as -> by (destruct v as [| | | |[|]]; cbn in *; congruence).
    reflexivity.
Qed.

Lemma news_false (u v : value) : news eqb (Some u) v = false -> u = v.
Proof.
  cbn. intros H. apply orb_false_iff in H as [_ H]. apply negb_false_iff in H.
  eapply veq_sound; eauto.
Qed.

Lemma step_actions (t : tracked A W fid did) : forall l w,
  rel t l -> regular pf rd (erase t) -> unnested pf rd (erase t) ->
  (exists l', step U l w = (Ok (eval (erase t) w, reports t w), l', w, actions t w)
             /\ rel (touch w t) l') /\
  (forall w0, in_sync t w0 -> reports t w = false -> eval (erase t) w0 = eval (erase t) w).
Proof.
  destruct Hpure as [Hsem Hdsem].
  induction t as [v|d last|f last ts IH] using tracked_ind'; intros l w Hrel Hreg Hnn.
  - inversion Hrel; subst. split; [eexists; split; [reflexivity|]; constructor|]. reflexivity.
  - inversion Hrel; subst. split.
    + cbn. unfold core. rewrite any_pure, transform_pure. cbn.
      rewrite orb_true_r. rewrite Hdsem. cbn.
      unfold LazySpec.compare_last; cbn.
      rewrite opt_ne_news by apply Hnn.
      destruct last as [w0|]; cbn; eexists; (split; [reflexivity|]); exact (rel_fun U pf rd d (Some w)).
    + intros w0 Hs. cbn in Hs. subst last. cbn [OptionalSpec.reports option_map]. apply news_false.
  - inversion Hrel as [| |f' last' ts' ls Hts Hsync]; subst f' last' ts' l.
    cbn [erase] in Hreg, Hnn. apply regular_app in Hreg as [Hone Hregs].
    apply all_results_app in Hnn as [Hnn Hnns].
    assert (Hdeps : (exists ls', steps U ls w
              = (Ok (map (fun t => (eval (erase t) w, reports t w)) ts), ls', w,
                 flat_map (fun t => actions t w) ts)
              /\ Forall2 rel (map (touch w) ts) ls') /\
              Forall (fun t => forall w0, in_sync t w0 -> reports t w = false ->
                                          eval (erase t) w0 = eval (erase t) w) ts).
    { clear Hsync Hone Hrel Hnn.
      revert Hregs Hnns IH. induction Hts as [|t l ts ls Htl Hts IHts]; intros Hregs Hnns IH.
      - split; [|constructor]. exists []. split; [reflexivity|constructor].
      - cbn in Hregs. inversion Hregs as [|? ? Hreg1 Hreg2]; subst.
        inversion IH as [|? ? IH1 IH2]; subst.
        cbn in Hnns. inversion Hnns as [|? ? Hnn1 Hnn2]; subst.
        destruct (IH1 l w Htl Hreg1 Hnn1) as [(l' & Hstep & Hrel') Hb].
        destruct (IHts Hreg2 Hnn2 IH2) as [(ls' & Hsteps & Hrels') Hbs].
        split; [|now constructor].
        exists (l' :: ls'). split.
        + unfold steps in *. cbn. rewrite Hstep. rewrite Hsteps. reflexivity.
        + cbn. constructor; assumption. }
    destruct Hdeps as [(ls' & Hsteps & Hrels') Hback].
    assert (Hsame : forall w0, Forall (fun t => in_sync t w0) ts ->
              existsb (fun t => reports t w) ts = false ->
              map (fun t => eval (erase t) w0) ts = map (fun t => eval (erase t) w) ts).
    { intros w0 Hs Hex. clear -Hs Hex Hback.
      induction Hback as [|t ts Ht Hts IH]; cbn in *; auto.
      inversion Hs; subst. apply orb_false_iff in Hex as [Hd Hex]. f_equal; auto. }
    assert (Heval : eval (erase (TApp f last ts)) w = fval pf f (map (fun t => eval (erase t) w) ts)).
    { cbn. f_equal. rewrite map_map. reflexivity. }
    assert (Hnn' : nested_opt (fval pf f (map (fun t => eval (erase t) w) ts)) = false).
    { specialize (Hnn w). rewrite map_map in Hnn. exact Hnn. }
    split.
    2: { intros w0 Hs Hr. cbn [in_sync last_of] in Hs. subst last.
         cbn [OptionalSpec.reports option_map] in Hr.
         apply andb_false_iff in Hr as [Hr|Hr]; [|now apply news_false in Hr].
         cbn. f_equal. rewrite !map_map. apply Hsame; auto. }
    cbn [step]. fold (steps U). rewrite Hsteps. rewrite ctad_none.
    unfold core. rewrite any_pure, transform_pure. cbn [fst].
    assert (Hvals : map lr_value (map (fun t => (eval (erase t) w, reports t w)) ts)
                    = map (fun t => eval (erase t) w) ts)
      by (rewrite map_map; reflexivity).
    assert (Hflags : existsb lr_is_changed (map (fun t => (eval (erase t) w, reports t w)) ts)
                     = existsb (fun t => reports t w) ts).
    { clear. induction ts as [|t ts IH]; cbn; auto. now rewrite <- IH. }
    rewrite Hvals, Hflags.
    assert (Hct : ctad_tuple as_tuple (map (fun t => eval (erase t) w) ts)
                  = map (fun t => eval (erase t) w) ts).
    { apply ctad_regular. intros x Hx. destruct ts as [|t [|t2 ts]]; cbn in Hx; try discriminate.
      injection Hx as <-. cbn in Hone. apply Hone. }
    rewrite Hct.
    assert (Hrel' : forall c,
      c = fval pf f (map (fun t => eval (erase t) w) ts) ->
      rel (touch w (TApp f last ts)) (LCore (FnUser f) (Some c) ls')).
    { intros c ->. cbn [touch].
      pose proof (rel_app U pf rd f (Some w) (map (touch w) ts) ls' Hrels') as Hr.
      cbn [option_map] in Hr.
      assert (He : eval (EApp f (map erase (map (touch w) ts))) w
                   = fval pf f (map (fun t => eval (erase t) w) ts)).
      { cbn. f_equal. rewrite !map_map. apply map_ext. intros t. now rewrite erase_touch. }
      rewrite He in Hr. apply Hr. intros w0 Hw0. injection Hw0 as <-.
      apply Forall_forall. intros t Ht. apply in_map_iff in Ht as (t0 & <- & _).
      apply touch_in_sync. }
    cbn [call_fn]. rewrite Hsem.
    assert (Hreg : regularized (FRet (pf f (map (fun t => eval (erase t) w) ts)))
                   = VRet (fval pf f (map (fun t => eval (erase t) w) ts))).
    { unfold regularized, fval. now destruct (pf f _). }
    destruct last as [w0|]; cbn [option_map is_some negb orb].
    + destruct (existsb (fun t => reports t w) ts) eqn:Hex.
      * rewrite Hreg. unfold opt_neq. rewrite opt_ne_news by exact Hnn'.
        eexists; split; [|apply Hrel'; reflexivity].
        cbn [OptionalSpec.actions OptionalSpec.reports option_map]. rewrite Hex. unfold LazySpec.compare_last.
        cbn [last_of andb]. rewrite Heval. reflexivity.
      * specialize (Hsame w0 (Hsync w0 eq_refl) eq_refl).
        assert (Hc : eval (EApp f (map erase ts)) w0 = fval pf f (map (fun t => eval (erase t) w) ts)).
        { cbn. f_equal. rewrite map_map. exact Hsame. }
        rewrite Hc. eexists; split; [|apply Hrel'; reflexivity].
        cbn [OptionalSpec.actions OptionalSpec.reports option_map]. rewrite Hex, Heval. reflexivity.
    + rewrite Hreg. unfold opt_neq. rewrite opt_ne_news by exact Hnn'.
      eexists; split; [|apply Hrel'; reflexivity].
      cbn [OptionalSpec.actions OptionalSpec.reports option_map andb]. unfold LazySpec.compare_last. cbn [last_of].
      rewrite Heval. reflexivity.
Qed.

Lemma action_refines p : forall ts ls w es vals,
  Forall2 rel ts ls ->
  eager pf rd p (map erase ts) w = Some (es, vals) ->
  Forall (regular pf rd) es -> Forall (unnested pf rd) es ->
  exists s ts' outs,
    run U p (mkState ls w) = Some (s, outs) /\
    action_run pf rd eqb p ts w = Some (ts', outs) /\
    Forall2 rel ts' (vars s) /\ es = map erase ts'.
Proof.
  induction p as [|o p IH]; intros ts ls w es vals Hrel He Hreg Hnn.
  - injection He as <- _. exists (mkState ls w), ts, []. auto.
  - destruct o as [f ss|x|x|h]; cbn [eager] in He; cbn [run action_run exec vars world].
    + rewrite spec_deps_erase in He. pose proof (deps_rel U pf rd ts ls ss Hrel) as Hd.
      destruct (spec_deps TConst _ ts ss) as [us|], (deps_of ls ss) as [os|]; try contradiction; cbn in He |- *; [|discriminate].
      assert (Hrel' : Forall2 rel (ts ++ [TApp f None us]) (ls ++ [mk_lazy U f os])).
      { apply Forall2_app; [assumption|]. constructor; [|constructor].
        unfold mk_lazy. apply (rel_app U pf rd f None us _ Hd). discriminate. }
      destruct (IH _ _ w es vals Hrel') as (s & ts' & outs & -> & -> & H1 & H2); auto.
      { rewrite map_app. exact He. }
      exists s, ts', ((None, []) :: outs). auto.
    + rewrite nth_error_map in He. destruct (nth_error ts x) as [t|] eqn:Et; [|discriminate].
      destruct (Forall2_nth_error _ _ _ _ _ Hrel Et) as (l & -> & Hl). cbn in He |- *.
      assert (Hrel' : Forall2 rel (ts ++ [t]) (ls ++ [l])) by (apply Forall2_app; auto).
      destruct (IH _ _ w es vals Hrel') as (s & ts' & outs & -> & -> & H1 & H2); auto.
      { rewrite map_app. exact He. }
      exists s, ts', ((None, []) :: outs). auto.
    + rewrite nth_error_map in He. destruct (nth_error ts x) as [t|] eqn:Et; [|discriminate].
      destruct (Forall2_nth_error _ _ _ _ _ Hrel Et) as (l & -> & Hl). cbn [option_map] in He.
      destruct (eager pf rd p (map erase ts) w) as [[es1 vals1]|] eqn:Ee; [|discriminate].
      injection He as <- <-.
      assert (Hregt : regular pf rd (erase t) /\ unnested pf rd (erase t)).
      { destruct (eager_extends _ _ _ _ _ _ _ Ee) as [ext ->].
        apply Forall_app in Hreg as [Hreg _]. apply Forall_app in Hnn as [Hnn _].
        rewrite Forall_forall in Hreg, Hnn.
        split; [apply Hreg|apply Hnn]; apply in_map; eapply nth_error_In; eauto. }
      destruct (step_actions t l w Hl (proj1 Hregt) (proj2 Hregt)) as [(l' & Hstep & Hl') _]. rewrite Hstep.
      destruct (IH (update x (touch w t) ts) (update x l' ls) w es1 vals1
                     (Forall2_update _ _ _ _ _ _ Hrel Hl')) as (s & ts' & outs & -> & -> & H1 & H2); auto.
      { rewrite map_update, erase_touch, update_same by (rewrite nth_error_map, Et; reflexivity). exact Ee. }
      exists s, ts', ((Some (Ok (visible (eval (erase t) w))), actions t w) :: outs).
      rewrite api_visible. auto.
    + destruct (IH ts ls (h w) es vals Hrel He Hreg Hnn) as (s & ts' & outs & -> & -> & H1 & H2).
      exists s, ts', ((None, []) :: outs). auto.
Qed.

Theorem exact_actions : forall p w es vals,
  eager pf rd p [] w = Some (es, vals) -> Forall (regular pf rd) es -> Forall (unnested pf rd) es ->
  exists s ts outs,
    run U p (mkState [] w) = Some (s, outs) /\ action_run pf rd eqb p [] w = Some (ts, outs).
Proof.
  intros p w es vals He Hr Hn.
  destruct (action_refines p [] [] w es vals (Forall2_nil _) He Hr Hn) as (s & ts & outs & H1 & H2 & _). eauto.
Qed.

(** ** Evaluations *)
Lemma step_actions_inv t l w r l' w' lg :
  rel t l -> regular pf rd (erase t) /\ unnested pf rd (erase t) -> step U l w = (r, l', w', lg) ->
  r = Ok (eval (erase t) w, reports t w) /\ w' = w /\ lg = actions t w /\ rel (touch w t) l'.
Proof.
  intros Hrel [Hreg Hnn] Hs. destruct (step_actions t l w Hrel Hreg Hnn) as [(l1 & Hs1 & Hrel1) _].
  rewrite Hs in Hs1. injection Hs1 as -> -> -> ->. auto.
Qed.

Lemma actions_postorder f args w (t : tracked A W fid did) :
  In (EvCall f args) (actions t w) -> In (inl f) (postorder (erase t)).
Proof.
  induction t as [v|d last|g last ts IH] using tracked_ind'; cbn [OptionalSpec.actions]; intros H.
  - destruct H.
  - destruct H as [H|H]; [discriminate|]. unfold compare_last in H. cbn in H.
    destruct last; [destruct H as [H|[]]; discriminate|destruct H].
  - cbn [erase postorder]. apply in_app_iff in H as [H|H]; apply in_app_iff.
    + left. apply in_flat_map in H as (t & Ht & H). rewrite Forall_forall in IH.
      apply in_flat_map. exists (erase t). split; [now apply in_map|]. exact (IH t Ht H).
    + right. destruct (match last with None => true | Some _ => _ end); [|destruct H].
      destruct H as [H|H]; [injection H as -> _; now left|].
      unfold compare_last in H. cbn in H. destruct last; [destruct H as [H|[]]; discriminate|destruct H].
Qed.

(** A part in use since [w0] reports a change at [w] if its value differs, or if it
    is a plain function that yields an empty optional; and only if its value
    differs or is an empty optional. *)
Lemma reports_if w0 w t l : rel t l -> regular pf rd (erase t) -> unnested pf rd (erase t) -> in_sync t w0 ->
  eval (erase t) w0 <> eval (erase t) w \/ (exists d, erase t = EFun d /\ rd d w = VOpt None) ->
  reports t w = true.
Proof.
  intros Hrel Hreg Hnn Hs H. destruct (step_actions t l w Hrel Hreg Hnn) as [_ Hback].
  destruct (reports t w) eqn:E; [reflexivity|]. exfalso.
  destruct H as [H|(d & Hd & Hn)]; [apply H, Hback; auto|].
  destruct t as [v|d' last|f last ts]; try discriminate. injection Hd as ->.
  cbn in Hs. subst last. cbn in E. rewrite Hn in E. cbn in E. discriminate.
Qed.

Lemma reports_only_if w0 w (t : tracked A W fid did) : (forall a, aeq U a a = true) -> in_sync t w0 ->
  reports t w = true -> eval (erase t) w0 <> eval (erase t) w \/ eval (erase t) w = VOpt None.
Proof.
  intros Hrefl Hs H.
  assert (G : forall u v, news eqb (Some u) v = true -> u <> v \/ v = VOpt None).
  { intros u v Hn. cbn in Hn. apply orb_true_iff in Hn as [Hn|Hn].
    - right. destruct v as [| | | |[|]]; cbn in Hn; congruence.
    - left. intros ->. rewrite (veq_refl _ Hrefl) in Hn. discriminate. }
  destruct t as [v|d last|f last ts]; [discriminate| |]; cbn in Hs; subst last; cbn [OptionalSpec.reports option_map] in H.
  - exact (G _ _ H).
  - apply andb_true_iff in H as [_ H]. exact (G _ _ H).
Qed.

Lemma reeval_opt_calls f (ws : list W) : forall last us l,
  rel (TApp f last us) l -> regular pf rd (EApp f (map erase us)) /\ unnested pf rd (EApp f (map erase us)) ->
  ~ In (inl f) (flat_map postorder (map erase us)) ->
  forall k wk r lg, nth_error ws k = Some wk -> nth_error (call_seq U l ws) k = Some (r, lg) ->
    match (match k with 0 => last | S j => nth_error ws j end) with
    | None => exists args, In (EvCall f args) lg
    | Some w0 =>
        ((exists e, In e (map erase us) /\
           (eval e w0 <> eval e wk \/ exists d, e = EFun d /\ rd d wk = VOpt None)) ->
         exists args, In (EvCall f args) lg) /\
        ((forall a, aeq U a a = true) -> (exists args, In (EvCall f args) lg) ->
         exists e, In e (map erase us) /\ (eval e w0 <> eval e wk \/ eval e wk = VOpt None))
    end.
Proof.
  induction ws as [|w ws IH]; intros last us l Hrel Hreg Hnin k wk r lg Hwk Hk; [now destruct k|].
  cbn [call_seq] in Hk. destruct (step U l w) as [[[r0 l'] w'] lg0] eqn:Es.
  destruct (step_actions_inv _ _ _ _ _ _ _ Hrel Hreg Es) as (-> & _ & -> & Hrel').
  destruct k as [|k]; cbn in Hwk, Hk.
  - injection Hwk as <-. injection Hk as <- <-. cbn [OptionalSpec.actions].
    assert (Hno : forall args, ~ In (EvCall f args) (flat_map (fun t => actions t w) us)).
    { intros args H. apply in_flat_map in H as (t & Ht & H). apply Hnin.
      apply in_flat_map. exists (erase t). split; [now apply in_map|]. eapply actions_postorder; eauto. }
    destruct last as [w0|]; [|eexists; apply in_or_app; right; now left].
    inversion Hrel as [| |f' last' ts' ls Hts Hsync]; subst.
    specialize (Hsync w0 eq_refl). rewrite Forall_forall in Hsync.
    destruct Hreg as [Hreg Hnn].
    apply regular_app in Hreg as [_ Hregs]. apply all_results_app in Hnn as [_ Hnns].
    split.
    + intros (e & He & Hd). apply in_map_iff in He as (t & <- & Ht).
      assert (Hex : existsb (fun t => reports t w) us = true).
      { apply existsb_exists. exists t. split; [exact Ht|].
        apply In_nth_error in Ht as [i Hi].
        destruct (Forall2_nth_error _ _ _ _ _ Hts Hi) as (l0 & _ & Hl0).
        rewrite Forall_forall in Hregs, Hnns.
        eapply reports_if; [exact Hl0| | | |exact Hd].
        - apply Hregs, in_map. eapply nth_error_In; eauto.
        - apply Hnns, in_map. eapply nth_error_In; eauto.
        - apply Hsync. eapply nth_error_In; eauto. }
      rewrite Hex. eexists. apply in_or_app. right. now left.
    + intros Hrefl [args H]. apply in_app_iff in H as [H|H]; [destruct (Hno _ H)|].
      destruct (existsb (fun t => reports t w) us) eqn:Hex; [|destruct H].
      apply existsb_exists in Hex as (t & Ht & Hr). exists (erase t). split; [now apply in_map|].
      exact (reports_only_if w0 w t Hrefl (Hsync t Ht) Hr).
  - cbn [touch] in Hrel'.
    assert (Hmap : map erase (map (touch w) us) = map erase us).
    { rewrite map_map. apply map_ext. intros t. apply erase_touch. }
    specialize (IH (Some w) (map (touch w) us) l' Hrel'). rewrite Hmap in IH.
    specialize (IH Hreg Hnin k wk r lg Hwk Hk).
    destruct k as [|k]; exact IH.
Qed.

Theorem reeval_optional p w es vals f ss ds s outs :
  eager pf rd p [] w = Some (es, vals) -> Forall (regular pf rd) es -> Forall (unnested pf rd) es ->
  spec_deps EConst EFun es ss = Some ds -> regular pf rd (EApp f ds) -> unnested pf rd (EApp f ds) ->
  ~ In (inl f) (flat_map postorder ds) ->
  run U (p ++ [New f ss]) (mkState [] w) = Some (s, outs) ->
  exists l, nth_error (vars s) (length es) = Some l /\
  forall ws j wj wk r lg,
    nth_error ws j = Some wj -> nth_error ws (S j) = Some wk ->
    nth_error (call_seq U l ws) (S j) = Some (r, lg) ->
    ((exists e, In e ds /\ (eval e wj <> eval e wk \/ exists d, e = EFun d /\ rd d wk = VOpt None)) ->
     exists args, In (EvCall f args) lg) /\
    ((forall a, aeq U a a = true) -> (exists args, In (EvCall f args) lg) ->
     exists e, In e ds /\ (eval e wj <> eval e wk \/ eval e wk = VOpt None)).
Proof.
  intros He Hreg Hnn Hd Hregf Hnnf Hnin Hr.
  destruct (action_refines p [] [] w es vals (Forall2_nil _) He Hreg Hnn) as (s0 & ts & outs0 & Hr0 & _ & Hrel & Hes).
  rewrite run_app, Hr0 in Hr. cbn [run exec] in Hr.
  destruct (deps_of (vars s0) ss) as [os|] eqn:Eos; [|discriminate]. injection Hr as <- _.
  assert (Hlen : length es = length (vars s0)).
  { rewrite Hes, map_length. eapply Forall2_length; eauto. }
  exists (mk_lazy U f os). split.
  - cbn. rewrite nth_error_app2 by lia. now rewrite Hlen, Nat.sub_diag.
  - intros ws j wj wk r lg Hj Hk Hc.
    pose proof (deps_rel U pf rd ts (vars s0) ss Hrel) as Hdr. rewrite Eos in Hdr.
    rewrite Hes, spec_deps_erase in Hd.
    destruct (spec_deps TConst _ ts ss) as [us|]; [|discriminate]. injection Hd as <-.
    assert (Hrel1 : rel (TApp f None us) (mk_lazy U f os)).
    { unfold mk_lazy. apply (rel_app U pf rd f None us _ Hdr). discriminate. }
    pose proof (reeval_opt_calls f ws None us _ Hrel1 (conj Hregf Hnnf) Hnin (S j) wk r lg Hk Hc) as H.
    cbn in H. rewrite Hj in H. exact H.
Qed.

End Optional.
