(** Values are right up to a relation, for pure functions that may throw. *)
From Coq Require Import List Bool Arith Lia.
From Verif Require Import Value TupleAlg TupleAlgProofs LazyModel LazySpec LazySpec2 LazyProofs LazyGeneral.
Import ListNotations.

Section Rel.
Context {A W fid did : Type}.
Notation value := (val A).
Notation lz := (lz A fid did).
Variable U : user A W fid did.
Variable pf : fid -> list value -> option value.
Variable rd : did -> W -> value.
Hypothesis Hpt : pure_or_throw U pf rd.

(** The relation up to which values are right. *)
Variable R : value -> value -> Prop.
Hypothesis R_refl : forall x, R x x.
Hypothesis R_sym : forall x y, R x y -> R y x.
Hypothesis R_trans : forall x y z, R x y -> R y z -> R x z.
Hypothesis R_eq : forall x y, veq (aeq U) x y = true -> R x y.
Hypothesis R_tuple : forall x y, R x y -> as_tuple y = None -> as_tuple x = None.
Hypothesis R_nested : forall x y, R x y -> nested_opt y = nested_opt x.
Hypothesis R_fun : forall f xs ys, Forall2 R xs ys -> R (fval pf f xs) (fval pf f ys).

Notation eval := (eval pf rd).

(** What a lazy function delivered last. *)
Definition delivered (l : lz) : option value :=
  match l with LValue v _ => Some v | LCore _ c _ => c end.

Inductive good : expr A fid did -> lz -> Prop :=
| good_const v : good (EConst v) (LValue v false)
| good_fun d c : good (EFun d) (LCore (FnSample d) c [LValue (VAtom (int0 U)) true])
| good_app f c es ls :
    Forall2 good es ls ->
    (forall v, c = Some v -> exists vs, map delivered ls = map Some vs /\ R v (fval pf f vs)) ->
    good (EApp f es) (LCore (FnUser f) c ls).

Definition step_good (l : lz) : Prop :=
  forall e w r l' w' lg,
    good e l -> regular pf rd e -> unnested pf rd e -> step U l w = (r, l', w', lg) ->
    w' = w /\
    match r with
    | Ok (v, ch) =>
        R v (eval e w) /\ good e l' /\ delivered l' = Some v /\
        (ch = false -> forall v0, delivered l = Some v0 -> R v0 v)
    | Exc => exists path g, failed U l w l' path g /\
               (Forall (fun c => c = None) (wrapped_on path g) -> good e l')
    | UB => False
    end.

Lemma steps_good ls : Forall step_good ls ->
  forall es w r ls' w' lg,
    Forall2 good es ls -> Forall (regular pf rd) es -> Forall (unnested pf rd) es -> steps U ls w = (r, ls', w', lg) ->
    w' = w /\
    match r with
    | Ok rs =>
        Forall2 R (map fst rs) (map (fun e => eval e w) es) /\ Forall2 good es ls' /\
        map delivered ls' = map Some (map fst rs) /\
        (existsb snd rs = false -> forall vs0, map delivered ls = map Some vs0 -> Forall2 R vs0 (map fst rs))
    | Exc => exists ls1 l ls2 vs ls1' l' w1 lg1 path g,
               ls = ls1 ++ l :: ls2 /\ ls' = ls1' ++ l' :: ls2 /\
               called_all U ls1 w vs ls1' w1 lg1 /\ failed U l w1 l' path g /\
               (Forall (fun c => c = None) (wrapped_on path g) -> Forall2 good es ls')
    | UB => False
    end.
Proof.
  induction 1 as [|l ls Hl Hls IH]; intros es w r ls' w' lg Hg Hreg Hun Hs.
  - inversion Hg; subst. rewrite steps_nil in Hs. injection Hs as <- <- <- <-.
    cbn. repeat split; auto. intros _ [|v0 vs0] H; [constructor|discriminate].
  - inversion Hg as [|e ? es' ? Hg1 Hg2]; subst. inversion Hreg as [|? ? Hr1 Hr2]; subst.
    inversion Hun as [|? ? Hu1 Hu2]; subst.
    rewrite steps_cons in Hs.
    destruct (step U l w) as [[[r1 l1] w1] lg1] eqn:E1.
    destruct (Hl _ _ _ _ _ _ Hg1 Hr1 Hu1 E1) as [-> Hr1'].
    destruct r1 as [[v ch]| |]; [| |destruct Hr1'].
    + destruct Hr1' as (Hv & Hg1' & Hd & Hch).
      destruct (steps U ls w) as [[[r2 ls2] w2] lg2] eqn:E2.
      destruct (IH _ _ _ _ _ _ Hg2 Hr2 Hu2 E2) as [-> Hr2'].
      destruct r2 as [rs| |]; injection Hs as <- <- <- <-; (split; [reflexivity|]); [| |destruct Hr2'].
      * destruct Hr2' as (Hvs & Hg2' & Hds & Hchs). cbn.
        split; [constructor; auto|]. split; [constructor; auto|].
        split; [now rewrite Hd, Hds|].
        intros Hex. apply orb_false_iff in Hex as [-> Hex].
        intros [|v0 vs0] Hds0; [discriminate|]. injection Hds0 as Hd0 Hds0.
        cbn. constructor; auto.
      * destruct Hr2' as (ls1 & l0 & ls3 & vs & ls1' & l0' & w1 & lga & path & g & -> & -> & Hc & Hf & Hgood).
        exists (l :: ls1), l0, ls3, (v :: vs), (l1 :: ls1'), l0', w1, (lg1 ++ lga), path, g.
        repeat split; auto. econstructor; eauto.
    + destruct Hr1' as (path & g & Hf & Hgood). injection Hs as <- <- <- <-.
      split; [reflexivity|].
      exists [], l, ls, [], [], l1, w, [], path, g. repeat split; auto. constructor.
Qed.

Lemma map_Some_inj {X} (a b : list X) : map Some a = map Some b -> a = b.
Proof. revert b; induction a as [|x a IH]; intros [|y b] H; try discriminate; auto. injection H as -> H. f_equal; auto. Qed.

Lemma step_good_all l : step_good l.
Proof.
  destruct Hpt as [Hsem Hdsem].
  induction l as [u uch|g cache deps IH] using lz_ind'; intros e w r l' w' lg Hg Hreg Hun Hs.
  - inversion Hg; subst. rewrite step_value in Hs. injection Hs as <- <- <- <-.
    cbn. repeat split; auto. intros _ v0 Hv0. injection Hv0 as <-. apply R_refl.
  - pose proof Hs as Hstep. inversion Hg as [|d c|f c es ls Hes Hc]; subst.
    + rewrite step_core in Hs. rewrite steps_cons, step_value, steps_nil in Hs. cbn in Hs.
      rewrite core_eq in Hs. cbn [existsb snd] in Hs. rewrite orb_true_r in Hs.
      cbn [call_fn] in Hs. destruct (Hdsem d w) as [Hd|Hd]; rewrite Hd in Hs.
      * injection Hs as <- <- <- <-. split; [reflexivity|].
        split; [apply R_refl|]. split; [constructor|]. split; [reflexivity|].
        cbn. intros Hn v0 ->. apply opt_ne_unnested in Hn; auto.
      * injection Hs as <- <- <- <-. split; [reflexivity|].
        exists [cache], (FnSample d). split; [|intros _; constructor].
        eapply (failed_here U (FnSample d) cache [LValue (VAtom (int0 U)) true] w
                  [VAtom (int0 U)] _ w ([] ++ []) [VAtom (int0 U)] w [EvSample d]).
        -- econstructor; [reflexivity|]. constructor.
        -- constructor. intros v Hv. now injection Hv as <-.
        -- cbn. rewrite Hd. reflexivity.
        -- exact Hstep.
    + apply regular_app in Hreg as [Hone Hregs]. apply all_results_app in Hun as [Hun Huns].
      rewrite step_core in Hs.
      destruct (steps U deps w) as [[[rs ds] w1] lg1] eqn:Es.
      destruct (steps_good deps IH _ _ _ _ _ _ Hes Hregs Huns Es) as [-> Hrs].
      destruct rs as [rs| |]; [| |destruct Hrs].
      * destruct Hrs as (Hvs & Hds & Hdel & Hchs).
        assert (Hct : ctad_tuple as_tuple (map fst rs) = map fst rs).
        { apply ctad_regular. intros x Hx. rewrite Hx in Hvs.
          inversion Hvs as [|? y ? ys Hxy Hrest Hnil Hmap]; subst.
          inversion Hrest; subst. symmetry in Hmap.
          destruct es as [|e1 [|e2 es]]; try discriminate.
          injection Hmap as <-. cbn in Hone. eapply R_tuple; [exact Hxy | apply Hone]. }
        rewrite core_eq, Hct in Hs. cbn [call_fn] in Hs.
        assert (Heval : R (fval pf f (map fst rs)) (eval (EApp f es) w)).
        { cbn. apply R_fun. exact Hvs. }
        destruct (negb (is_some cache) || existsb snd rs) eqn:Ech.
        -- destruct (Hsem f (map fst rs) w) as [Hf|Hf]; rewrite Hf in Hs.
           ++ assert (Hreg' : regularized (FRet (pf f (map fst rs))) = VRet (fval pf f (map fst rs))).
              { unfold regularized, fval. now destruct (pf f _). }
              rewrite Hreg' in Hs. injection Hs as <- <- <- <-. split; [reflexivity|].
              split; [exact Heval|]. split.
              { constructor; auto. intros v Hv. injection Hv as <-. eauto. }
              split; [reflexivity|].
              cbn. intros Hn v0 ->. apply opt_ne_unnested in Hn; auto.
              rewrite <- (R_nested _ _ Heval). apply Hun.
           ++ cbn in Hs. injection Hs as <- <- <- <-. split; [reflexivity|].
              exists [cache], (FnUser f). split.
              ** eapply failed_here; [eapply steps_called_all; exact Es| | |exact Hstep].
                 --- pose proof (ctad_passes (map fst rs)) as Hpp. rewrite Hct in Hpp. exact Hpp.
                 --- cbn. rewrite Hf. reflexivity.
              ** intros Hp. inversion Hp; subst. constructor; auto. discriminate.
        -- apply orb_false_iff in Ech as [Hcache Hex].
           destruct cache as [c|]; [|discriminate]. injection Hs as <- <- <- <-.
           destruct (Hc c eq_refl) as (vs & Hvs0 & HRc).
           pose proof (Hchs Hex vs Hvs0) as HR0.
           assert (HRc' : R c (fval pf f (map fst rs))).
           { eapply R_trans; [exact HRc|]. apply R_fun. exact HR0. }
           split; [reflexivity|]. split; [eapply R_trans; eauto|]. split.
           { constructor; auto. intros v Hv. injection Hv as <-. eauto. }
           split; [reflexivity|]. cbn. intros _ v0 Hv0. injection Hv0 as <-. apply R_refl.
      * destruct Hrs as (ls1 & l0 & ls2 & vs & ls1' & l0' & w1 & lga & path & g & -> & -> & Hca & Hf & Hgood).
        injection Hs as <- <- <- <-. split; [reflexivity|].
        exists (cache :: path), g. split.
        -- econstructor; eauto.
        -- intros Hp.
           assert (Hp' : cache = None /\ Forall (fun c => c = None) (wrapped_on path g)).
           { destruct g; cbn in Hp |- *.
             - inversion Hp; auto.
             - destruct path as [|c0 path]; [inversion Hf|]. inversion Hp; auto. }
           destruct Hp' as [-> Hp']. constructor; auto. discriminate.
Qed.

(** Fresh nodes are good. *)
Lemma deps_good es (ls : list lz) ss :
  Forall2 good es ls ->
  match spec_deps EConst EFun es ss, deps_of ls ss with
  | Some us, Some os => Forall2 good us (map (ensure_lazy U) os)
  | None, None => True
  | _, _ => False
  end.
Proof.
  intros H. induction ss as [|s ss IH]; cbn; [constructor|].
  destruct s as [x|d|v]; cbn in *.
  - destruct (nth_error es x) as [e|] eqn:E.
    + destruct (Forall2_nth_error _ _ _ _ _ H E) as (l & -> & Hl); cbn.
      destruct (spec_deps _ _ es ss), (deps_of ls ss); auto; now constructor.
    + rewrite (Forall2_nth_error_None _ _ _ _ H E); cbn. auto.
  - destruct (spec_deps _ _ es ss), (deps_of ls ss); auto. constructor; [constructor|assumption].
  - destruct (spec_deps _ _ es ss), (deps_of ls ss); auto. constructor; [constructor|assumption].
Qed.

Lemma good_new f us os :
  Forall2 good us (map (ensure_lazy U) os) -> good (EApp f us) (mk_lazy U f os).
Proof. intros H. constructor; auto. discriminate. Qed.

End Rel.

(** ** Programs, when nothing throws *)
Section Programs.
Context {A W fid did : Type}.
Notation value := (val A).
Notation lz := (lz A fid did).
Variable U : user A W fid did.
Variable pf : fid -> list value -> option value.
Variable rd : did -> W -> value.
Hypothesis Hpure : pure_user U pf rd.
Variable R : value -> value -> Prop.
Hypothesis R_refl : forall x, R x x.
Hypothesis R_sym : forall x y, R x y -> R y x.
Hypothesis R_trans : forall x y z, R x y -> R y z -> R x z.
Hypothesis R_eq : forall x y, veq (aeq U) x y = true -> R x y.
Hypothesis R_tuple : forall x y, R x y -> as_tuple y = None -> as_tuple x = None.
Hypothesis R_nested : forall x y, R x y -> nested_opt y = nested_opt x.
Hypothesis R_fun : forall f xs ys, Forall2 R xs ys -> R (fval pf f xs) (fval pf f ys).
Hypothesis R_void : forall x, R x VVoid <-> x = VVoid.

Lemma pure_pt : pure_or_throw U pf rd.
Proof. destruct Hpure as [H1 H2]. split; auto. Qed.

Lemma seen_visible v ch u : R v u -> seen R (api_result (Ok (v, ch))) (visible u).
Proof.
  intros H. destruct u; cbn.
  - destruct v; cbn; auto. apply R_sym in H. apply R_void in H. discriminate.
  - apply R_void in H. subst. exact I.
  - destruct v; cbn; auto. apply R_sym in H. apply R_void in H. discriminate.
  - destruct v; cbn; auto. apply R_sym in H. apply R_void in H. discriminate.
  - destruct v; cbn; auto. apply R_sym in H. apply R_void in H. discriminate.
Qed.

(** Pure functions do not throw. *)
Lemma pure_not_exc (l : lz) : forall w, fst (fst (fst (step U l w))) <> Exc.
Proof.
  destruct Hpure as [Hsem Hdsem].
  induction l as [u uch|g cache deps IH] using lz_ind'; intros w; [discriminate|].
  rewrite step_core.
  assert (Hs : forall w, fst (fst (fst (steps U deps w))) <> Exc).
  { clear w. induction IH as [|l ls Hl Hls IHls]; intros w; [discriminate|].
    rewrite steps_cons. specialize (Hl w).
    destruct (step U l w) as [[[[x| |] l'] w1] l1]; cbn in *; try congruence.
    specialize (IHls w1). destruct (steps U ls w1) as [[[[xs| |] ls'] w2] l2]; cbn in *; congruence. }
  specialize (Hs w).
  destruct (steps U deps w) as [[[[rs| |] ds] w1] lg1]; cbn in *; try congruence.
  rewrite core_eq. destruct (negb (is_some cache) || existsb snd rs).
  - destruct g as [f|d]; cbn.
    + rewrite Hsem. unfold regularized. destruct (pf f _); cbn; discriminate.
    + rewrite Hdsem. cbn. discriminate.
  - destruct cache; cbn; discriminate.
Qed.

Lemma step_good_pure e (l : lz) w :
  good U pf R e l -> regular pf rd e -> unnested pf rd e ->
  exists v ch l' lg, step U l w = (Ok (v, ch), l', w, lg) /\ R v (eval pf rd e w) /\ good U pf R e l'.
Proof.
  intros Hg Hreg Hun. pose proof (pure_not_exc l w) as Hne.
  destruct (step U l w) as [[[r l'] w'] lg] eqn:Es.
  pose proof (step_good_all U pf rd pure_pt R R_refl R_sym R_trans R_eq R_tuple R_nested R_fun l _ _ _ _ _ _ Hg Hreg Hun Es) as [-> Hr].
  destruct r as [[v ch]| |]; cbn in Hne; [|congruence|destruct Hr].
  destruct Hr as (Hv & Hg' & _). exists v, ch, l', lg. auto.
Qed.

Lemma run_good p : forall es ls w es' vals,
  Forall2 (good U pf R) es ls ->
  eager pf rd p es w = Some (es', vals) -> Forall (regular pf rd) es' -> Forall (unnested pf rd) es' ->
  exists s outs, run U p (mkState ls w) = Some (s, outs) /\ Forall2 (seen R) (results outs) vals.
Proof.
  induction p as [|o p IH]; intros es ls w es' vals Hg He Hreg Hun.
  - cbn in *. injection He as <- <-. eexists _, _. split; [reflexivity|constructor].
  - destruct o as [f ss|x|x|h]; cbn [eager run exec vars world] in *.
    + pose proof (deps_good U pf R es ls ss Hg) as Hd.
      destruct (spec_deps EConst EFun es ss) as [us|], (deps_of ls ss) as [os|]; try contradiction; try discriminate.
      assert (Hg' : Forall2 (good U pf R) (es ++ [EApp f us]) (ls ++ [mk_lazy U f os])).
      { apply Forall2_app; auto. constructor; [|constructor]. now apply good_new. }
      destruct (IH _ _ _ _ _ Hg' He Hreg Hun) as (s & outs & -> & Hs). eauto.
    + destruct (nth_error es x) as [e|] eqn:E; [|discriminate].
      destruct (Forall2_nth_error _ _ _ _ _ Hg E) as (l & -> & Hl).
      assert (Hg' : Forall2 (good U pf R) (es ++ [e]) (ls ++ [l])) by (apply Forall2_app; auto).
      destruct (IH _ _ _ _ _ Hg' He Hreg Hun) as (s & outs & -> & Hs). eauto.
    + destruct (nth_error es x) as [e|] eqn:E; [|discriminate].
      destruct (Forall2_nth_error _ _ _ _ _ Hg E) as (l & -> & Hl).
      destruct (eager pf rd p es w) as [[es1 vals1]|] eqn:Ee; [|discriminate].
      injection He as <- <-.
      assert (Hrege : regular pf rd e /\ unnested pf rd e).
      { destruct (eager_extends pf rd _ _ _ _ _ Ee) as [ext ->].
        apply Forall_app in Hreg as [Hreg _]. apply Forall_app in Hun as [Hun _].
        rewrite Forall_forall in Hreg, Hun.
        split; [apply Hreg|apply Hun]; eapply nth_error_In; eauto. }
      destruct Hrege as [Hrege Hune].
      destruct (step_good_pure e l w Hl Hrege Hune) as (v & ch & l' & lg & -> & Hv & Hl').
      assert (Hg' : Forall2 (good U pf R) es (update x l' ls)).
      { rewrite <- (update_same es x e E). apply Forall2_update; auto. }
      destruct (IH _ _ _ _ _ Hg' Ee Hreg Hun) as (s & outs & -> & Hs).
      eexists _, _. split; [reflexivity|]. unfold results in *. cbn [flat_map fst app].
      constructor; [|exact Hs]. now apply seen_visible.
    + destruct (IH _ _ _ _ _ Hg He Hreg Hun) as (s & outs & -> & Hs). eauto.
Qed.

End Programs.
