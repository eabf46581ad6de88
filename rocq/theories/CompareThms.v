(** Proofs for C93. *)
From Coq Require Import List Bool Arith Lia.
From Verif Require Import Value TupleAlg TupleAlgProofs LazyModel LazySpec LazySpec2 LazyProofs LazyGeneral DocModel DocSpec DocThms
  CompareModel CompareSpec.
Import ListNotations.

Section Any.
Context {A W fid did : Type}.
Notation value := (val A).
Notation event := (event A fid did).
Notation lz := (lz A fid did).
Notation wz := (wz A fid did).
Variable U : user A W fid did.

Lemma comparisons_app (a b : list event) : comparisons (a ++ b) = comparisons a ++ comparisons b.
Proof. apply flat_map_app. Qed.
Lemma evaluations_app (a b : list event) : evaluations (a ++ b) = evaluations a ++ evaluations b.
Proof. apply flat_map_app. Qed.

Lemma compare_elements_only old : forall new, without_comparisons (compare_elements (fid:=fid) (did:=did) U old new) = [].
Proof.
  induction old as [|x old IH]; intros [|y new]; try reflexivity. cbn. destruct (veq (aeq U) x y); [apply IH|reflexivity].
Qed.
Lemma compare_args_only c o a : without_comparisons (compare_args U c o a) = [].
Proof. destruct c, o; cbn; auto. apply compare_elements_only. Qed.

(** The comparisons aside, this is [wcall]. *)
Lemma kcall_erase (l : wz) : forall w, wcall U l w = let '(r, l', w', lg) := kcall U l w in (r, l', w', without_comparisons lg).
Proof.
  induction l as [v|d|f cache args ds IH] using wz_ind'; intros w.
  - reflexivity.
  - cbn. now destruct (dsem U d w).
  - cbn [wcall kcall].
    assert (E : forall w, wcalls_with (wcall U) ds w = let '(r, l', w', lg) := wcalls_with (kcall U) ds w in (r, l', w', without_comparisons lg)).
    { clear w. induction IH as [|d ds Hd Hds IHds]; intros w; [reflexivity|]. cbn [wcalls_with]. rewrite Hd.
      destruct (kcall U d w) as [[[r d'] w1] l1]. destruct r as [v| |]; try reflexivity.
      change ((fix calls (ds0 : list wz) (w0 : W) : res (list value) * list wz * W * list event := _) ds w1) with (wcalls_with (wcall U) ds w1).
      rewrite IHds. change ((fix calls (ds0 : list wz) (w0 : W) : res (list value) * list wz * W * list event := _) ds w1) with (wcalls_with (kcall U) ds w1).
      destruct (wcalls_with (kcall U) ds w1) as [[[rs ds2] w2] l2]. now rewrite without_comparisons_app. }
    rewrite E. destruct (wcalls_with (kcall U) ds w) as [[[rs ds2] w1] l1]. destruct rs as [vs| |]; try reflexivity. cbv zeta.
    destruct (negb (is_some cache) || args_differ U args (ctad_tuple as_tuple vs)).
    + destruct (sem U f (ctad_tuple as_tuple vs) w1) as [r w2].
      destruct (regularized r); rewrite !without_comparisons_app, compare_args_only; reflexivity.
    + rewrite without_comparisons_app, compare_args_only, app_nil_r. reflexivity.
Qed.

Lemma krun_erase p : forall vs w, wrun U p vs w =
  match krun U p vs w with Some (_, _, outs) => Some (map (fun o => (fst o, without_comparisons (snd o))) outs) | None => None end.
Proof.
  induction p as [|o p IH]; intros vs w; [reflexivity|]. cbn [wrun krun]. unfold kexec. destruct o as [f ss|x|x|h].
  - destruct (wdeps_of vs ss) as [ds|]; [|reflexivity]. rewrite IH. now destruct (krun U p _ w) as [[[? ?] ?]|].
  - destruct (nth_error vs x) as [l|]; [|reflexivity]. rewrite IH. now destruct (krun U p _ w) as [[[? ?] ?]|].
  - destruct (nth_error vs x) as [l|]; [|reflexivity]. rewrite kcall_erase. destruct (kcall U l w) as [[[r l'] w'] lg]. rewrite IH.
    now destruct (krun U p _ w') as [[[? ?] ?]|].
  - rewrite IH. now destruct (krun U p _ (h w)) as [[[? ?] ?]|].
Qed.

(** The library compares at most once for each evaluation. *)
Lemma core_compares g cache args w : let '(_, _, _, lg) := core U g cache args w in length (comparisons lg) <= length (evaluations lg).
Proof.
  unfold core. destruct (negb (is_some cache) || fst (any args (pure1 lr_is_changed) tt)); [|destruct cache; cbn; lia].
  destruct g as [f|d]; cbn [call_fn].
  - destruct (sem U f _ w) as [r w']. destruct (regularized r); [|cbn; lia]. cbn. destruct cache; cbn; lia.
  - destruct (dsem U d w) as [r w']. destruct r; [|cbn; lia]. cbn. destruct cache; cbn; lia.
Qed.
Lemma step_compares (l : lz) : forall w, let '(_, _, _, lg) := step U l w in length (comparisons lg) <= length (evaluations lg).
Proof.
  induction l as [v ch|g cache ds IH] using lz_ind'; intros w; [cbn; lia|]. cbn [step].
  assert (E : forall w, let '(_, _, _, lg) := steps_with (step U) ds w in length (comparisons lg) <= length (evaluations lg)).
  { clear w. induction IH as [|d ds Hd Hds IHds]; intros w; [cbn; lia|]. cbn [steps_with]. specialize (Hd w).
    destruct (step U d w) as [[[r d'] w1] l1]. destruct r as [v| |]; try exact Hd.
    specialize (IHds w1). change ((fix steps (ds0 : list lz) (w0 : W) : res (list (value * bool)) * list lz * W * list event := _) ds w1) with (steps_with (step U) ds w1).
    destruct (steps_with (step U) ds w1) as [[[rs ds2] w2] l2]. rewrite comparisons_app, evaluations_app, !app_length. lia. }
  specialize (E w). destruct (steps_with (step U) ds w) as [[[rs ds2] w1] l1]. destruct rs as [vs| |]; try exact E.
  pose proof (core_compares g cache (ctad_tuple (fun _ => None) vs) w1) as Hc. cbv zeta.
  destruct (core U g cache _ w1) as [[[r c'] w2] l2]. rewrite comparisons_app, evaluations_app, !app_length. lia.
Qed.
Theorem run_compares p : forall s s' outs, run U p s = Some (s', outs) ->
  Forall (fun o => length (comparisons (snd o)) <= length (evaluations (snd o))) outs.
Proof.
  induction p as [|o p IH]; intros s s' outs E; cbn [run] in E; [injection E as <- <-; constructor|].
  destruct (exec U o s) as [[s1 out]|] eqn:E1; [|discriminate]. destruct (run U p s1) as [[s2 outs2]|] eqn:E2; [|discriminate].
  injection E as <- <-. constructor; [|eapply IH; eauto]. destruct o as [f ss|x|x|h]; cbn [exec] in E1.
  - destruct (deps_of (vars s) ss); [|discriminate]. injection E1 as <- <-. cbn. lia.
  - destruct (nth_error (vars s) x); [|discriminate]. injection E1 as <- <-. cbn. lia.
  - destruct (nth_error (vars s) x) as [l|]; [|discriminate]. pose proof (step_compares l (world s)) as H.
    destruct (step U l (world s)) as [[[r l'] w'] lg]. injection E1 as <- <-. exact H.
  - injection E1 as <- <-. cbn. lia.
Qed.

Lemma krun_app p : forall q vs w, krun U (p ++ q) vs w =
  match krun U p vs w with
  | Some (vs1, w1, o1) => match krun U q vs1 w1 with Some (vs2, w2, o2) => Some (vs2, w2, o1 ++ o2) | None => None end
  | None => None
  end.
Proof.
  induction p as [|o p IH]; intros q vs w; cbn [app krun].
  - now destruct (krun U q vs w) as [[[? ?] ?]|].
  - destruct (kexec U o vs w) as [[[vs1 w1] out]|]; [|reflexivity]. rewrite IH.
    destruct (krun U p vs1 w1) as [[[vs2 w2] o2]|]; [|reflexivity]. now destruct (krun U q vs2 w2) as [[[? ?] ?]|].
Qed.
End Any.

Section Counting.
Context {A W fid did : Type}.
Notation expr := (expr A fid did).
Lemma expr_ind2 (P : expr -> Prop) :
  (forall v, P (EConst v)) -> (forall d, P (EFun d)) -> (forall f es, Forall P es -> P (EApp f es)) -> forall e, P e.
Proof.
  intros H1 H2 H3. fix IH 1. intros [v|d|f es]; [apply H1|apply H2|]. apply H3.
  induction es as [|e es IHes]; constructor; [apply IH|exact IHes].
Qed.
Lemma dependencies_split (e : expr) :
  dependencies e + (match e with EFun _ => 1 | _ => 0 end) = length (plain_functions e) + values_and_lazies e.
Proof.
  induction e as [v|d|f es IH] using expr_ind2; cbn [dependencies plain_functions values_and_lazies length]; auto.
  rewrite Nat.add_0_r. induction IH as [|e es He Hes IHes]; [reflexivity|].
  cbn [length map list_sum fold_right flat_map]. rewrite app_length. unfold list_sum in *. destruct e; cbn [length plain_functions values_and_lazies] in *; lia.
Qed.
End Counting.

Section Nodes.
Context {A W fid did : Type}.
Variable pf : fid -> list (val A) -> option (val A).
Variable rd : did -> W -> val A.
(** Variables are lazy functions. *)
Lemma eager_nodes p : forall (vs : list (expr A fid did)) w es vals,
  Forall (fun e => exists f us, e = EApp f us) vs -> eager pf rd p vs w = Some (es, vals) -> forall e, In e es -> exists f us, e = EApp f us.
Proof.
  induction p as [|o p IH]; intros vs w es vals Hv E; cbn [eager] in E.
  - injection E as <- <-. now apply Forall_forall.
  - destruct o as [f ss|x|x|h].
    + destruct (spec_deps EConst EFun vs ss) as [us|]; [|discriminate]. eapply IH; [|exact E]. apply Forall_app. split; [exact Hv|]. constructor; eauto.
    + destruct (nth_error vs x) as [e|] eqn:Ex; [|discriminate]. eapply IH; [|exact E]. apply Forall_app. split; [exact Hv|]. constructor; auto.
      rewrite Forall_forall in Hv. apply Hv. eapply nth_error_In; eauto.
    + destruct (nth_error vs x) as [e|] eqn:Ex; [|discriminate]. destruct (eager pf rd p vs w) as [[es' vals']|] eqn:Ee; [|discriminate].
      injection E as <- <-. eapply IH; eauto.
    + eapply IH; eauto.
Qed.
End Nodes.

Section Pure.
Context {A W fid did : Type}.
Notation value := (val A).
Notation event := (event A fid did).
Notation lz := (lz A fid did).
Notation wz := (wz A fid did).
Notation expr := (expr A fid did).
Notation tracked := (tracked A W fid did).
Variable U : user A W fid did.
Variable pf : fid -> list value -> option value.
Variable rd : did -> W -> value.
Hypothesis Hpure : pure_user U pf rd.
Hypothesis Hexact : exact_eq U.
Notation eval := (eval pf rd).
Notation eqb := (veq (aeq U)).
Notation expected := (expected pf rd eqb).
Notation differs := (differs pf rd eqb).
Notation rel := (rel U pf rd).
Notation wrel := (wrel pf rd).

Definition quiet (e : expr) (w0 w : W) : Prop := forall d, In d (plain_functions e) -> rd d w = rd d w0.

Lemma quiet_app f es w0 w : quiet (EApp f es) w0 w -> Forall (fun e => quiet e w0 w) es.
Proof. intros H. apply Forall_forall. intros e He d Hd. apply H. cbn. apply in_flat_map. eauto. Qed.
Lemma quiet_eval (e : expr) w0 w : quiet e w0 w -> eval e w = eval e w0.
Proof.
  induction e as [v|d|f es IH] using expr_ind2; intros Hq; [reflexivity|apply Hq; now left|]. cbn. f_equal.
  apply quiet_app in Hq. apply map_ext_in. intros e He. rewrite Forall_forall in *. auto.
Qed.
Lemma veq_refl (v : value) : eqb v v = true.
Proof. now apply (eqb_spec U Hexact). Qed.
Lemma quiet_differs (t : tracked) w0 w : quiet (erase t) w0 w -> differs (touch w0 t) w = false.
Proof.
  intros Hq. destruct t as [v|d l|f l ts]; [reflexivity| |]; unfold LazySpec.differs; cbn [touch last_of].
  - cbn. rewrite (Hq d (or_introl eq_refl)). now rewrite veq_refl.
  - change (TApp f (Some w0) (map (touch w0) ts)) with (touch w0 (TApp f l ts)). rewrite erase_touch, (quiet_eval _ _ _ Hq). now rewrite veq_refl.
Qed.

(** The library, when nothing changed. *)
Lemma quiet_lib (t : tracked) w0 w : quiet (erase t) w0 w ->
  length (comparisons (expected (touch w0 t) w)) = length (plain_functions (erase t)) /\ function_calls (expected (touch w0 t) w) = [].
Proof.
  induction t as [v|d l|f l ts IH] using tracked_ind'; intros Hq; [cbn; auto|cbn; auto|].
  cbn [erase] in Hq. apply quiet_app in Hq. rewrite Forall_map in Hq. cbn [touch expected erase plain_functions].
  assert (E : existsb (fun t => differs t w) (map (touch w0) ts) = false).
  { clear IH. induction Hq as [|t ts Ht Hts IHts]; [reflexivity|]. cbn. now rewrite (quiet_differs t w0 w Ht), IHts. }
  rewrite E, app_nil_r. clear E. induction IH as [|t ts Ht Hts IHts]; [cbn; auto|]. inversion Hq as [|? ? Hq1 Hq2]; subst.
  destruct (Ht Hq1) as [E1 E2]. destruct (IHts Hq2) as [E3 E4]. cbn [map flat_map]. rewrite comparisons_app, function_calls_app, !app_length, E1, E2, E3, E4.
  split; [lia|reflexivity].
Qed.

(** The older design, when nothing changed. *)
Lemma compare_same (vs : list value) : comparisons (compare_elements (fid:=fid) (did:=did) U vs vs) = map (fun v => (v, v)) vs.
Proof. induction vs as [|v vs IH]; [reflexivity|]. cbn [compare_elements]. rewrite veq_refl. cbn. f_equal. exact IH. Qed.
Lemma compare_no_calls old : forall new, function_calls (compare_elements (fid:=fid) (did:=did) U old new) = [].
Proof. induction old as [|x old IH]; intros [|y new]; try reflexivity. cbn. destruct (eqb x y); [apply IH|reflexivity]. Qed.

Lemma quiet_old (t : tracked) w0 w : forall l, wrel (touch w0 t) l -> regular pf rd (erase t) -> quiet (erase t) w0 w ->
  exists lg, kcall U l w = (Ok (eval (erase t) w0), l, w, lg) /\
    length (comparisons lg) = dependencies (erase t) /\ function_calls lg = [].
Proof.
  destruct Hpure as [Hsem Hdsem].
  induction t as [v|d last|f last ts IH] using tracked_ind'; intros l Hrel Hreg Hq.
  - cbn [touch] in Hrel. inversion Hrel; subst. exists []. auto.
  - cbn [touch] in Hrel. inversion Hrel; subst. cbn [kcall]. rewrite Hdsem, (Hq d (or_introl eq_refl)). exists [EvSample d]. cbn. auto.
  - cbn [touch] in Hrel. inversion Hrel as [| |f' last' ts' ls Hts Hsync]; subst f' last' ts' l. clear Hrel Hsync.
    pose proof (ctad_deps pf rd f last ts w0 Hreg) as Hct.
    cbn [erase] in Hreg, Hq. apply regular_app in Hreg as [_ Hregs]. apply quiet_app in Hq.
    assert (Hdeps : exists lg, wcalls_with (kcall U) ls w = (Ok (map (fun t => eval (erase t) w0) ts), ls, w, lg) /\
              length (comparisons lg) = list_sum (map dependencies (map erase ts)) /\ function_calls lg = []).
    { clear Hct. revert ls Hts. induction IH as [|t ts Ht Hts' IHts]; intros ls Hls; inversion Hls as [|? l ? ls' Hl Hls']; subst.
      - exists []. cbn. auto.
      - inversion Hregs as [|? ? R1 R2]; subst. inversion Hq as [|? ? Q1 Q2]; subst.
        destruct (Ht l Hl R1 Q1) as (l1 & E1 & C1 & F1). destruct (IHts R2 Q2 ls' Hls') as (l2 & E2 & C2 & F2).
        exists (l1 ++ l2). cbn [wcalls_with]. rewrite E1.
        change ((fix calls (ds0 : list wz) (w1 : W) : res (list value) * list wz * W * list event := _) ls' w) with (wcalls_with (kcall U) ls' w).
        rewrite E2. split; [reflexivity|]. rewrite comparisons_app, function_calls_app, app_length, F1, F2. split; [|reflexivity].
        cbn [map list_sum fold_right]. unfold list_sum in C2. lia. }
    destruct Hdeps as (lg & E & C & F). cbn [kcall]. rewrite E. cbv zeta. rewrite Hct. cbn [option_map is_some negb orb args_differ compare_args].
    rewrite map_eval_touch. rewrite veq_refl. cbn [negb]. exists (lg ++ compare_elements U (map (fun t => eval (erase t) w0) ts) (map (fun t => eval (erase t) w0) ts)).
    split.
    + f_equal. f_equal. f_equal. rewrite map_erase_touch. reflexivity.
    + rewrite comparisons_app, app_length, compare_same, map_length, map_length, C, function_calls_app, F, compare_no_calls.
      split; [|reflexivity]. cbn [erase dependencies]. rewrite map_length. lia.
Qed.

(** Never more than that. *)
Fixpoint wdepth (l : wz) : nat := match l with WNode _ _ _ ds => length ds + list_sum (map wdepth ds) | _ => 0 end.
Lemma compare_bound old : forall new, length (comparisons (compare_elements (fid:=fid) (did:=did) U old new)) <= length old.
Proof. induction old as [|x old IH]; intros [|y new]; try (cbn; lia). specialize (IH new). unfold comparisons in *. cbn. destruct (eqb x y); cbn; lia. Qed.
Lemma bound_old (t : tracked) : forall l w, wrel t l -> regular pf rd (erase t) ->
  let '(_, _, _, lg) := kcall U l w in length (comparisons lg) <= dependencies (erase t).
Proof.
  destruct Hpure as [Hsem Hdsem].
  induction t as [v|d last|f last ts IH] using tracked_ind'; intros l w Hrel Hreg.
  - inversion Hrel; subst. cbn. lia.
  - inversion Hrel; subst. cbn. rewrite Hdsem. cbn. lia.
  - inversion Hrel as [| |f' last' ts' ls Hts Hsync]; subst f' last' ts' l. clear Hrel Hsync.
    cbn [erase] in Hreg. apply regular_app in Hreg as [_ Hregs].
    assert (Hdeps : let '(_, _, _, lg) := wcalls_with (kcall U) ls w in length (comparisons lg) <= list_sum (map dependencies (map erase ts))).
    { revert w. induction Hts as [|t l ts ls Hl Hls IHts]; intros w; [cbn; lia|]. inversion Hregs as [|? ? R1 R2]; subst. inversion IH as [|? ? I1 I2]; subst.
      specialize (I1 l w Hl R1). cbn [wcalls_with]. cbn [map list_sum fold_right]. destruct (kcall U l w) as [[[r l'] w1] l1].
      change ((fix calls (ds0 : list wz) (w1 : W) : res (list value) * list wz * W * list event := _) ls w1) with (wcalls_with (kcall U) ls w1).
      specialize (IHts I2 R2 w1). unfold list_sum in IHts. destruct r as [v| |]; try lia.
      destruct (wcalls_with (kcall U) ls w1) as [[[rs ls2] w2] l2]. rewrite comparisons_app, app_length. lia. }
    assert (Hc : forall a, length (comparisons (compare_args (fid:=fid) (did:=did) U (option_map (eval (EApp f (map erase ts))) last) (option_map (fun w0 => map (fun t => eval (erase t) w0) ts) last) a)) <= length ts).
    { intros a. destruct last as [w0|]; cbn; [|lia]. pose proof (compare_bound (map (fun t => eval (erase t) w0) ts) a) as H. now rewrite map_length in H. }
    cbn [kcall dependencies erase]. rewrite map_length. destruct (wcalls_with (kcall U) ls w) as [[[rs ls2] w1] l1]. destruct rs as [vs| |]; try lia. cbv zeta.
    specialize (Hc (ctad_tuple as_tuple vs)).
    destruct (negb _ || _); [destruct (sem U f _ w1) as [r w2]; destruct (regularized r)|]; rewrite ?comparisons_app, ?app_length; try change (length (comparisons [EvCall f (ctad_tuple as_tuple vs)])) with 0; lia.
Qed.

(** ** Stored values *)
Lemma stored_lib (t : tracked) w : forall l, rel (touch w t) l -> stored l = lazies (erase t) + length (plain_functions (erase t)).
Proof.
  induction t as [v|d last|f last ts IH] using tracked_ind'; intros l Hrel; cbn [touch] in Hrel; inversion Hrel as [| |f' last' ts' ls Hts Hsync]; subst.
  - reflexivity.
  - reflexivity.
  - cbn [erase lazies plain_functions stored option_map]. clear Hrel Hsync.
    revert ls Hts. induction IH as [|t ts Ht Hts' IHts]; intros ls Hls; inversion Hls as [|? l ? ls' Hl Hls']; subst; [reflexivity|].
    specialize (IHts ls' Hls'). rewrite (map_cons stored). cbn [map list_sum fold_right flat_map] in *. rewrite app_length. rewrite (Ht l Hl). unfold list_sum in *. lia.
Qed.
Lemma stored_old (t : tracked) w : forall l, wrel (touch w t) l -> wstored l = lazies (erase t) + dependencies (erase t).
Proof.
  induction t as [v|d last|f last ts IH] using tracked_ind'; intros l Hrel; cbn [touch] in Hrel; inversion Hrel as [| |f' last' ts' ls Hts Hsync]; subst.
  - reflexivity.
  - reflexivity.
  - cbn [erase lazies dependencies wstored option_map]. rewrite !map_length. clear Hrel Hsync.
    assert (E : list_sum (map wstored ls) = list_sum (map lazies (map erase ts)) + list_sum (map dependencies (map erase ts))).
    { revert ls Hts. induction IH as [|t ts Ht Hts' IHts]; intros ls Hls; inversion Hls as [|? l ? ls' Hl Hls']; subst; [reflexivity|].
      specialize (IHts ls' Hls'). cbn [map list_sum fold_right] in *. rewrite (Ht l Hl). unfold list_sum in *. lia. }
    lia.
Qed.

(** ** Programs *)
Notation strip := (fun o : output A fid did => (fst o, without_comparisons (snd o))).
Lemma both_run p : forall (ts : list tracked) ls ws w es vals,
  Forall2 rel ts ls -> Forall2 wrel ts ws -> eager pf rd p (map erase ts) w = Some (es, vals) ->
  Forall (regular pf rd) es -> Forall (never_null pf rd) es ->
  exists s outs ts' ws' outs', run U p (mkState ls w) = Some (s, outs) /\ krun U p ws w = Some (ws', world s, outs') /\
    Forall2 rel ts' (vars s) /\ Forall2 wrel ts' ws' /\ map erase ts' = es /\ map strip outs' = map strip outs.
Proof.
  induction p as [|o p IH]; intros ts ls ws w es vals Hl Hw He Hr Hn.
  - cbn in He. injection He as <- <-. exists (mkState ls w), [], ts, ws, []. cbn. auto 10.
  - destruct o as [f ss|x|x|h]; cbn [eager run exec krun kexec vars world] in *.
    + rewrite spec_deps_erase in He. pose proof (deps_rel U pf rd ts ls ss Hl) as Hd.
      destruct (spec_deps TConst _ ts ss) as [us|] eqn:Es; [|discriminate]. cbn [option_map] in He.
      destruct (wdeps_rel pf rd _ _ _ _ Hw Es) as (os & -> & Hos).
      destruct (deps_of ls ss) as [ds|]; [|contradiction].
      edestruct (IH (ts ++ [TApp f None us]) (ls ++ [mk_lazy U f ds]) (ws ++ [WNode f None None os]) w es vals)
        as (s & outs & ts' & ws' & outs' & E1 & E2 & E3 & E4 & E5 & E6); auto.
      * apply Forall2_app; [exact Hl|]. constructor; [|constructor]. apply (rel_app U pf rd f None us (map (ensure_lazy U) ds)); [exact Hd|discriminate].
      * apply Forall2_app; [exact Hw|]. constructor; [|constructor]. apply (wrel_app pf rd f None us os Hos). discriminate.
      * rewrite map_app. exact He.
      * rewrite E1, E2. exists s, ((None, []) :: outs), ts', ws', ((None, []) :: outs'). cbn. rewrite E6. auto 10.
    + rewrite nth_error_map in He. destruct (nth_error ts x) as [t|] eqn:Et; [|discriminate]. cbn [option_map] in He.
      destruct (Forall2_nth_error _ _ _ _ _ Hl Et) as (l & -> & Hlx). destruct (Forall2_nth_error _ _ _ _ _ Hw Et) as (k & -> & Hkx).
      edestruct (IH (ts ++ [t]) (ls ++ [l]) (ws ++ [k]) w es vals)
        as (s & outs & ts' & ws' & outs' & E1 & E2 & E3 & E4 & E5 & E6); auto; try (apply Forall2_app; auto); [rewrite map_app; exact He|].
      rewrite E1, E2. exists s, ((None, []) :: outs), ts', ws', ((None, []) :: outs'). cbn. rewrite E6. auto 10.
    + rewrite nth_error_map in He. destruct (nth_error ts x) as [t|] eqn:Et; [|discriminate]. cbn [option_map] in He.
      destruct (eager pf rd p (map erase ts) w) as [[es' vals']|] eqn:Ee; [|discriminate]. injection He as <- <-.
      destruct (eager_extends pf rd _ _ _ _ _ Ee) as [ext Hext].
      assert (Hin : In (erase t) es') by (rewrite Hext; apply in_or_app; left; apply in_map; eapply nth_error_In; eauto).
      assert (Hrt : regular pf rd (erase t)) by (rewrite Forall_forall in Hr; auto).
      assert (Hnt : never_null pf rd (erase t)) by (rewrite Forall_forall in Hn; auto).
      destruct (Forall2_nth_error _ _ _ _ _ Hl Et) as (l & -> & Hlx). destruct (Forall2_nth_error _ _ _ _ _ Hw Et) as (k & -> & Hkx).
      destruct (step_spec U pf rd Hpure Hexact t l w Hlx Hrt Hnt) as (l' & -> & Hl').
      destruct (wcall_spec U pf rd Hpure Hexact t k w Hkx Hrt) as (k' & Ek & Hk').
      rewrite kcall_erase in Ek. destruct (kcall U k w) as [[[r k2] w2] lg]. injection Ek as -> -> -> Elg.
      edestruct (IH (update x (touch w t) ts) (update x l' ls) (update x k' ws) w es' vals')
        as (s & outs & ts' & ws' & outs' & E1 & E2 & E3 & E4 & E5 & E6); auto; try (apply Forall2_update; auto).
      { rewrite map_update, erase_touch, update_same by (rewrite nth_error_map, Et; reflexivity). exact Ee. }
      rewrite E1, E2. eexists s, (_ :: outs), ts', ws', (_ :: outs'). split; [reflexivity|]. split; [reflexivity|]. cbn [map fst snd].
      rewrite !api_visible, Elg, E6. auto 10.
    + edestruct (IH ts ls ws (h w) es vals) as (s & outs & ts' & ws' & outs' & E1 & E2 & E3 & E4 & E5 & E6); auto.
      rewrite E1, E2. exists s, ((None, []) :: outs), ts', ws', ((None, []) :: outs'). cbn. rewrite E6. auto 10.
Qed.

Variables (p : list (op A W fid did)) (w : W) (es : list expr) (vals : list (option value)).
Hypothesis He : eager pf rd p [] w = Some (es, vals).
Hypothesis Hr : Forall (regular pf rd) es.
Hypothesis Hn : Forall (never_null pf rd) es.

Lemma ready x e : nth_error es x = Some e -> exists s outs ts ws outs' t l k,
  run U p (mkState [] w) = Some (s, outs) /\ krun U p [] w = Some (ws, world s, outs') /\
  Forall2 rel ts (vars s) /\ Forall2 wrel ts ws /\ nth_error ts x = Some t /\ erase t = e /\
  nth_error (vars s) x = Some l /\ nth_error ws x = Some k /\ rel t l /\ wrel t k /\ regular pf rd e /\ never_null pf rd e.
Proof.
  intros Hx. destruct (both_run p [] [] [] w es vals (Forall2_nil _) (Forall2_nil _) He Hr Hn) as (s & outs & ts & ws & outs' & E1 & E2 & E3 & E4 & E5 & _).
  subst es. rewrite nth_error_map in Hx. destruct (nth_error ts x) as [t|] eqn:Et; [|discriminate]. injection Hx as <-.
  destruct (Forall2_nth_error _ _ _ _ _ E3 Et) as (l & El & Hl). destruct (Forall2_nth_error _ _ _ _ _ E4 Et) as (k & Ek & Hk).
  assert (Hin : In (erase t) (map erase ts)) by (apply in_map; eapply nth_error_In; eauto).
  rewrite Forall_forall in Hr, Hn. exists s, outs, ts, ws, outs', t, l, k. repeat (split; [auto; fail|]). auto.
Qed.

(** A call when nothing changed since the last. *)
Theorem quiet_call x e s1 o1 h : nth_error es x = Some e -> run U p (mkState [] w) = Some (s1, o1) ->
  (forall d, In d (plain_functions e) -> rd d (h (world s1)) = rd d (world s1)) ->
  exists s outs vs w' outs' r lg lg',
    run U (p ++ [Call x; Env h; Call x]) (mkState [] w) = Some (s, outs ++ [(r, lg)]) /\
    krun U (p ++ [Call x; Env h; Call x]) [] w = Some (vs, w', outs' ++ [(r, lg')]) /\
    function_calls lg = [] /\ function_calls lg' = [] /\
    length (comparisons lg) = length (plain_functions e) /\
    length (comparisons lg') = length (plain_functions e) + values_and_lazies e.
Proof.
  intros Hx E1 Hq. destruct (ready x e Hx) as (s & outs & ts & ws & outs' & t & l & k & E1' & E2 & _ & _ & _ & <- & El & Ek & Hl & Hk & Hrt & Hnt).
  rewrite E1 in E1'. injection E1' as <- <-. set (w0 := world s1) in *.
  destruct (step_spec U pf rd Hpure Hexact t l w0 Hl Hrt Hnt) as (l' & Es & Hl').
  destruct (wcall_spec U pf rd Hpure Hexact t k w0 Hk Hrt) as (k' & Ek' & Hk').
  rewrite kcall_erase in Ek'. destruct (kcall U k w0) as [[[r0 k2] w2] lg0] eqn:Ek2. injection Ek' as -> -> -> Elg.
  assert (Hrt' : regular pf rd (erase (touch w0 t))) by now rewrite erase_touch.
  assert (Hnt' : never_null pf rd (erase (touch w0 t))) by now rewrite erase_touch.
  destruct (step_spec U pf rd Hpure Hexact (touch w0 t) l' (h w0) Hl' Hrt' Hnt') as (l'' & Es' & _).
  destruct (quiet_old t w0 (h w0) k' Hk' Hrt Hq) as (lg' & Ek3 & C' & F').
  destruct (quiet_lib t w0 (h w0) Hq) as [C F].
  assert (Lx : x < length (vars s1)) by (apply nth_error_Some; congruence).
  assert (Lw : x < length ws) by (apply nth_error_Some; congruence).
  assert (N1 : nth_error (update x l' (vars s1)) x = Some l').
  { rewrite nth_error_update, Nat.eqb_refl. destruct (Nat.ltb_spec x (length (vars s1))); [reflexivity|lia]. }
  assert (N2 : nth_error (update x k' ws) x = Some k').
  { rewrite nth_error_update, Nat.eqb_refl. destruct (Nat.ltb_spec x (length ws)); [reflexivity|lia]. }
  eexists _, (o1 ++ [_; _]), _, _, (outs' ++ [_; _]), (Some (Ok (visible (eval (erase t) w0)))), (expected (touch w0 t) (h w0)), lg'.
  split; [|split].
  - rewrite run_app', E1. cbn [run exec]. rewrite El. fold w0. rewrite Es. cbn [vars world]. rewrite N1, Es'. rewrite !api_visible, erase_touch, (quiet_eval _ _ _ Hq).
    rewrite <- app_assoc. cbn [app]. reflexivity.
  - rewrite krun_app, E2. cbn [krun kexec]. rewrite Ek, Ek2, N2, Ek3. rewrite !api_visible. rewrite <- app_assoc. cbn [app]. reflexivity.
  - repeat split; auto. rewrite C'. pose proof (dependencies_split (erase t)) as D.
    destruct (eager_nodes pf rd p [] w es vals (Forall_nil _) He _ (nth_error_In _ _ Hx)) as (f & us & E). rewrite E in D |- *. lia.
Qed.

(** Any call, and what is stored after it. *)
Theorem after_call x e : nth_error es x = Some e ->
  exists s outs vs w' outs' r lg lg' l k,
    run U (p ++ [Call x]) (mkState [] w) = Some (s, outs ++ [(r, lg)]) /\
    krun U (p ++ [Call x]) [] w = Some (vs, w', outs' ++ [(r, lg')]) /\
    length (comparisons lg) <= length (plain_functions e) + length (function_calls lg) /\
    length (comparisons lg') <= length (plain_functions e) + values_and_lazies e /\
    nth_error (vars s) x = Some l /\ nth_error vs x = Some k /\
    stored l = lazies e + length (plain_functions e) /\
    wstored k = lazies e + length (plain_functions e) + values_and_lazies e.
Proof.
  intros Hx. destruct (ready x e Hx) as (s & outs & ts & ws & outs' & t & l & k & E1 & E2 & _ & _ & _ & <- & El & Ek & Hl & Hk & Hrt & Hnt).
  set (w0 := world s) in *.
  destruct (step_spec U pf rd Hpure Hexact t l w0 Hl Hrt Hnt) as (l' & Es & Hl').
  destruct (wcall_spec U pf rd Hpure Hexact t k w0 Hk Hrt) as (k' & Ek' & Hk').
  pose proof (bound_old t k w0 Hk Hrt) as Hb.
  rewrite kcall_erase in Ek'. destruct (kcall U k w0) as [[[r0 k2] w2] lg0] eqn:Ek2. injection Ek' as -> -> -> Elg.
  pose proof (step_compares U l w0) as Hc. rewrite Es in Hc.
  assert (Lx : x < length (vars s)) by (apply nth_error_Some; congruence).
  assert (Lw : x < length ws) by (apply nth_error_Some; congruence).
  assert (D : dependencies (erase t) = length (plain_functions (erase t)) + values_and_lazies (erase t)).
  { pose proof (dependencies_split (erase t)) as D.
    destruct (eager_nodes pf rd p [] w es vals (Forall_nil _) He _ (nth_error_In _ _ Hx)) as (f & us & E). rewrite E in D |- *. lia. }
  exists (mkState (update x l' (vars s)) w0), outs, (update x k' ws), w0, outs', (Some (Ok (visible (eval (erase t) w0)))), (expected t w0), lg0, l', k'.
  split; [|split; [|split; [|split; [|split; [|split; [|split]]]]]].
  - rewrite run_app', E1. cbn [run exec]. rewrite El. fold w0. rewrite Es, api_visible. reflexivity.
  - rewrite krun_app, E2. cbn [krun kexec]. rewrite Ek, Ek2, api_visible. reflexivity.
  - rewrite <- (samples_expected U pf rd t w0). etransitivity; [exact Hc|]. generalize (expected t w0). clear.
    intros lg. induction lg as [|ev lg IH]; [cbn; lia|]. unfold evaluations, samples, function_calls in *. destruct ev; cbn; lia.
  - lia.
  - cbn. rewrite nth_error_update, Nat.eqb_refl. destruct (Nat.ltb_spec x (length (vars s))); [reflexivity|lia].
  - rewrite nth_error_update, Nat.eqb_refl. destruct (Nat.ltb_spec x (length ws)); [reflexivity|lia].
  - eapply stored_lib; eauto.
  - rewrite (stored_old t w0 k' Hk'). lia.
Qed.
End Pure.
