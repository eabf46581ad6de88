(** Proofs about corresponding users of the library. *)
From Coq Require Import List Bool Arith Lia.
From Verif Require Import Value TupleAlg TupleAlgProofs LazyModel LazySpec LazySpec2 LazyProofs SharedModel SharedProofs
  HistorySpec HistoryThms ShareThms LazyThms LazyExamples RelateSpec.
Import ListNotations.

Section Relate.
Context {A1 W1 F1 D1 A2 W2 F2 D2 : Type}.
Variable RA : A1 -> A2 -> Prop.
Variable RW : W1 -> W2 -> Prop.
Variable RF : F1 -> F2 -> Prop.
Variable RD : D1 -> D2 -> Prop.
Notation vrel := (vrel RA).
Variable U1 : user A1 W1 F1 D1.
Variable U2 : user A2 W2 F2 D2.
Hypothesis HU : related RA RW RF RD U1 U2.

Lemma veq_rel : forall x x' y y', vrel x x' -> vrel y y' -> veq (aeq U1) x y = veq (aeq U2) x' y'.
Proof.
  induction x as [a| |l IH|x1 x2 IH1 IH2| |x IH] using val_ind'; intros x' y y' Hx Hy.
  - inversion Hx; subst. destruct Hy; try reflexivity. cbn. now apply (rel_eq _ _ _ _ _ _ HU).
  - inversion Hx; subst. destruct Hy; reflexivity.
  - inversion Hx as [| |? m Hm| | |]; subst. destruct Hy as [| |k k' Hk| | |]; try reflexivity. cbn.
    clear Hx. revert k k' Hk. induction Hm as [|a a' l m Ha Hm IHm]; intros k k' Hk; destruct Hk as [|b b' k k' Hb Hk]; try reflexivity.
    inversion IH as [|? ? IHa IHl]; subst. rewrite (IHa _ _ _ Ha Hb). f_equal. now apply IHm.
  - inversion Hx; subst. destruct Hy; try reflexivity. cbn. f_equal; auto.
  - inversion Hx; subst. destruct Hy; reflexivity.
  - inversion Hx; subst. destruct Hy; try reflexivity. cbn. auto.
Qed.

Lemma opt_ne_rel : forall y y', vrel y y' -> forall o o', both vrel o o' -> opt_ne (aeq U1) o y = opt_ne (aeq U2) o' y'.
Proof.
  induction y as [a| |l IH|y1 y2 IH1 IH2| |y IH] using val_ind'; intros y' Hy o o' Ho; inversion Hy; subst;
    destruct o as [c|], o' as [c'|]; try destruct Ho; try reflexivity;
    try (cbn [opt_ne]; f_equal; now apply veq_rel).
  - cbn [opt_ne]. f_equal. apply veq_rel; [now constructor|exact Hy].
  - cbn [opt_ne]. f_equal. apply veq_rel; [now constructor|exact Hy].
  - cbn [opt_ne]. f_equal. apply veq_rel; [now constructor|exact Hy].
  - cbn [opt_ne]. now apply IH.
  - cbn [opt_ne]. now apply IH.
Qed.

Definition arel (a : val A1 * bool) (b : val A2 * bool) : Prop := vrel (fst a) (fst b) /\ snd a = snd b.

Lemma as_tuple_rel v v' : vrel v v' -> both (Forall2 vrel) (as_tuple v) (as_tuple v').
Proof. intros [| |l m H|x x' y y' Hx Hy| |]; cbn; auto. Qed.

Lemma values_rel xs ys : Forall2 arel xs ys ->
  Forall2 vrel (ctad_tuple as_tuple (map fst xs)) (ctad_tuple as_tuple (map fst ys)).
Proof.
  intros H. assert (Hm : Forall2 vrel (map fst xs) (map fst ys)) by (induction H as [|x y xs ys [Hx _] H IH]; constructor; auto).
  destruct Hm as [|v v' vs vs' Hv Hvs]; [constructor|]. destruct Hvs as [|u u' us us' Hu Hus].
  - cbn. pose proof (as_tuple_rel _ _ Hv) as Ht. destruct (as_tuple v), (as_tuple v'); cbn in Ht; try contradiction; auto.
  - cbn. auto.
Qed.
Lemma changed_rel xs ys : Forall2 arel xs ys -> existsb snd xs = existsb snd ys.
Proof. induction 1 as [|x y xs ys [_ Hx] H IH]; cbn; [reflexivity|]. now rewrite Hx, IH. Qed.

Lemma is_some_rel {X Y} (R : X -> Y -> Prop) o o' : both R o o' -> is_some o = is_some o'.
Proof. destruct o, o'; cbn; tauto. Qed.

Definition fn_rel (g : fnobj F1 D1) (g' : fnobj F2 D2) : Prop :=
  match g, g' with FnUser f, FnUser f' => RF f f' | FnSample d, FnSample d' => RD d d' | _, _ => False end.

Definition core_rel (r : res (val A1 * bool) * option (val A1) * W1 * list (event A1 F1 D1))
    (r' : res (val A2 * bool) * option (val A2) * W2 * list (event A2 F2 D2)) : Prop :=
  let '(x, c, w, lg) := r in let '(x', c', w', lg') := r' in
  res_rel arel x x' /\ both vrel c c' /\ RW w w' /\ Forall2 (event_rel RA RF RD) lg lg'.

(** After the function was called. *)
Lemma core_result (r : vres A1 * W1 * list (event A1 F1 D1)) (r' : vres A2 * W2 * list (event A2 F2 D2)) c c' : both vrel c c' ->
  vres_rel RA (fst (fst r)) (fst (fst r')) -> RW (snd (fst r)) (snd (fst r')) -> Forall2 (event_rel RA RF RD) (snd r) (snd r') ->
  core_rel
    match r with
    | (VThrow, w', lg) => (Exc, c, w', lg)
    | (VRet result, w', lg) =>
        let '(changed', lc) := opt_neq U1 c result in
        (Ok (result, changed'), Some result, w', lg ++ lc)
    end
    match r' with
    | (VThrow, w', lg) => (Exc, c', w', lg)
    | (VRet result, w', lg) =>
        let '(changed', lc) := opt_neq U2 c' result in
        (Ok (result, changed'), Some result, w', lg ++ lc)
    end.
Proof.
  destruct r as [[[u|] w1] lg], r' as [[[u'|] w1'] lg']; intros Hc Hr Hw1 Hlg; cbn in Hr, Hw1, Hlg; try contradiction.
  - cbn. repeat split; auto.
    + cbn. now apply opt_ne_rel.
    + apply Forall2_app; [exact Hlg|]. destruct c, c'; cbn in Hc; try contradiction; repeat constructor; auto.
  - cbn. auto.
Qed.

Lemma core_unfold {A W fid did} (U : user A W fid did) g c args w :
  core U g c args w =
  if negb (is_some c) || existsb snd args then
    match call_fn U g (ctad_tuple as_tuple (map fst args)) w with
    | (VThrow, w', lg) => (Exc, c, w', lg)
    | (VRet result, w', lg) =>
        let '(changed', lc) := opt_neq U c result in
        (Ok (result, changed'), Some result, w', lg ++ lc)
    end
  else match c with Some v => (Ok (v, negb (is_some c) || existsb snd args), c, w, []) | None => (UB, c, w, []) end.
Proof. unfold core. rewrite any_pure, transform_pure. reflexivity. Qed.

Lemma core_user_rel f f' c c' xs ys w w' : RF f f' -> both vrel c c' -> Forall2 arel xs ys -> RW w w' ->
  core_rel (core U1 (FnUser f) c xs w) (core U2 (FnUser f') c' ys w').
Proof.
  intros Hf Hc Hxs Hw. rewrite !core_unfold. rewrite (is_some_rel _ _ _ Hc), (changed_rel _ _ Hxs).
  destruct (negb (is_some c') || existsb snd ys) eqn:Ech.
  - destruct (rel_sem _ _ _ _ _ _ HU f f' _ _ w w' Hf (values_rel _ _ Hxs) Hw) as [Hr Hw'].
    apply core_result; [exact Hc| | |]; unfold call_fn.
    + destruct (sem U1 f _ w) as [[[u|]|] w1], (sem U2 f' _ w') as [[[u'|]|] w1']; cbn in *; try contradiction; auto. constructor.
    + destruct (sem U1 f _ w) as [r1 w1], (sem U2 f' _ w') as [r1' w1']; cbn in *. exact Hw'.
    + pose proof (values_rel _ _ Hxs) as Hv.
      destruct (sem U1 f _ w) as [r1 w1], (sem U2 f' _ w') as [r1' w1']; cbn in *. repeat constructor; auto.
  - destruct c as [v|], c' as [v'|]; cbn in Hc; try contradiction; cbn; repeat split; auto.
Qed.

Lemma core_sample_rel d d' c c' v v' w w' : RD d d' -> both vrel c c' -> RW w w' ->
  core_rel (core U1 (FnSample d) c [(v, true)] w) (core U2 (FnSample d') c' [(v', true)] w').
Proof.
  intros Hd Hc Hw. rewrite !core_unfold. cbn [existsb snd orb]. rewrite !orb_true_r.
  destruct (rel_dsem _ _ _ _ _ _ HU d d' w w' Hd Hw) as [Hr Hw'].
  apply core_result; [exact Hc| | |]; unfold call_fn; destruct (dsem U1 d w) as [r1 w1], (dsem U2 d' w') as [r1' w1']; cbn in *; auto.
  repeat constructor; auto.
Qed.

(** ** Lazy functions *)
Inductive lrel : lz A1 F1 D1 -> lz A2 F2 D2 -> Prop :=
| lrel_value v v' ch : vrel v v' -> lrel (LValue v ch) (LValue v' ch)
| lrel_user f f' c c' ds ds' : RF f f' -> both vrel c c' -> Forall2 lrel ds ds' ->
    lrel (LCore (FnUser f) c ds) (LCore (FnUser f') c' ds')
| lrel_sample d d' c c' v v' : RD d d' -> both vrel c c' ->
    lrel (LCore (FnSample d) c [LValue v true]) (LCore (FnSample d') c' [LValue v' true]).

Definition step_rel {X Y} (RX : X -> Y -> Prop) {L L'} (RL : L -> L' -> Prop)
    (r : res X * L * W1 * list (event A1 F1 D1)) (r' : res Y * L' * W2 * list (event A2 F2 D2)) : Prop :=
  let '(x, l, w, lg) := r in let '(x', l', w', lg') := r' in
  res_rel RX x x' /\ RL l l' /\ RW w w' /\ Forall2 (event_rel RA RF RD) lg lg'.

Lemma steps_rel ds : Forall (fun l => forall l' w w', lrel l l' -> RW w w' -> step_rel arel lrel (step U1 l w) (step U2 l' w')) ds ->
  forall ds' w w', Forall2 lrel ds ds' -> RW w w' ->
  step_rel (Forall2 arel) (Forall2 lrel) (steps_with (step U1) ds w) (steps_with (step U2) ds' w').
Proof.
  induction 1 as [|d ds Hd Hds IH]; intros ds' w w' Hl Hw; inversion Hl as [|? d' ? ds1 Hd1 Hds1]; subst.
  - cbn. repeat split; auto.
  - cbn [steps_with]. specialize (Hd d' w w' Hd1 Hw).
    destruct (step U1 d w) as [[[x l] w1] lg1], (step U2 d' w') as [[[x' l'] w1'] lg1']. destruct Hd as (Hx & Hl1 & Hw1 & Hlg1).
    destruct x as [x| |], x' as [x'| |]; cbn in Hx; try contradiction; try (cbn; repeat split; auto; fail).
    specialize (IH ds1 w1 w1' Hds1 Hw1). cbn [steps_with] in IH.
    destruct (steps_with (step U1) ds w1) as [[[q ls] w2] lg2], (steps_with (step U2) ds1 w1') as [[[q' ls'] w2'] lg2'].
    destruct IH as (Hq & Hls & Hw2 & Hlg2). split; [|split; [|split]]; auto.
    + destruct q, q'; cbn in Hq |- *; try contradiction; auto.
    + now apply Forall2_app.
Qed.

Lemma step_related : forall l l' w w', lrel l l' -> RW w w' -> step_rel arel lrel (step U1 l w) (step U2 l' w').
Proof.
  induction l as [v ch|g c ds IH] using lz_ind'; intros l' w w' Hl Hw; inversion Hl as [? v' ? Hv|f f' ? c' ? ds' Hf Hc Hds|d d' ? c' u v' Hd Hc]; subst.
  - cbn. repeat split; auto.
  - cbn [step]. pose proof (steps_rel ds IH ds' w w' Hds Hw) as Hs.
    destruct (steps_with (step U1) ds w) as [[[q ls] w1] lg1], (steps_with (step U2) ds' w') as [[[q' ls'] w1'] lg1'].
    destruct Hs as (Hq & Hls & Hw1 & Hlg1). destruct q as [xs| |], q' as [ys| |]; cbn in Hq; try contradiction.
    + rewrite !ctad_none. pose proof (core_user_rel f f' c c' xs ys w1 w1' Hf Hc Hq Hw1) as Hcr.
      destruct (core U1 _ c xs w1) as [[[r c1] w2] lg2], (core U2 _ c' ys w1') as [[[r' c1'] w2'] lg2'].
      destruct Hcr as (Hr & Hc1 & Hw2 & Hlg2). split; [exact Hr|]. split; [now constructor|]. split; [exact Hw2|now apply Forall2_app].
    + split; [exact I|]. split; [now constructor|]. auto.
    + split; [exact I|]. split; [now constructor|]. auto.
  - cbn [step steps_with]. cbn [ctad_tuple].
    pose proof (core_sample_rel d d' c c' u v' w w' Hd Hc Hw) as Hcr.
    destruct (core U1 _ c _ w) as [[[r c1] w2] lg2], (core U2 _ c' _ w') as [[[r' c1'] w2'] lg2'].
    destruct Hcr as (Hr & Hc1 & Hw2 & Hlg2). cbn [app]. split; [exact Hr|]. split; [now constructor|]. auto.
Qed.

Lemma api_rel r r' : res_rel arel r r' -> res_rel (both vrel) (api_result r) (api_result r').
Proof.
  destruct r as [[v b]| |], r' as [[v' b']| |]; cbn; try contradiction; auto. intros [Hv _]. cbn in Hv.
  destruct Hv; cbn; auto; now constructor.
Qed.

Definition state_rel (s : pstate A1 W1 F1 D1) (s' : pstate A2 W2 F2 D2) : Prop :=
  Forall2 lrel (vars s) (vars s') /\ RW (world s) (world s').

Lemma nth_rel {X Y} (R : X -> Y -> Prop) l l' : Forall2 R l l' -> forall n, both R (nth_error l n) (nth_error l' n).
Proof. induction 1 as [|x y l l' Hx H IH]; intros [|n]; cbn; auto. Qed.
Lemma update_rel {X Y} (R : X -> Y -> Prop) l l' x y : R x y -> Forall2 R l l' -> forall n, Forall2 R (update n x l) (update n y l').
Proof. intros Hx. induction 1 as [|a b l l' Ha H IH]; intros [|n]; cbn; constructor; auto. Qed.

Lemma deps_rel vs vs' ss ss' : Forall2 lrel vs vs' -> Forall2 (depspec_rel RA RD) ss ss' ->
  both (fun os os' => Forall2 lrel (map (ensure_lazy U1) os) (map (ensure_lazy U2) os')) (deps_of vs ss) (deps_of vs' ss').
Proof.
  intros Hv. induction 1 as [|s s' ss ss' Hs Hss IH]; cbn [deps_of]; [constructor|].
  assert (H : both (fun o o' => lrel (ensure_lazy U1 o) (ensure_lazy U2 o')) (dep_of vs s) (dep_of vs' s')).
  { destruct Hs as [x|d d' Hd|v v' Hv']; cbn.
    - pose proof (nth_rel _ _ _ Hv x) as Hx. destruct (nth_error vs x), (nth_error vs' x); cbn in Hx |- *; auto.
    - now apply lrel_sample.
    - now constructor. }
  destruct (dep_of vs s), (dep_of vs' s'); cbn in H; try contradiction; [|exact I].
  destruct (deps_of vs ss), (deps_of vs' ss'); cbn in IH |- *; try contradiction; auto.
Qed.

Lemma exec_related o o' s s' : op_rel RA RW RF RD o o' -> state_rel s s' ->
  both (fun r r' => state_rel (fst r) (fst r') /\ out_rel RA RF RD (snd r) (snd r')) (exec U1 o s) (exec U2 o' s').
Proof.
  intros Ho [Hv Hw]. destruct Ho as [f f' ss ss' Hf Hss|x|x|h h' Hh]; cbn [exec].
  - pose proof (deps_rel _ _ _ _ Hv Hss) as Hd. destruct (deps_of (vars s) ss), (deps_of (vars s') ss'); cbn in Hd |- *; try contradiction; auto.
    repeat split; cbn; auto. apply Forall2_app; [exact Hv|]. constructor; [|constructor]. now constructor.
  - pose proof (nth_rel _ _ _ Hv x) as Hx. destruct (nth_error (vars s) x), (nth_error (vars s') x); cbn in Hx |- *; try contradiction; auto.
    repeat split; cbn; auto. apply Forall2_app; auto.
  - pose proof (nth_rel _ _ _ Hv x) as Hx. destruct (nth_error (vars s) x) as [l|], (nth_error (vars s') x) as [l'|]; cbn in Hx; try contradiction; [|exact I].
    pose proof (step_related l l' _ _ Hx Hw) as Hs.
    destruct (step U1 l (world s)) as [[[r l1] w1] lg], (step U2 l' (world s')) as [[[r' l1'] w1'] lg'].
    destruct Hs as (Hr & Hl & Hw1 & Hlg). cbn. repeat split; cbn; auto.
    + now apply update_rel.
    + now apply api_rel.
  - cbn. repeat split; cbn; auto.
Qed.

Lemma run_related p p' : Forall2 (op_rel RA RW RF RD) p p' -> forall s s', state_rel s s' ->
  both (fun r r' => state_rel (fst r) (fst r') /\ Forall2 (out_rel RA RF RD) (snd r) (snd r')) (run U1 p s) (run U2 p' s').
Proof.
  induction 1 as [|o o' p p' Ho Hp IH]; intros s s' Hs; cbn [run].
  - cbn. auto.
  - pose proof (exec_related o o' s s' Ho Hs) as He.
    destruct (exec U1 o s) as [[s1 out]|], (exec U2 o' s') as [[s1' out']|]; cbn in He; try contradiction; [|exact I].
    destruct He as [Hs1 Hout]. specialize (IH s1 s1' Hs1).
    destruct (run U1 p s1) as [[s2 outs]|], (run U2 p' s1') as [[s2' outs']|]; cbn in IH |- *; try contradiction; auto.
    destruct IH. auto.
Qed.

(** C87 (1) *)
Lemma related_runs p p' w w' : Forall2 (op_rel RA RW RF RD) p p' -> RW w w' ->
  both (fun r r' => RW (world (fst r)) (world (fst r')) /\ Forall2 (out_rel RA RF RD) (snd r) (snd r'))
    (run U1 p (mkState [] w)) (run U2 p' (mkState [] w')).
Proof.
  intros Hp Hw. pose proof (run_related p p' Hp (mkState [] w) (mkState [] w') (conj (Forall2_nil _) Hw)) as H.
  destruct (run U1 p _), (run U2 p' _); cbn in H |- *; auto. destruct H as [[_ H1] H2]. auto.
Qed.

(** ** Shared lazy functions *)
Inductive slrel : slz A1 F1 D1 -> slz A2 F2 D2 -> Prop :=
| slrel_value v v' ch : vrel v v' -> slrel (SValue v ch) (SValue v' ch)
| slrel_user f f' c c' ds ds' : RF f f' -> both vrel c c' -> Forall2 slrel ds ds' ->
    slrel (SCore (FnUser f) c ds) (SCore (FnUser f') c' ds')
| slrel_sample d d' c c' v v' : RD d d' -> both vrel c c' ->
    slrel (SCore (FnSample d) c [SValue v true]) (SCore (FnSample d') c' [SValue v' true])
| slrel_ref x : slrel (SRef x) (SRef x).

Definition sstep_rel {X Y} (RX : X -> Y -> Prop) {L L'} (RL : L -> L' -> Prop)
    (r : res X * L * list (slz A1 F1 D1) * W1 * list (event A1 F1 D1))
    (r' : res Y * L' * list (slz A2 F2 D2) * W2 * list (event A2 F2 D2)) : Prop :=
  let '(x, l, vs, w, lg) := r in let '(x', l', vs', w', lg') := r' in
  res_rel RX x x' /\ RL l l' /\ Forall2 slrel vs vs' /\ RW w w' /\ Forall2 (event_rel RA RF RD) lg lg'.

Lemma read_ref_rel vs vs' d d' r r' : Forall2 slrel vs vs' -> slrel d d' -> arel r r' ->
  arel (read_ref vs d r) (read_ref vs' d' r').
Proof.
  intros Hv Hd Hr. destruct Hd as [| | |x]; try exact Hr. unfold read_ref.
  pose proof (nth_rel _ _ _ Hv x) as Hx. destruct r as [v b], r' as [v' b']. destruct Hr as [Hr Hb]. cbn in Hr, Hb. subst b'.
  assert (H : arel match nth_error vs x with Some (SCore _ (Some c) _) => (c, b) | _ => (v, b) end
                   match nth_error vs' x with Some (SCore _ (Some c) _) => (c, b) | _ => (v', b) end).
  { destruct (nth_error vs x) as [k|], (nth_error vs' x) as [k'|]; cbn in Hx; try contradiction; [|now split].
    destruct Hx as [? ? ? Hv'|? ? c c' ? ? ? Hc|? ? c c' ? ? ? Hc|]; try (now split);
      destruct c, c'; cbn in Hc; try contradiction; now split. }
  cbn [fst snd]. destruct Hr; try exact H. split; [constructor|reflexivity].
Qed.
Lemma read_refs_rel vs vs' ds ds' : Forall2 slrel vs vs' -> Forall2 slrel ds ds' -> forall rs rs', Forall2 arel rs rs' ->
  Forall2 arel (read_refs vs ds rs) (read_refs vs' ds' rs').
Proof.
  intros Hv. induction 1 as [|d d' ds ds' Hd Hds IH]; intros rs rs' Hr; [exact Hr|].
  destruct Hr as [|r r' rs rs' Hr Hrs]; cbn [read_refs]; constructor; auto using read_ref_rel.
Qed.

Definition steps_alike (n : nat) (l : slz A1 F1 D1) : Prop := forall l' vs vs' w w', slrel l l' -> Forall2 slrel vs vs' -> RW w w' ->
  both (sstep_rel arel slrel) (sstep U1 n l vs w) (sstep U2 n l' vs' w').

Lemma ssteps_rel n ds : Forall (steps_alike n) ds ->
  forall ds' vs vs' w w', Forall2 slrel ds ds' -> Forall2 slrel vs vs' -> RW w w' ->
  both (sstep_rel (Forall2 arel) (Forall2 slrel)) (ssteps_with (sstep U1 n) ds vs w) (ssteps_with (sstep U2 n) ds' vs' w').
Proof.
  induction 1 as [|d ds Hd Hds IH]; intros ds' vs vs' w w' Hl Hv Hw; inversion Hl as [|? d' ? ds1 Hd1 Hds1]; subst.
  - cbn. repeat split; auto.
  - rewrite !ssteps_cons. specialize (Hd d' vs vs' w w' Hd1 Hv Hw).
    destruct (sstep U1 n d vs w) as [[[[[x l] vs1] w1] lg1]|], (sstep U2 n d' vs' w') as [[[[[x' l'] vs1'] w1'] lg1']|]; cbn in Hd; try contradiction; [|exact I].
    destruct Hd as (Hx & Hl1 & Hv1 & Hw1 & Hlg1).
    destruct x as [x| |], x' as [x'| |]; cbn in Hx; try contradiction; try (cbn; repeat split; auto; fail).
    specialize (IH ds1 vs1 vs1' w1 w1' Hds1 Hv1 Hw1).
    destruct (ssteps_with (sstep U1 n) ds vs1 w1) as [[[[[q ls] vs2] w2] lg2]|], (ssteps_with (sstep U2 n) ds1 vs1' w1') as [[[[[q' ls'] vs2'] w2'] lg2']|];
      cbn in IH; try contradiction; [|exact I].
    destruct IH as (Hq & Hls & Hv2 & Hw2 & Hlg2). cbn. split; [|split; [|split; [|split]]]; auto.
    + destruct q, q'; cbn in Hq |- *; try contradiction; auto.
    + now apply Forall2_app.
Qed.

Lemma sstep_related n : forall l, steps_alike n l.
Proof.
  induction n as [n IHn] using lt_wf_ind.
  induction l as [v ch|g c ds IH|x] using slz_ind'; intros l' vs vs' w w' Hl Hv Hw;
    inversion Hl as [? v' ? Hv'|f f' ? c' ? ds' Hf Hc Hds|d d' ? c' u v' Hd Hc|]; subst; rewrite !sstep_eq.
  - cbn. repeat split; auto.
  - pose proof (ssteps_rel n ds IH ds' vs vs' w w' Hds Hv Hw) as Hs.
    destruct (ssteps_with (sstep U1 n) ds vs w) as [[[[[q ls] vs1] w1] lg1]|], (ssteps_with (sstep U2 n) ds' vs' w') as [[[[[q' ls'] vs1'] w1'] lg1']|];
      cbn in Hs; try contradiction; [|exact I].
    destruct Hs as (Hq & Hls & Hv1 & Hw1 & Hlg1). destruct q as [xs| |], q' as [ys| |]; cbn in Hq; try contradiction.
    + cbv zeta. rewrite !ctad_none.
      pose proof (core_user_rel f f' c c' _ _ w1 w1' Hf Hc (read_refs_rel _ _ _ _ Hv1 Hls _ _ Hq) Hw1) as Hcr.
      destruct (core U1 _ c _ w1) as [[[r c1] w2] lg2], (core U2 _ c' _ w1') as [[[r' c1'] w2'] lg2'].
      destruct Hcr as (Hr & Hc1 & Hw2 & Hlg2). cbn. split; [exact Hr|]. split; [now constructor|]. split; [exact Hv1|].
      split; [exact Hw2|now apply Forall2_app].
    + cbn. split; [exact I|]. split; [now constructor|]. auto.
    + cbn. split; [exact I|]. split; [now constructor|]. auto.
  - rewrite !ssteps_cons, !(sstep_eq _ _ (SValue _ _)). cbn [ssteps_with]. cbv zeta. cbn [ctad_tuple read_refs read_ref].
    pose proof (core_sample_rel d d' c c' u v' w w' Hd Hc Hw) as Hcr.
    destruct (core U1 _ c _ w) as [[[r c1] w2] lg2], (core U2 _ c' _ w') as [[[r' c1'] w2'] lg2'].
    destruct Hcr as (Hr & Hc1 & Hw2 & Hlg2). cbn. split; [exact Hr|]. split; [now constructor|]. auto.
  - destruct n as [|n]; [exact I|]. pose proof (nth_rel _ _ _ Hv x) as Hx.
    destruct (nth_error vs x) as [k|], (nth_error vs' x) as [k'|]; cbn in Hx; try contradiction; [|exact I].
    pose proof (IHn n (Nat.lt_succ_diag_r n) k k' vs vs' w w' Hx Hv Hw) as Hs.
    destruct (sstep U1 n k vs w) as [[[[[r l] vs1] w1] lg1]|], (sstep U2 n k' vs' w') as [[[[[r' l'] vs1'] w1'] lg1']|]; cbn in Hs; try contradiction; [|exact I].
    destruct Hs as (Hr & Hl1 & Hv1 & Hw1 & Hlg1). cbn. split; [exact Hr|]. split; [constructor|]. split; [now apply update_rel|]. auto.
Qed.

Lemma sdeps_rel vs vs' ss ss' : Forall2 slrel vs vs' -> Forall2 (sdep_rel RA RD) ss ss' ->
  both (Forall2 slrel) (sdeps_of U1 vs ss) (sdeps_of U2 vs' ss').
Proof.
  intros Hv. induction 1 as [|s s' ss ss' Hs Hss IH]; cbn [sdeps_of]; [constructor|].
  assert (H : both slrel (sdep_of U1 vs s) (sdep_of U2 vs' s')).
  { destruct Hs as [x|s s' [x|d d' Hd|v v' Hv']]; cbn.
    - pose proof (nth_rel _ _ _ Hv x) as Hx. destruct (nth_error vs x), (nth_error vs' x); cbn in Hx |- *; auto. constructor.
    - exact (nth_rel _ _ _ Hv x).
    - now apply slrel_sample.
    - now constructor. }
  destruct (sdep_of U1 vs s), (sdep_of U2 vs' s'); cbn in H; try contradiction; [|exact I].
  destruct (sdeps_of U1 vs ss), (sdeps_of U2 vs' ss'); cbn in IH |- *; try contradiction; auto.
Qed.

Definition sstate_rel (s : sstate A1 W1 F1 D1) (s' : sstate A2 W2 F2 D2) : Prop :=
  Forall2 slrel (svars s) (svars s') /\ RW (sworld s) (sworld s').

Lemma length_rel {X Y} (R : X -> Y -> Prop) l l' : Forall2 R l l' -> length l = length l'.
Proof. induction 1; cbn; congruence. Qed.

Lemma sexec_related o o' s s' : sop_rel RA RW RF RD o o' -> sstate_rel s s' ->
  both (fun r r' => sstate_rel (fst r) (fst r') /\ out_rel RA RF RD (snd r) (snd r')) (sexec U1 o s) (sexec U2 o' s').
Proof.
  intros Ho [Hv Hw]. destruct Ho as [f f' ss ss' Hf Hss|x|x|h h' Hh]; cbn [sexec].
  - pose proof (sdeps_rel _ _ _ _ Hv Hss) as Hd. destruct (sdeps_of U1 (svars s) ss), (sdeps_of U2 (svars s') ss'); cbn in Hd |- *; try contradiction; auto.
    repeat split; cbn; auto. apply Forall2_app; [exact Hv|]. constructor; [|constructor]. now constructor.
  - pose proof (nth_rel _ _ _ Hv x) as Hx. destruct (nth_error (svars s) x), (nth_error (svars s') x); cbn in Hx |- *; try contradiction; auto.
    repeat split; cbn; auto. apply Forall2_app; auto.
  - pose proof (nth_rel _ _ _ Hv x) as Hx. destruct (nth_error (svars s) x) as [l|], (nth_error (svars s') x) as [l'|]; cbn in Hx; try contradiction; [|exact I].
    rewrite <- (length_rel _ _ _ Hv).
    pose proof (sstep_related (length (svars s)) l l' _ _ _ _ Hx Hv Hw) as Hs.
    destruct (sstep U1 _ l _ _) as [[[[[r l1] vs1] w1] lg]|], (sstep U2 _ l' _ _) as [[[[[r' l1'] vs1'] w1'] lg']|]; cbn in Hs; try contradiction; [|exact I].
    destruct Hs as (Hr & Hl & Hv1 & Hw1 & Hlg). cbn. repeat split; cbn; auto.
    + now apply update_rel.
    + now apply api_rel.
  - cbn. repeat split; cbn; auto.
Qed.

Lemma srun_related p p' : Forall2 (sop_rel RA RW RF RD) p p' -> forall s s', sstate_rel s s' ->
  both (fun r r' => sstate_rel (fst r) (fst r') /\ Forall2 (out_rel RA RF RD) (snd r) (snd r')) (srun U1 p s) (srun U2 p' s').
Proof.
  induction 1 as [|o o' p p' Ho Hp IH]; intros s s' Hs; cbn [srun].
  - cbn. auto.
  - pose proof (sexec_related o o' s s' Ho Hs) as He.
    destruct (sexec U1 o s) as [[s1 out]|], (sexec U2 o' s') as [[s1' out']|]; cbn in He; try contradiction; [|exact I].
    destruct He as [Hs1 Hout]. specialize (IH s1 s1' Hs1).
    destruct (srun U1 p s1) as [[s2 outs]|], (srun U2 p' s1') as [[s2' outs']|]; cbn in IH |- *; try contradiction; auto.
    destruct IH. auto.
Qed.

(** C87 (2) *)
Lemma related_sruns p p' w w' : Forall2 (sop_rel RA RW RF RD) p p' -> RW w w' ->
  both (fun r r' => RW (sworld (fst r)) (sworld (fst r')) /\ Forall2 (out_rel RA RF RD) (snd r) (snd r'))
    (srun U1 p (mkSState [] w)) (srun U2 p' (mkSState [] w')).
Proof.
  intros Hp Hw. pose proof (srun_related p p' Hp (mkSState [] w) (mkSState [] w') (conj (Forall2_nil _) Hw)) as H.
  destruct (srun U1 p _), (srun U2 p' _); cbn in H |- *; auto. destruct H as [[_ H1] H2]. auto.
Qed.
End Relate.

(** ** Keys *)
Section Keys.
Context {A1 W1 F1 D1 A2 W2 F2 D2 : Type}.
Variable RA : A1 -> A2 -> Prop.
Variable RW : W1 -> W2 -> Prop.
Variable RF : F1 -> F2 -> Prop.
Variable RD : D1 -> D2 -> Prop.

Lemma results_rel outs (outs' : list (output A2 F2 D2)) : Forall2 (out_rel RA RF RD) outs outs' ->
  Forall2 (res_rel (both (vrel RA))) (results outs) (results outs').
Proof.
  induction 1 as [|o o' outs outs' [Ho _] H IH]; [constructor|]. unfold results. cbn [flat_map].
  destruct (fst o), (fst o'); cbn in Ho; try contradiction; auto. constructor; auto.
Qed.

(** C87 (3) *)
Lemma related_eager (U1 : user A1 W1 F1 D1) (U2 : user A2 W2 F2 D2) pf rd : related RA RW RF RD U1 U2 ->
  pure_user U2 pf rd -> sound_eq U2 -> forall p p' w w' es vals,
  Forall2 (op_rel RA RW RF RD) p p' -> RW w w' ->
  eager pf rd p' [] w' = Some (es, vals) -> Forall (regular pf rd) es -> Forall (unnested pf rd) es ->
  exists s outs, run U1 p (mkState [] w) = Some (s, outs) /\
    Forall2 (fun r v => exists o, r = Ok o /\ both (vrel RA) o v) (results outs) vals.
Proof.
  intros HU Hp He p p' w w' es vals Hpp Hw Hv Hr Hn.
  destruct (eager_value U2 pf rd Hp He p' w' es vals Hv Hr Hn) as (s' & outs' & E & Hres).
  pose proof (related_runs RA RW RF RD U1 U2 HU p p' w w' Hpp Hw) as H. rewrite E in H.
  destruct (run U1 p (mkState [] w)) as [[s outs]|]; cbn in H; [|contradiction]. exists s, outs. split; [reflexivity|].
  apply proj2, results_rel in H. rewrite Hres in H. clear -H. revert H. generalize (results outs). induction vals as [|v vals IH]; intros rs H; inversion H; subst; constructor; auto.
  destruct x; cbn in *; try contradiction. eauto.
Qed.
End Keys.

(** ** The argument of sampled functions *)
Section Argument.
Context {A W fid did : Type}.
Lemma vrel_eq : forall v v' : val A, vrel eq v v' -> v' = v.
Proof.
  induction v as [a| |l IH|x y IHx IHy| |x IH] using val_ind'; intros v' H; inversion H as [| |? m Hm| | |]; subst; auto.
  - f_equal. clear H. induction Hm as [|a b l m Ha Hm IHm]; [reflexivity|]. inversion IH; subst. f_equal; auto.
  - f_equal; auto.
  - do 2 f_equal; auto.
Qed.
Lemma vrels_eq (l m : list (val A)) : Forall2 (vrel eq) l m -> m = l.
Proof. induction 1; [reflexivity|]. f_equal; auto using vrel_eq. Qed.
Lemma both_eq (o o' : option (val A)) : both (vrel eq) o o' -> o' = o.
Proof. destruct o, o'; cbn; try contradiction; auto. intros H. f_equal. now apply vrel_eq. Qed.
Lemma outs_eq (outs outs' : list (output A fid did)) : Forall2 (out_rel eq eq eq) outs outs' -> outs' = outs.
Proof.
  induction 1 as [|[r lg] [r' lg'] outs outs' [Hr Hl] H IH]; [reflexivity|]. f_equal; auto. cbn in Hr, Hl. f_equal.
  - destruct r as [r|], r' as [r'|]; cbn in Hr; try contradiction; auto. f_equal.
    destruct r, r'; cbn in Hr; try contradiction; auto. f_equal. now apply both_eq.
  - clear -Hl. induction Hl as [|e e' l l' He Hl IH]; [reflexivity|]. f_equal; auto.
    destruct He; subst; f_equal; auto using vrels_eq, vrel_eq.
Qed.
Lemma vrel_refl : forall v : val A, vrel eq v v.
Proof.
  induction v as [a| |l IH|x y IHx IHy| |x IH] using val_ind'; constructor; auto.
  induction IH; constructor; auto.
Qed.

Definition with_zero (U : user A W fid did) (z : A) : user A W fid did := mkUser (sem U) (dsem U) (aeq U) z.
Lemma zero_related U z : related eq eq eq eq U (with_zero U z).
Proof.
  split.
  - intros f f' xs xs' w w' <- Hx <-. apply vrels_eq in Hx. subst xs'. cbn. split; [|reflexivity].
    destruct (fst (sem U f xs w)) as [[v|]|]; cbn; auto using vrel_refl.
  - intros d d' w w' <- <-. cbn. split; [|reflexivity]. destruct (fst (dsem U d w)) as [v|]; cbn; auto using vrel_refl.
  - intros a a' b b' <- <-. reflexivity.
Qed.
Lemma depspec_refl (ss : list (depspec A did)) : Forall2 (depspec_rel eq eq) ss ss.
Proof. induction ss as [|[x|d|v] ss IH]; constructor; auto; constructor; auto using vrel_refl. Qed.
Lemma sdep_refl (ss : list (sdep A did)) : Forall2 (sdep_rel eq eq) ss ss.
Proof. induction ss as [|[x|[x|d|v]] ss IH]; constructor; auto; constructor; auto; constructor; auto using vrel_refl. Qed.

(** C87 (4) *)
Lemma zero_irrelevant U z p w :
  option_map (fun r => (world (fst r), snd r)) (run (with_zero U z) p (mkState [] w)) =
  option_map (fun r => (world (fst r), snd r)) (run U p (mkState [] w)).
Proof.
  pose proof (related_runs eq eq eq eq U (with_zero U z) (zero_related U z) p p w w) as H.
  specialize (fun K => H K eq_refl).
  destruct (run U p _) as [[s outs]|], (run (with_zero U z) p _) as [[s' outs']|]; cbn; auto.
  - destruct H as [Hw Ho].
    + induction p as [|[f ss|x|x|h] p IH]; constructor; auto; constructor; auto using depspec_refl. now intros ? ? <-.
    + cbn in *. apply outs_eq in Ho. now rewrite Hw, Ho.
  - destruct H. induction p as [|[f ss|x|x|h] p IH]; constructor; auto; constructor; auto using depspec_refl. now intros ? ? <-.
  - destruct H. induction p as [|[f ss|x|x|h] p IH]; constructor; auto; constructor; auto using depspec_refl. now intros ? ? <-.
Qed.
Lemma zero_irrelevant_shared U z p w :
  option_map (fun r => (sworld (fst r), snd r)) (srun (with_zero U z) p (mkSState [] w)) =
  option_map (fun r => (sworld (fst r), snd r)) (srun U p (mkSState [] w)).
Proof.
  pose proof (related_sruns eq eq eq eq U (with_zero U z) (zero_related U z) p p w w) as H.
  specialize (fun K => H K eq_refl).
  destruct (srun U p _) as [[s outs]|], (srun (with_zero U z) p _) as [[s' outs']|]; cbn; auto.
  - destruct H as [Hw Ho].
    + induction p as [|[f ss|x|x|h] p IH]; constructor; auto; constructor; auto using sdep_refl. now intros ? ? <-.
    + cbn in *. apply outs_eq in Ho. now rewrite Hw, Ho.
  - destruct H. induction p as [|[f ss|x|x|h] p IH]; constructor; auto; constructor; auto using sdep_refl. now intros ? ? <-.
  - destruct H. induction p as [|[f ss|x|x|h] p IH]; constructor; auto; constructor; auto using sdep_refl. now intros ? ? <-.
Qed.
End Argument.

(** ** Examples *)

(** Numbers, of which only whether they are even counts; and just that. *)
Definition bit (v : val bool) : bool := match v with VAtom b => b | _ => true end.
Definition bits_of (args : list (val bool)) : bool := fold_right (fun v b => Bool.eqb (bit v) b) true args.
Definition bits_pf (f : nat) (args : list (val bool)) : option (val bool) := Some (VAtom (bits_of args)).
Definition bits_rd (d : bool) (w : bool * bool) : val bool := VAtom (if d then fst w else snd w).
Definition bits_user : user bool (bool * bool) nat bool :=
  mkUser (fun f args w => (FRet (bits_pf f args), w)) (fun d w => (VRet (bits_rd d w), w)) Bool.eqb true.

Definition key (n : nat) (b : bool) : Prop := Nat.even n = b.
Definition key_world (w : nat * nat) (w' : bool * bool) : Prop := key (fst w) (fst w') /\ key (snd w) (snd w').
Lemma even_plus a b : Nat.even (a + b) = Bool.eqb (Nat.even a) (Nat.even b).
Proof. rewrite Nat.even_add. now destruct (Nat.even a), (Nat.even b). Qed.
Lemma bits_rel xs xs' : Forall2 (vrel key) xs xs' -> Nat.even (sum_of xs) = bits_of xs'.
Proof.
  induction 1 as [|x x' xs xs' Hx H IH]; [reflexivity|].
  change (Nat.even (atom x + sum_of xs) = Bool.eqb (bit x') (bits_of xs')). rewrite even_plus, IH. f_equal.
  destruct Hx; try reflexivity. assumption.
Qed.
Lemma bits_related : related key key_world eq eq parity_sum_user bits_user.
Proof.
  split.
  - intros f f' xs xs' w w' <- Hx Hw. cbn. split; [|exact Hw]. constructor. now apply bits_rel.
  - intros d d' w w' <- Hw. cbn. split; [|exact Hw]. constructor. destruct d; apply Hw.
  - intros a a' b b' <- <-. reflexivity.
Qed.

(** Numbers, and numbers in a pair. *)
Definition enc (n : nat) : val nat := VPair (VAtom n) (VAtom 0).
Definition dec (v : val nat) : option nat := match v with VPair (VAtom n) (VAtom 0) => Some n | _ => None end.
Fixpoint dec_sum (l : list (val nat)) : option nat :=
  match l with
  | [] => Some 0
  | v :: l' => match dec v, dec_sum l' with Some n, Some m => Some (n + m) | _, _ => None end
  end.
Definition enc_user : user nat (nat * nat) nat bool :=
  mkUser (fun f args w => (match dec_sum args with Some n => FRet (Some (enc n)) | None => FThrow end, w))
    (fun (d : bool) (w : nat * nat) => (VRet (enc (if d then fst w else snd w)), w)) Nat.eqb 0.
Definition plain_user : user nat (nat * nat) nat bool :=
  mkUser (fun f args w => (FRet (Some (VAtom (sum_of args))), w)) (fun d w => (VRet (ex_rd d w), w)) Nat.eqb 0.
Lemma dec_sums ns : dec_sum (map enc ns) = Some (sum_of (map VAtom ns)).
Proof.
  induction ns as [|n ns IH]; [reflexivity|]. change (dec_sum (map enc (n :: ns))) with
    (match dec_sum (map enc ns) with Some m => Some (n + m) | None => None end). now rewrite IH.
Qed.

Lemma structure_matters : exists (U1 U2 : user nat (nat * nat) nat bool) (e : nat -> val nat) p w s1 outs1 s2 outs2,
  (forall f ns w, exists r, sem U1 f (map VAtom ns) w = (FRet (Some (VAtom r)), w) /\ sem U2 f (map e ns) w = (FRet (Some (e r)), w)) /\
  (forall d w, exists r, dsem U1 d w = (VRet (VAtom r), w) /\ dsem U2 d w = (VRet (e r), w)) /\
  (forall a b, veq (aeq U1) (VAtom a) (VAtom b) = veq (aeq U2) (e a) (e b)) /\
  run U1 p (mkState [] w) = Some (s1, outs1) /\ run U2 p (mkState [] w) = Some (s2, outs2) /\
  results outs1 = [Ok (Some (VAtom 3))] /\ results outs2 = [Exc].
Proof.
  exists plain_user, enc_user, enc, [New 0 [DFun true]; Call 0], (3, 4). do 4 eexists. split.
  - intros f ns w. exists (sum_of (map VAtom ns)). split; [reflexivity|]. cbn [sem enc_user]. now rewrite dec_sums.
  - split; [intros d w; exists (if d then fst w else snd w); split; reflexivity|]. split; [intros a b; cbn; now rewrite andb_true_r|].
    split; [vm_compute; reflexivity|]. split; [vm_compute; reflexivity|]. split; reflexivity.
Qed.
