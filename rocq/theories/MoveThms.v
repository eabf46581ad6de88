(** Proofs for C77. *)
From Coq Require Import List Bool Arith Lia.
From Verif Require Import Value TupleAlg LazyModel LazySpec LazySpec2 LazyGeneral LazyProofs LazyThms LazyExamples MoveModel MoveSpec.
Import ListNotations.

Section Thms.
Context {A W fid did : Type}.
Notation value := (val A).
Notation lz := (lz A fid did).
Notation mop := (mop A W fid did).
Notation event := (event A fid did).
Variable U : user A W fid did.
Variable L : leavings A fid did.

(** ** Moves are copies as long as nobody looks *)
(** Two lists of variables that may differ in those of [dead]. *)
Definition agree (dead : list nat) (vs1 vs2 : list lz) : Prop :=
  length vs1 = length vs2 /\ forall y, ~ In y dead -> nth_error vs1 y = nth_error vs2 y.

Lemma agree_update_l dead x l vs1 vs2 : agree dead vs1 vs2 -> agree (x :: dead) (update x l vs1) vs2.
Proof.
  intros [Hl H]. split; [now rewrite update_length|]. intros y Hy. rewrite nth_error_update.
  destruct (Nat.eqb_spec x y) as [->|Hn]; [exfalso; apply Hy; now left|]. apply H. intros Hd. apply Hy. now right.
Qed.

Lemma agree_update dead x l vs1 vs2 : agree dead vs1 vs2 -> agree dead (update x l vs1) (update x l vs2).
Proof.
  intros [Hl H]. split; [now rewrite !update_length|]. intros y Hy. rewrite !nth_error_update, Hl.
  destruct (Nat.eqb_spec x y) as [->|Hn]; auto.
Qed.

Lemma agree_snoc dead l vs1 vs2 : agree dead vs1 vs2 -> agree dead (vs1 ++ [l]) (vs2 ++ [l]).
Proof.
  intros [Hl H]. split; [rewrite !app_length; now rewrite Hl|]. intros y Hy. apply nth_error_snoc; auto.
Qed.

Lemma mdeps_agree ss : forall dead vs1 vs2, agree dead vs1 vs2 -> deps_alive dead ss ->
  match mdeps L ss vs1 with
  | Some (ds, vs1') => deps_of vs2 (map copied_dep ss) = Some ds /\ agree (flat_map moves_dep ss ++ dead) vs1' vs2
  | None => deps_of vs2 (map copied_dep ss) = None
  end.
Proof.
  induction ss as [|s ss IH]; intros dead vs1 vs2 Ha Hal; [now split|].
  cbn [deps_alive] in Hal. destruct Hal as [Hs Hal]. destruct s as [s|x]; cbn [mdeps map copied_dep deps_of].
  - assert (Hd : dep_of vs1 s = dep_of vs2 s).
    { destruct s as [x|d|v]; cbn; auto. now rewrite (proj2 Ha x (Hs x (or_introl eq_refl))). }
    rewrite Hd. destruct (dep_of vs2 s) as [o|]; [|reflexivity].
    specialize (IH dead vs1 vs2 Ha Hal). cbn [flat_map moves_dep app].
    destruct (mdeps L ss vs1) as [[ds vs1']|]; cbn [option_map fst snd].
    + destruct IH as [-> IH]. now split.
    + now rewrite IH.
  - cbn [dep_of]. rewrite (proj2 Ha x (Hs x (or_introl eq_refl))).
    destruct (nth_error vs2 x) as [l|]; [|reflexivity]. cbn [option_map].
    specialize (IH (x :: dead) _ vs2 (agree_update_l dead x (moved_from L l) vs1 vs2 Ha) Hal).
    destruct (mdeps L ss (update x (moved_from L l) vs1)) as [[ds vs1']|]; cbn [option_map fst snd].
    + destruct IH as [-> [Hl IH]]. split; [reflexivity|]. split; [exact Hl|]. intros y Hy. apply IH.
      intros Hin. apply Hy. cbn [flat_map moves_dep app In]. apply in_app_iff in Hin. cbn [In] in Hin. rewrite in_app_iff. tauto.
    + now rewrite IH.
Qed.

Lemma moves_copies p : forall dead vs1 vs2 w, agree dead vs1 vs2 -> no_use_after_move dead p ->
  option_map snd (mrun U L p (mkState vs1 w)) = option_map snd (run U (map copying p) (mkState vs2 w)).
Proof.
  induction p as [|o p IH]; intros dead vs1 vs2 w Ha Hp; [reflexivity|]. cbn [mrun map run].
  assert (Hend : forall s1 s2 out1 out2 dead', out1 = out2 -> agree dead' (vars s1) (vars s2) -> world s1 = world s2 ->
    no_use_after_move dead' p ->
    option_map snd match mrun U L p s1 with Some (s', outs) => Some (s', out1 :: outs) | None => None end =
    option_map snd match run U (map copying p) s2 with Some (s', outs) => Some (s', out2 :: outs) | None => None end).
  { intros [v1 w1] [v2 w2] out1 out2 dead' -> Hag Hw Hn. cbn in Hw. subst w2. specialize (IH dead' v1 v2 w1 Hag Hn).
    destruct (mrun U L p (mkState v1 w1)) as [[s' outs]|], (run U (map copying p) (mkState v2 w1)) as [[s'' outs']|];
      cbn in *; congruence. }
  destruct o as [f ss|x|x|x|h]; cbn [no_use_after_move copying mexec exec vars world] in *.
  - destruct Hp as [Hal Hp]. pose proof (mdeps_agree ss dead vs1 vs2 Ha Hal) as Hd.
    destruct (mdeps L ss vs1) as [[ds vs1']|].
    + destruct Hd as [-> Hag]. eapply Hend; [reflexivity| |reflexivity|exact Hp]. cbn. now apply agree_snoc.
    + now rewrite Hd.
  - destruct Hp as [Hx Hp]. rewrite (proj2 Ha x Hx). destruct (nth_error vs2 x) as [l|]; [|reflexivity].
    eapply Hend; [reflexivity| |reflexivity|exact Hp]. cbn. now apply agree_snoc.
  - destruct Hp as [Hx Hp]. rewrite (proj2 Ha x Hx). destruct (nth_error vs2 x) as [l|]; [|reflexivity].
    eapply Hend; [reflexivity| |reflexivity|exact Hp]. cbn. apply agree_snoc. now apply agree_update_l.
  - destruct Hp as [Hx Hp]. rewrite (proj2 Ha x Hx). destruct (nth_error vs2 x) as [l|]; [|reflexivity].
    destruct (step U l w) as [[[r l'] w'] lg].
    eapply Hend; [reflexivity| |reflexivity|exact Hp]. cbn. now apply agree_update.
  - eapply Hend; [reflexivity|exact Ha|reflexivity|exact Hp].
Qed.

Theorem moves_are_copies p w : no_use_after_move [] p ->
  option_map snd (mrun U L p (mkState [] w)) = option_map snd (run U (map copying p) (mkState [] w)).
Proof. apply moves_copies. split; auto. Qed.

(** ** If moving is copying *)
Lemma left_value_same : (forall a, left_atom L a = a) -> forall v : value, left_value L v = v.
Proof.
  intros Ha v. induction v as [a| |l IH|x y IHx IHy| |x IHx] using val_ind'; cbn; try congruence.
  f_equal. induction IH; cbn; congruence.
Qed.

Lemma moved_from_same : leaves_all L -> forall l : lz, moved_from L l = l.
Proof.
  intros (Ha & Hf & Hd) l. induction l as [v ch|g c ds IH] using lz_ind'; cbn [moved_from].
  - now rewrite left_value_same.
  - f_equal.
    + destruct g; cbn; congruence.
    + destruct c; cbn; [now rewrite left_value_same|reflexivity].
    + induction IH; cbn; congruence.
Qed.

Lemma update_same {X} (n : nat) (x : X) l : nth_error l n = Some x -> update n x l = l.
Proof. revert n. induction l as [|y l IH]; intros [|n] H; cbn in *; try congruence. now rewrite IH. Qed.

Theorem trivial_moves : leaves_all L -> forall p s, mrun U L p s = run U (map copying p) s.
Proof.
  intros HL. assert (Hd : forall ss vs, mdeps L ss vs = option_map (fun ds => (ds, vs)) (deps_of vs (map copied_dep ss))).
  { induction ss as [|s ss IH]; intros vs; [reflexivity|]. destruct s as [s|x]; cbn [mdeps map copied_dep deps_of].
    - destruct (dep_of vs s); [|reflexivity]. rewrite IH. destruct (deps_of vs (map copied_dep ss)); reflexivity.
    - cbn [dep_of]. destruct (nth_error vs x) as [l|] eqn:E; [|reflexivity]. cbn [option_map].
      rewrite (moved_from_same HL), (update_same _ _ _ E), IH. destruct (deps_of vs (map copied_dep ss)); reflexivity. }
  induction p as [|o p IH]; intros s; [reflexivity|]. cbn [mrun map run].
  assert (He : mexec U L o s = exec U (copying o) s).
  { destruct o as [f ss|x|x|x|h]; cbn [mexec copying exec]; try reflexivity.
    - rewrite Hd. destruct (deps_of (vars s) (map copied_dep ss)); reflexivity.
    - destruct (nth_error (vars s) x) as [l|] eqn:E; [|reflexivity].
      now rewrite (moved_from_same HL), (update_same _ _ _ E). }
  rewrite He. destruct (exec U (copying o) s) as [[s1 out]|]; [|reflexivity]. now rewrite IH.
Qed.

(** ** Nothing becomes undefined *)
Theorem moves_defined p : forall s s' outs, mrun U L p s = Some (s', outs) ->
  Forall (fun o => fst o <> Some UB) outs.
Proof.
  induction p as [|o p IH]; intros s s' outs H; cbn [mrun] in H.
  - injection H as <- <-. constructor.
  - destruct (mexec U L o s) as [[s1 out]|] eqn:E; [|discriminate].
    destruct (mrun U L p s1) as [[s2 outs']|] eqn:Er; [|discriminate]. injection H as <- <-.
    constructor; [|eauto]. destruct o as [f ss|x|x|x|h]; cbn [mexec exec] in E.
    + destruct (mdeps L ss (vars s)) as [[ds vs]|]; [|discriminate]. injection E as <- <-. discriminate.
    + destruct (nth_error (vars s) x); [|discriminate]. injection E as <- <-. discriminate.
    + destruct (nth_error (vars s) x); [|discriminate]. injection E as <- <-. discriminate.
    + destruct (nth_error (vars s) x) as [l|]; [|discriminate]. pose proof (step_not_ub U l (world s)) as Hu.
      destruct (step U l (world s)) as [[[r l'] w'] lg]. cbn in Hu. injection E as <- <-. cbn.
      destruct r as [[[| | | |] ?]| |]; cbn; congruence.
    + injection E as <- <-. discriminate.
Qed.

(** ** What a moved-from lazy function does *)
Lemma settled_moved (l : lz) : settled_lz (moved_from L l) = settled_lz l.
Proof.
  induction l as [v ch|g c ds IH] using lz_ind'; cbn [moved_from settled_lz]; [reflexivity|].
  f_equal; [now destruct c|]. induction IH as [|d ds Hd Hds IH']; cbn; congruence.
Qed.

Lemma held_moved (l : lz) : held (moved_from L l) = option_map (left_value L) (held l).
Proof. destruct l as [v ch|g [c|] ds]; reflexivity. Qed.

Lemma settled_step (l : lz) : settled_lz l = true -> forall w,
  exists v, held l = Some v /\ step U l w = (Ok (v, false), l, w, []).
Proof.
  induction l as [v ch|g c ds IH] using lz_ind'; intros Hs w; cbn [settled_lz] in Hs.
  - exists v. destruct ch; [discriminate|]. now split.
  - apply andb_true_iff in Hs. destruct Hs as [Hc Hds]. destruct c as [c|]; [|discriminate].
    exists c. split; [reflexivity|]. rewrite step_core.
    assert (Hsteps : exists rs, steps U ds w = (Ok rs, ds, w, []) /\ existsb snd rs = false).
    { clear Hc. induction IH as [|d ds Hd HF IHl]; [exists []; now split|]. cbn [forallb] in Hds. apply andb_true_iff in Hds.
      destruct Hds as [H1 H2]. destruct (Hd H1 w) as (v & _ & Es). destruct (IHl H2) as (rs & Er & Hrs).
      exists ((v, false) :: rs). rewrite steps_cons, Es, Er. now split. }
    destruct Hsteps as (rs & -> & Hrs). rewrite core_eq. cbn [is_some negb orb]. now rewrite Hrs.
Qed.

(** What has been evaluated for good is not evaluated again: the moved-from lazy function
    keeps returning what the move has left. *)
Theorem settled_leaves (l : lz) : settled_lz l = true -> forall w,
  exists v, held l = Some v /\
    step U l w = (Ok (v, false), l, w, []) /\
    step U (moved_from L l) w = (Ok (left_value L v, false), moved_from L l, w, []).
Proof.
  intros Hs w. destruct (settled_step l Hs w) as (v & Hv & E). exists v. split; [exact Hv|]. split; [exact E|].
  rewrite <- settled_moved in Hs. destruct (settled_step _ Hs w) as (v' & Hv' & E').
  rewrite held_moved, Hv in Hv'. cbn in Hv'. injection Hv' as <-. exact E'.
Qed.

(** Whatever is built from constants is settled once a call has returned. *)
Lemma const_settled (l : lz) : forall e w x l' w' lg,
  has_shape U e l -> const_only e -> step U l w = (Ok x, l', w', lg) -> settled_lz l' = true.
Proof.
  induction l as [v ch|g c ds IH] using lz_ind'; intros e w x l' w' lg Hs Hc E.
  - inversion Hs; subst. cbn in E. injection E as <- <- <- <-. reflexivity.
  - inversion Hs as [|d c0|f c0 es ls Hes]; subst; [destruct Hc|]. apply const_only_app in Hc.
    rewrite step_core in E. destruct (steps U ds w) as [[[rs ds'] w1] l1] eqn:Es. destruct rs as [rs| |]; try discriminate.
    destruct (core U (FnUser f) c rs w1) as [[[r c'] w2] l2] eqn:Ec. injection E as -> <- <- <-.
    cbn [settled_lz]. apply andb_true_iff. split.
    + rewrite core_eq in Ec. destruct (negb (is_some c) || existsb snd rs).
      * destruct (call_fn U _ _ w1) as [[[u|] wz] lz]; [|discriminate]. injection Ec as _ <- _ _. reflexivity.
      * destruct c; [|discriminate]. injection Ec as _ <- _ _. reflexivity.
    + clear Hs Ec l2. revert w rs ds' w1 l1 Es. induction Hes as [|e d es ds Hed Hes IHes]; intros w rs ds' w1 l1 Es.
      * injection Es as <- <- <- <-. reflexivity.
      * inversion IH as [|? ? IH1 IH2]; subst. inversion Hc as [|? ? Hc1 Hc2]; subst. rewrite steps_cons in Es.
        destruct (step U d w) as [[[rd d'] wa] la] eqn:Ed. destruct rd as [y| |]; try discriminate.
        destruct (steps U ds wa) as [[[rs' ds''] wb] lb] eqn:Els. destruct rs' as [ys| |]; try discriminate.
        injection Es as <- <- <- <-. cbn [forallb]. apply andb_true_iff. eauto.
Qed.

Theorem moved_constants p w s outs es x e s1 v lg :
  run U p (mkState [] w) = Some (s, outs) -> shapes p [] = Some es -> nth_error es x = Some e -> const_only e ->
  exec U (Call x) s = Some (s1, (Some (Ok v), lg)) ->
  exists s2, mexec U L (MMove x) s1 = Some (s2, (None, [])) /\
    forall q s3 outs3, run U q s2 = Some (s3, outs3) ->
      Forall (fun o => o = (Some (Ok (option_map (left_value L) v)), [])) (outputs_of x q outs3) /\
      Forall (fun o => o = (Some (Ok v), [])) (outputs_of (length (vars s1)) q outs3).
Proof.
  intros Hr Hs Hx Hc He. destruct (program_var _ _ _ _ _ _ _ _ Hr Hs Hx) as (l & Hl & Hshape).
  destruct (exec_call_inv _ _ _ _ _ _ He) as (l0 & l' & r' & Hl0 & Hstep & Hres & Hvars).
  rewrite Hl in Hl0. injection Hl0 as <-.
  symmetry in Hres. destruct (api_result_Ok_inv _ _ Hres) as (u & ch & -> & ->).
  pose proof (const_settled l e _ _ _ _ _ Hshape Hc Hstep) as Hset.
  assert (Hlen : x < length (vars s)) by (apply nth_error_Some; congruence).
  assert (Hx1 : nth_error (vars s1) x = Some l').
  { rewrite Hvars, nth_error_update, Nat.eqb_refl. apply Nat.ltb_lt in Hlen. now rewrite Hlen. }
  assert (Hlen1 : x < length (vars s1)) by (apply nth_error_Some; congruence).
  cbn [mexec]. rewrite Hx1. eexists. split; [reflexivity|]. intros q s3 outs3 Hq.
  assert (Hu : held l' = Some u).
  { destruct (settled_step l' Hset (world s)) as (u' & Hu' & Es').
    pose proof (const_done U l e _ _ _ _ _ _ Hshape Hc Hstep (world s)) as Hd. congruence. }
  assert (Hafter : forall w2, step U l' w2 = (Ok (u, false), l', w2, []) /\
            step U (moved_from L l') w2 = (Ok (left_value L u, false), moved_from L l', w2, [])).
  { intros w2. destruct (settled_leaves l' Hset w2) as (u' & Hu' & E1 & E2). rewrite Hu in Hu'. injection Hu' as <-. now split. }
  split.
  - assert (Hvis : option_map (left_value L) (visible u) = visible (left_value L u)) by (destruct u; reflexivity).
    rewrite Hvis. destruct (run_var_inv U (fun l => l = moved_from L l') (fun o => o = (Some (Ok (visible (left_value L u))), [])) x)
      with (p := q) (s := mkState (update x (moved_from L l') (vars s1) ++ [l']) (world s1)) (s' := s3) (outs := outs3) (l := moved_from L l')
      as [Hall _]; auto.
    + intros l1 w1 r l2 w2 lg2 -> Hs2. rewrite (proj2 (Hafter w1)) in Hs2. injection Hs2 as <- <- <- <-. now rewrite api_result_visible.
    + cbn. rewrite nth_error_app1 by (now rewrite update_length). rewrite nth_error_update, Nat.eqb_refl.
      apply Nat.ltb_lt in Hlen1. now rewrite Hlen1.
  - destruct (run_var_inv U (fun l => l = l') (fun o => o = (Some (Ok (visible u)), [])) (length (vars s1)))
      with (p := q) (s := mkState (update x (moved_from L l') (vars s1) ++ [l']) (world s1)) (s' := s3) (outs := outs3) (l := l')
      as [Hall _]; auto.
    + intros l1 w1 r l2 w2 lg2 -> Hs2. rewrite (proj1 (Hafter w1)) in Hs2. injection Hs2 as <- <- <- <-. now rewrite api_result_visible.
    + cbn. rewrite nth_error_app2 by (rewrite update_length; lia). rewrite update_length, Nat.sub_diag. reflexivity.
Qed.

(** ** When old values cannot do harm *)
Definition loud (l : lz) : bool := match l with LValue _ ch => ch | LCore _ _ _ => true end.

Lemma no_comparisons_app (a b : list event) : no_comparisons (a ++ b) = no_comparisons a ++ no_comparisons b.
Proof. apply filter_app. Qed.

Lemma call_fn_no_cmp g args w r w' lg : call_fn U g args w = (r, w', lg) -> no_comparisons lg = lg.
Proof.
  destruct g as [f|d]; cbn [call_fn].
  - destruct (sem U f args w). intros H. injection H as <- <- <-. reflexivity.
  - destruct (dsem U d w). intros H. injection H as <- <- <-. reflexivity.
Qed.

Definition recovers_at (l : lz) : Prop := forall w v ch l' w' lg,
  step U (uncalled l) w = (Ok (v, ch), l', w', lg) -> all_differ (opt_ne (aeq U)) l l' = true -> live l = true ->
  exists lg', step U l w = (Ok (v, loud l), l', w', lg') /\ no_comparisons lg' = lg.

Fixpoint all_differ_list (ds ds' : list lz) : bool :=
  match ds, ds' with
  | d :: ds1, d' :: ds1' => all_differ (opt_ne (aeq U)) d d' && all_differ_list ds1 ds1'
  | [], [] => true
  | _, _ => false
  end.

Lemma recover_steps ds : Forall recovers_at ds -> forall w rs ds' w' lg,
  steps U (map uncalled ds) w = (Ok rs, ds', w', lg) -> all_differ_list ds ds' = true -> forallb live ds = true ->
  exists rs' lg', steps U ds w = (Ok rs', ds', w', lg') /\ map fst rs' = map fst rs /\ map snd rs' = map loud ds /\
    no_comparisons lg' = lg.
Proof.
  induction 1 as [|d ds Hd Hds IH]; intros w rs ds' w' lg E Hn Hl.
  - cbn in E. injection E as <- <- <- <-. exists [], []. now repeat split.
  - cbn [map] in E. rewrite steps_cons in E. destruct (step U (uncalled d) w) as [[[r d'] w1] l1] eqn:E1.
    destruct r as [[v ch]| |]; try discriminate.
    destruct (steps U (map uncalled ds) w1) as [[[rs0 ds0] w2] l2] eqn:E2.
    destruct rs0 as [rs1| |]; try discriminate. injection E as <- <- <- <-.
    cbn [all_differ_list forallb] in Hn, Hl. apply andb_true_iff in Hn, Hl. destruct Hn as [Hn1 Hn2], Hl as [Hl1 Hl2].
    destruct (Hd _ _ _ _ _ _ E1 Hn1 Hl1) as (lg1 & Es & Hlg1).
    destruct (IH _ _ _ _ _ E2 Hn2 Hl2) as (rs' & lg2 & Er & Hf & Hs & Hlg2).
    exists ((v, loud d) :: rs'), (lg1 ++ lg2). rewrite steps_cons, Es, Er.
    split; [reflexivity|]. split; [cbn; now rewrite Hf|]. split; [cbn; now rewrite Hs|].
    rewrite no_comparisons_app. congruence.
Qed.

Lemma recovers_everywhere (l : lz) : recovers_at l.
Proof.
  induction l as [v0 ch0|g c ds IH] using lz_ind'; intros w v ch l' w' lg E Hn Hl.
  - cbn in E. injection E as <- <- <- <- <-. exists []. now split.
  - cbn [uncalled] in E. rewrite step_core in E.
    destruct (steps U (map uncalled ds) w) as [[[rs ds'] w1] l1] eqn:Es.
    destruct rs as [rs| |]; try discriminate. rewrite core_eq in E. cbn [is_some negb orb] in E.
    destruct (call_fn U g (ctad_tuple as_tuple (map fst rs)) w1) as [[r w2] l2] eqn:Ec.
    destruct r as [res|]; [|discriminate]. injection E as <- <- <- <- <-.
    cbn [all_differ] in Hn. apply andb_true_iff in Hn. destruct Hn as [Hne Hn].
    cbn [live] in Hl. apply andb_true_iff in Hl. destruct Hl as [Hloud Hl].
    destruct (recover_steps ds IH _ _ _ _ _ Es Hn Hl) as (rs' & lg' & Er & Hf & Hs & Hlg).
    rewrite step_core, Er, core_eq.
    assert (Hch : existsb snd rs' = true).
    { change (fun d => match d with LValue _ ch => ch | LCore _ _ _ => true end) with loud in Hloud.
      apply existsb_exists in Hloud. destruct Hloud as (d & Hin & Hd). apply (in_map loud) in Hin.
      rewrite Hd, <- Hs in Hin. apply in_map_iff in Hin. destruct Hin as (x & Hx & Hin). apply existsb_exists. eauto. }
    rewrite Hch, orb_true_r, Hf, Ec, Hne. eexists. split; [reflexivity|].
    rewrite !no_comparisons_app, Hlg, (call_fn_no_cmp _ _ _ _ _ _ Ec), app_nil_r. f_equal. destruct c; cbn; now rewrite ?app_nil_r.
Qed.

(** Whatever its caches hold, a call of a lazy function does the same as the first call of
    one never called, apart from comparisons, if no function returns again what its cache
    holds. *)
Theorem recovers (l : lz) w v ch l' w' lg : live l = true ->
  step U (uncalled l) w = (Ok (v, ch), l', w', lg) -> all_differ (opt_ne (aeq U)) l l' = true ->
  exists ch' lg', step U l w = (Ok (v, ch'), l', w', lg') /\ no_comparisons lg' = lg.
Proof. intros Hl E Hn. destruct (recovers_everywhere l w v ch l' w' lg E Hn Hl) as (lg' & H). eauto. Qed.

Lemma uncalled_moved (l : lz) : leaves_functions L -> keeps_constants L l -> uncalled (moved_from L l) = uncalled l.
Proof.
  intros [Hf Hd]. induction l as [v ch|g c ds IH] using lz_ind'; intros Hk; cbn [moved_from uncalled].
  - cbn in Hk. now rewrite Hk.
  - f_equal; [destruct g; cbn; congruence|]. cbn [keeps_constants] in Hk.
    induction IH as [|d ds Hd' HF IHl]; [reflexivity|]. destruct Hk as [H1 H2]. cbn [map]. now rewrite (Hd' H1), (IHl H2).
Qed.

(** So a moved-from lazy function that finds nothing as the move has left it is as good as
    one never called. *)
Theorem moved_recovers (l : lz) w v ch l' w' lg : leaves_functions L -> keeps_constants L l -> live (moved_from L l) = true ->
  step U (uncalled l) w = (Ok (v, ch), l', w', lg) -> all_differ (opt_ne (aeq U)) (moved_from L l) l' = true ->
  exists ch' lg', step U (moved_from L l) w = (Ok (v, ch'), l', w', lg') /\ no_comparisons lg' = lg.
Proof. intros HL Hk Hl E. rewrite <- (uncalled_moved l HL Hk) in E. now apply recovers with (ch := ch). Qed.

Lemma uncalled_left (l : lz) : uncalled (moved_from L l) = left_uncalled L l.
Proof.
  induction l as [v ch|g c ds IH] using lz_ind'; [reflexivity|].
  assert (E : map uncalled (map (moved_from L) ds) = map (left_uncalled L) ds).
  { rewrite map_map. now apply map_ext_Forall. }
  cbn [moved_from uncalled left_uncalled]. rewrite E. now destruct g.
Qed.

Theorem moved_rebuilt (l : lz) w v ch l' w' lg : live (moved_from L l) = true ->
  step U (left_uncalled L l) w = (Ok (v, ch), l', w', lg) -> all_differ (opt_ne (aeq U)) (moved_from L l) l' = true ->
  exists ch' lg', step U (moved_from L l) w = (Ok (v, ch'), l', w', lg') /\ no_comparisons lg' = lg.
Proof. intros Hl E. rewrite <- uncalled_left in E. now apply recovers with (ch := ch). Qed.
End Thms.

(** ** A moved-from lazy function that returns a wrong value *)
Theorem moved_from_wrong :
  exists (U : user nat (nat * nat) nat bool) pf rd (L : leavings nat nat bool) p w es vals,
  pure_user U pf rd /\ exact_eq U /\ leaves_functions L /\
  eager pf rd (map copying p) [] w = Some (es, vals) /\
  Forall (regular pf rd) es /\ Forall (never_null pf rd) es /\
  option_map (fun r => results (snd r)) (mrun U L p (mkState [] w)) <> Some (map Ok vals).
Proof.
  exists ex_user, ex_pf, ex_rd, (mkLeavings (fun _ => 0) (fun f => f) (fun d => d)),
    [MNew 4 [MDep (DFun true)]; MCall 0; MMove 0; MEnv (fun _ => (0, 0)); MCall 0], (5, 3).
  eexists _, _. split; [exact ex_pure|]. split; [exact ex_exact|]. split; [now split|].
  split; [vm_compute; reflexivity|].
  split; [repeat constructor|]. split; [repeat constructor; intros w; cbn; auto|].
  vm_compute. discriminate.
Qed.
