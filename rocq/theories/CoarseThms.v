(** Proofs about two equalities. *)
From Coq Require Import List Bool Arith Lia.
From Verif Require Import Value TupleAlg TupleAlgProofs LazyModel LazySpec LazySpec2 LazyProofs LazyExamples
  LazyGeneral RelateSpec RelateThms CoarseSpec.
Import ListNotations.

Section Coarse.
Context {A W fid did : Type}.
Notation value := (val A).
Notation lz := (lz A fid did).
Variables U1 U2 : user A W fid did.
Variable pf : fid -> list value -> option value.
Variable rd : did -> W -> value.
Hypothesis H1 : pure_user U1 pf rd.
Hypothesis H2 : pure_user U2 pf rd.
Hypothesis Hfiner : finer (aeq U1) (aeq U2).
Hypothesis Hrefl : forall a, aeq U2 a a = true.
Hypothesis Hsym : forall a b, aeq U2 a b = aeq U2 b a.
Hypothesis Htrans : forall a b c, aeq U2 a b = true -> aeq U2 b c = true -> aeq U2 a c = true.
Hypothesis Hresp : forall f xs ys, Forall2 (fun x y => veq (aeq U2) x y = true) xs ys ->
  veq (aeq U2) (fval pf f xs) (fval pf f ys) = true.
Hypothesis Hun : flat pf rd.

Definition sim (x y : value) : Prop := veq (aeq U2) x y = true.
Lemma sim_refl x : sim x x.
Proof. apply veq_refl. exact Hrefl. Qed.
Lemma sim_sym x y : sim x y -> sim y x.
Proof. unfold sim. now rewrite (veq_sym (aeq U2) Hsym). Qed.
Lemma sim_trans x y z : sim x y -> sim y z -> sim x z.
Proof. apply veq_trans. exact Htrans. Qed.

Lemma veq_list (e : A -> A -> bool) l m : veq e (VTuple l) (VTuple m) = true -> Forall2 (fun x y => veq e x y = true) l m.
Proof.
  cbn. revert m. induction l as [|x l IH]; intros [|y m] H; try discriminate; constructor.
  - now apply andb_true_iff in H as [H _].
  - apply IH. now apply andb_true_iff in H as [_ H].
Qed.
Lemma finer_veq : forall x y, veq (aeq U1) x y = true -> sim x y.
Proof.
  unfold sim. induction x as [a| |l IH|x1 x2 IHx1 IHx2| |x IH] using val_ind'; intros [b| |m|y1 y2|[y|]]; cbn; try discriminate; auto.
  - revert m. induction IH as [|x l Hx Hl IHl]; intros [|y m]; try discriminate; auto.
    intros H. apply andb_true_iff in H as [Ha Hb]. now rewrite (Hx _ Ha), (IHl _ Hb).
  - intros H. apply andb_true_iff in H as [Ha Hb]. now rewrite (IHx1 _ Ha), (IHx2 _ Hb).
Qed.

Lemma sim_as_tuple x y : sim x y -> both (Forall2 sim) (as_tuple x) (as_tuple y).
Proof.
  unfold sim. destruct x as [a| |l|x1 x2|[x|]], y as [b| |m|y1 y2|[y|]]; try discriminate; intros H; try exact I.
  - now apply veq_list in H.
  - cbn in H. apply andb_true_iff in H as [Ha Hb]. repeat constructor; assumption.
Qed.
Lemma sim_ctad xs ys : Forall2 sim xs ys -> Forall2 sim (ctad_tuple as_tuple xs) (ctad_tuple as_tuple ys).
Proof.
  intros [|x y xs' ys' Hx Hxs]; [constructor|]. destruct Hxs as [|x2 y2 xs' ys' Hx2 Hxs].
  - cbn. pose proof (sim_as_tuple _ _ Hx) as H. destruct (as_tuple x), (as_tuple y); cbn in H; try contradiction; auto.
  - cbn. auto.
Qed.
Lemma sims_sym xs ys : Forall2 sim xs ys -> Forall2 sim ys xs.
Proof. induction 1; constructor; auto using sim_sym. Qed.
Lemma sims_trans xs ys zs : Forall2 sim xs ys -> Forall2 sim ys zs -> Forall2 sim xs zs.
Proof.
  intros H. revert zs. induction H as [|x y xs ys Hx H IH]; intros zs Hz; inversion Hz; subst; constructor; eauto using sim_trans.
Qed.

Lemma null_sim x y : sim x y -> has_nullopt x = has_nullopt y.
Proof.
  revert y. induction x as [a| |l IH|x1 x2 IHx1 IHx2| |x IH] using val_ind'; intros [b| |m|y1 y2|[y|]]; try discriminate; try reflexivity.
  exact (IH y).
Qed.
Lemma opt_ne_null (e : A -> A -> bool) x y : nested_opt y = false -> has_nullopt y = true -> opt_ne e (Some x) y = true.
Proof. destruct y as [| | | |[[| | | |]|]]; cbn; try discriminate; reflexivity. Qed.

(** A change that the coarser equality sees. *)
Lemma flags c1 c2 r1 r2 : both sim c1 c2 -> sim r1 r2 -> nested_opt r1 = false ->
  opt_ne (aeq U2) c2 r2 = true -> opt_ne (aeq U1) c1 r1 = true.
Proof.
  intros Hc Hr Hn E. destruct (opt_ne (aeq U1) c1 r1) eqn:E1; [reflexivity|]. exfalso.
  destruct c1 as [c1|], c2 as [c2|]; cbn in Hc; try contradiction.
  - destruct (has_nullopt r1) eqn:En; [rewrite (opt_ne_null _ _ _ Hn En) in E1; discriminate|].
    apply opt_ne_unnested in E1; [|exact Hn]. apply finer_veq in E1.
    rewrite opt_ne_nonnull in E by (now rewrite <- (null_sim _ _ Hr)).
    assert (K : sim c2 r2) by (apply sim_trans with c1; [now apply sim_sym|]; now apply sim_trans with r1).
    unfold sim in K. now rewrite K in E.
  - assert (K : forall e (r : value), opt_ne e None r = match r with VOpt None => false | _ => true end)
      by (intros e [| | | |[|]]; reflexivity).
    rewrite K in E, E1. destruct r1 as [| | | |[|]]; try discriminate. now destruct r2 as [| | | |[|]].
Qed.

Inductive holds : lz -> value -> Prop :=
| holds_value v b : holds (LValue v b) v
| holds_core g c ds : holds (LCore g (Some c) ds) c.
Inductive pair : lz -> lz -> Prop :=
| pair_value v : pair (LValue v false) (LValue v false)
| pair_user f c1 c2 ds1 ds2 : both sim c1 c2 -> Forall2 pair ds1 ds2 ->
    (forall v, c2 = Some v -> exists vs, Forall2 holds ds2 vs /\ sim v (fval pf f (ctad_tuple as_tuple vs))) ->
    pair (LCore (FnUser f) c1 ds1) (LCore (FnUser f) c2 ds2)
| pair_sample d c1 c2 v v' : both sim c1 c2 ->
    pair (LCore (FnSample d) c1 [LValue v true]) (LCore (FnSample d) c2 [LValue v' true]).

(** One call in both runs. *)
Definition calls_pair (l2 : lz) (r1 r2 : res (value * bool) * lz * W * list (event A fid did)) (w : W) : Prop :=
  exists v1 b1 l1' lg1 v2 b2 l2' lg2,
    r1 = (Ok (v1, b1), l1', w, lg1) /\ r2 = (Ok (v2, b2), l2', w, lg2) /\
    pair l1' l2' /\ sim v1 v2 /\ (b2 = true -> b1 = true) /\ holds l2' v2 /\
    (b2 = false -> forall u, holds l2 u -> sim u v2) /\ subseq (evaluations lg2) (evaluations lg1).

Lemma steps_pair ls1 : Forall (fun l1 => forall l2 w, pair l1 l2 -> calls_pair l2 (step U1 l1 w) (step U2 l2 w) w) ls1 ->
  forall ls2 w, Forall2 pair ls1 ls2 ->
  exists xs1 ls1' lg1 xs2 ls2' lg2,
    steps_with (step U1) ls1 w = (Ok xs1, ls1', w, lg1) /\ steps_with (step U2) ls2 w = (Ok xs2, ls2', w, lg2) /\
    Forall2 pair ls1' ls2' /\ Forall2 sim (map fst xs1) (map fst xs2) /\ (existsb snd xs2 = true -> existsb snd xs1 = true) /\
    Forall2 holds ls2' (map fst xs2) /\
    (existsb snd xs2 = false -> forall us, Forall2 holds ls2 us -> Forall2 sim us (map fst xs2)) /\
    subseq (evaluations lg2) (evaluations lg1).
Proof.
  induction 1 as [|l1 ls1 Hl Hls IH]; intros ls2 w Hp; inversion Hp as [|? l2 ? ls2' Hp1 Hp2]; subst.
  - exists [], [], [], [], [], []. cbn. repeat split; auto using subseq_nil. intros _ us Hu. inversion Hu. constructor.
  - destruct (Hl l2 w Hp1) as (v1 & b1 & l1' & lg1 & v2 & b2 & l2' & lg2 & E1 & E2 & P & S & B & Ho & Hk & Hs).
    destruct (IH ls2' w Hp2) as (xs1 & k1 & lgs1 & xs2 & k2 & lgs2 & F1 & F2 & Ps & Ss & Bs & Hos & Hks & Hss).
    cbn [steps_with]. rewrite E1, E2. cbn [steps_with] in F1, F2. rewrite F1, F2.
    do 6 eexists. split; [reflexivity|]. split; [reflexivity|]. split; [auto|]. split; [cbn; auto|]. split.
    + cbn. intros H. apply orb_true_iff in H as [H|H]; [now rewrite (B H)|]. rewrite (Bs H). apply orb_true_r.
    + split; [cbn; auto|]. split.
      * cbn. intros H. apply orb_false_iff in H as [Ha Hb]. intros us Hu. inversion Hu; subst. constructor; auto.
      * rewrite !evaluations_app. now apply subseq_app.
Qed.

Lemma pure_call1 f xs w : call_fn U1 (FnUser f) xs w = (VRet (fval pf f xs), w, [EvCall f xs]).
Proof. unfold call_fn. rewrite (proj1 H1). unfold fval. now destruct (pf f xs). Qed.
Lemma pure_call2 f xs w : call_fn U2 (FnUser f) xs w = (VRet (fval pf f xs), w, [EvCall f xs]).
Proof. unfold call_fn. rewrite (proj1 H2). unfold fval. now destruct (pf f xs). Qed.
Lemma fval_flat f xs : nested_opt (fval pf f xs) = false.
Proof. unfold fval. destruct (pf f xs) eqn:E; [exact (proj1 Hun _ _ _ E)|reflexivity]. Qed.
Lemma evaluations_cmp (o : option value) (r : value) :
  evaluations (fid:=fid) (did:=did) match o with None => [] | Some c => [EvCmp c r] end = [].
Proof. now destruct o. Qed.
Lemma subseq_none {X} (l : list X) : subseq [] l.
Proof. induction l; constructor; auto. Qed.

Lemma step_pair : forall l1 l2 w, pair l1 l2 -> calls_pair l2 (step U1 l1 w) (step U2 l2 w) w.
Proof.
  induction l1 as [v ch|g c ds IH] using lz_ind'; intros l2 w Hp; inversion Hp as [|f ? c2 ? ds2 Hc Hds Hset|d ? c2 u0 v' Hc]; subst.
  - exists v, false, (LValue v false), [], v, false, (LValue v false), []. cbn.
    repeat split; auto using sim_refl, subseq_nil; try constructor. intros _ u Hu. inversion Hu; subst. apply sim_refl.
  - destruct (steps_pair ds IH ds2 w Hds) as (xs1 & k1 & lgs1 & xs2 & k2 & lgs2 & F1 & F2 & Ps & Ss & Bs & Hos & Hks & Hss).
    cbn [step]. rewrite F1, F2, !ctad_none, !core_unfold.
    assert (Hf : sim (fval pf f (ctad_tuple as_tuple (map fst xs1))) (fval pf f (ctad_tuple as_tuple (map fst xs2))))
      by (apply Hresp, sim_ctad, Ss).
    assert (Hnew : forall v, sim v (fval pf f (ctad_tuple as_tuple (map fst xs2))) ->
      forall u, Some v = Some u -> exists vs, Forall2 holds k2 vs /\ sim u (fval pf f (ctad_tuple as_tuple vs))).
    { intros v Hv u E. injection E as <-. exists (map fst xs2). auto. }
    destruct (negb (is_some c2) || existsb snd xs2) eqn:E2.
    + assert (E1 : negb (is_some c) || existsb snd xs1 = true).
      { rewrite (is_some_rel _ _ _ Hc). apply orb_true_iff in E2 as [->|E2]; [reflexivity|]. rewrite (Bs E2). apply orb_true_r. }
      rewrite E1, pure_call1, pure_call2. cbn [opt_neq].
      do 8 eexists. split; [reflexivity|]. split; [reflexivity|]. split; [constructor; auto; apply Hnew, sim_refl|].
      split; [exact Hf|]. split; [intros H; exact (flags c c2 _ _ Hc Hf (fval_flat _ _) H)|]. split; [constructor|]. split.
      * intros H u Hu. inversion Hu; subst. apply opt_ne_unnested; [apply fval_flat|exact H].
      * rewrite !evaluations_app, !evaluations_cmp, !app_nil_r. apply subseq_app; [exact Hss|]. apply subseq_refl.
    + apply orb_false_iff in E2 as [Es Eb]. destruct c2 as [u|]; [|discriminate]. destruct c as [u1|]; [|contradiction].
      destruct (Hset u eq_refl) as (vs & Hvs & Hu). pose proof (Hks Eb vs Hvs) as Sus.
      assert (Hu2 : sim u (fval pf f (ctad_tuple as_tuple (map fst xs2)))).
      { eapply sim_trans; [exact Hu|]. apply Hresp, sim_ctad, Sus. }
      destruct (negb (is_some (Some u1)) || existsb snd xs1) eqn:E1.
      * rewrite pure_call1. cbn [opt_neq]. do 8 eexists. split; [reflexivity|]. split; [reflexivity|].
        assert (Hnu : sim (fval pf f (ctad_tuple as_tuple (map fst xs1))) u).
        { eapply sim_trans; [exact Hf|]. now apply sim_sym. }
        split; [constructor; [exact Hnu|exact Ps|now apply Hnew]|]. split; [exact Hnu|]. split; [discriminate|].
        split; [constructor|]. split; [intros _ u' Hu'; inversion Hu'; subst; apply sim_refl|].
        rewrite !evaluations_app. apply subseq_app; [exact Hss|apply subseq_none].
      * do 8 eexists. split; [reflexivity|]. split; [reflexivity|].
        split; [constructor; [exact Hc|exact Ps|now apply Hnew]|]. split; [exact Hc|]. split; [discriminate|].
        split; [constructor|]. split; [intros _ u' Hu'; inversion Hu'; subst; apply sim_refl|].
        rewrite !app_nil_r. exact Hss.
  - cbn [step steps_with]. rewrite !core_unfold. cbn [ctad_tuple existsb snd orb]. rewrite !orb_true_r. unfold call_fn.
    rewrite (proj2 H1), (proj2 H2). cbn [opt_neq].
    do 8 eexists. split; [reflexivity|]. split; [reflexivity|]. split; [constructor; apply sim_refl|]. split; [apply sim_refl|].
    split; [intros H; exact (flags c c2 _ _ Hc (sim_refl _) (proj2 Hun d w) H)|]. split; [constructor|]. split.
    + intros H u Hu. inversion Hu; subst. apply opt_ne_unnested; [apply (proj2 Hun)|exact H].
    + destruct c, c2; cbn; apply subseq_refl.
Qed.

(** Programs *)
Lemma api_sim v1 v2 b1 b2 : sim v1 v2 ->
  exists o1 o2, api_result (Ok (v1, b1)) = Ok o1 /\ api_result (Ok (v2, b2)) = Ok o2 /\ both sim o1 o2.
Proof.
  intros H. destruct v1 as [| | | |[|]], v2 as [| | | |[|]]; try discriminate; cbn; do 2 eexists; (split; [reflexivity|]; split; [reflexivity|]); cbn; auto.
Qed.

Lemma deps_pair vs1 vs2 ss : Forall2 pair vs1 vs2 ->
  both (fun os1 os2 => Forall2 pair (map (ensure_lazy U1) os1) (map (ensure_lazy U2) os2)) (deps_of vs1 ss) (deps_of vs2 ss).
Proof.
  intros Hv. induction ss as [|s ss IH]; cbn [deps_of]; [constructor|].
  assert (H : both (fun o o' => pair (ensure_lazy U1 o) (ensure_lazy U2 o')) (dep_of vs1 s) (dep_of vs2 s)).
  { destruct s as [x|d|v]; cbn.
    - pose proof (nth_rel _ _ _ Hv x) as Hx. destruct (nth_error vs1 x), (nth_error vs2 x); cbn in Hx |- *; auto.
    - now apply pair_sample.
    - constructor. }
  destruct (dep_of vs1 s), (dep_of vs2 s); cbn in H; try contradiction; [|exact I].
  destruct (deps_of vs1 ss), (deps_of vs2 ss); cbn in IH |- *; try contradiction; auto.
Qed.

(** C88 (1) *)
Lemma coarse_runs p : forall vs1 vs2 w s1 outs1 s2 outs2, Forall2 pair vs1 vs2 ->
  run U1 p (mkState vs1 w) = Some (s1, outs1) -> run U2 p (mkState vs2 w) = Some (s2, outs2) ->
  Forall2 (fewer (aeq U2)) outs1 outs2.
Proof.
  induction p as [|o p IH]; intros vs1 vs2 w s1 outs1 s2 outs2 Hv E1 E2; cbn [run] in E1, E2.
  - injection E1 as <- <-. injection E2 as <- <-. constructor.
  - destruct o as [f ss|x|x|h]; cbn [exec vars world] in E1, E2.
    + pose proof (deps_pair vs1 vs2 ss Hv) as Hd. destruct (deps_of vs1 ss), (deps_of vs2 ss); try discriminate; cbn in Hd.
      destruct (run U1 p _) as [[t1 o1]|] eqn:R1; [|discriminate]. destruct (run U2 p _) as [[t2 o2]|] eqn:R2; [|discriminate].
      injection E1 as <- <-. injection E2 as <- <-. constructor; [split; [exact I|apply subseq_nil]|].
      refine (IH _ _ _ _ _ _ _ _ R1 R2). apply Forall2_app; [exact Hv|]. constructor; [|constructor].
      constructor; [exact I|exact Hd|discriminate].
    + pose proof (nth_rel _ _ _ Hv x) as Hx. destruct (nth_error vs1 x), (nth_error vs2 x); try discriminate; cbn in Hx.
      destruct (run U1 p _) as [[t1 o1]|] eqn:R1; [|discriminate]. destruct (run U2 p _) as [[t2 o2]|] eqn:R2; [|discriminate].
      injection E1 as <- <-. injection E2 as <- <-. constructor; [split; [exact I|apply subseq_nil]|].
      refine (IH _ _ _ _ _ _ _ _ R1 R2). apply Forall2_app; auto.
    + pose proof (nth_rel _ _ _ Hv x) as Hx. destruct (nth_error vs1 x) as [l1|], (nth_error vs2 x) as [l2|]; try discriminate; cbn in Hx.
      destruct (step_pair l1 l2 w Hx) as (v1 & b1 & l1' & lg1 & v2 & b2 & l2' & lg2 & F1 & F2 & P & S & _ & _ & _ & Hs).
      rewrite F1 in E1. rewrite F2 in E2.
      destruct (run U1 p _) as [[t1 o1]|] eqn:R1; [|discriminate]. destruct (run U2 p _) as [[t2 o2]|] eqn:R2; [|discriminate].
      injection E1 as <- <-. injection E2 as <- <-. constructor.
      * split; [|exact Hs]. exact (api_sim v1 v2 b1 b2 S).
      * refine (IH _ _ _ _ _ _ _ _ R1 R2). now apply update_rel.
    + destruct (run U1 p _) as [[t1 o1]|] eqn:R1; [|discriminate]. destruct (run U2 p _) as [[t2 o2]|] eqn:R2; [|discriminate].
      injection E1 as <- <-. injection E2 as <- <-. constructor; [split; [exact I|apply subseq_nil]|].
      exact (IH _ _ _ _ _ _ _ Hv R1 R2).
Qed.
End Coarse.

Lemma coarser_fewer {A W fid did} (U1 U2 : user A W fid did) pf rd :
  pure_user U1 pf rd -> pure_user U2 pf rd -> flat pf rd -> finer (aeq U1) (aeq U2) ->
  (forall a, aeq U2 a a = true) -> (forall a b, aeq U2 a b = aeq U2 b a) ->
  (forall a b c, aeq U2 a b = true -> aeq U2 b c = true -> aeq U2 a c = true) ->
  (forall f xs ys, Forall2 (fun x y => veq (aeq U2) x y = true) xs ys -> veq (aeq U2) (fval pf f xs) (fval pf f ys) = true) ->
  forall p w s1 outs1 s2 outs2,
  run U1 p (mkState [] w) = Some (s1, outs1) -> run U2 p (mkState [] w) = Some (s2, outs2) ->
  Forall2 (fewer (aeq U2)) outs1 outs2.
Proof.
  intros H1 H2 Hf Hfi Hr Hs Ht Hc p w s1 outs1 s2 outs2. now apply (coarse_runs U1 U2 pf rd H1 H2 Hfi Hr Hs Ht Hc Hf).
Qed.

(** ** Examples *)
Definition sum_user : user nat (nat * nat) nat bool :=
  mkUser (fun f args w => (FRet (sum_pf f args), w)) (fun d w => (VRet (ex_rd d w), w)) Nat.eqb 0.

(** A half of an input, and a sum of that.  In the last call the coarser equality sees a change of
    the half that the other saw before. *)
Definition half_program : list (op nat (nat * nat) nat bool) :=
  [New 3 [DFun true]; New 0 [DVar 0]; Call 1; Env (set_first 2); Call 1; Env (set_first 3); Call 1].

Lemma more_evaluations : exists (U1 U2 : user nat (nat * nat) nat bool) pf rd p w s1 outs1 s2 outs2,
  pure_user U1 pf rd /\ pure_user U2 pf rd /\ flat pf rd /\ finer (aeq U1) (aeq U2) /\ exact_eq U1 /\
  (forall a, aeq U2 a a = true) /\ (forall a b, aeq U2 a b = aeq U2 b a) /\
  (forall a b c, aeq U2 a b = true -> aeq U2 b c = true -> aeq U2 a c = true) /\
  run U1 p (mkState [] w) = Some (s1, outs1) /\ run U2 p (mkState [] w) = Some (s2, outs2) /\
  map (fun o => evaluations (snd o)) outs1 = [[]; []; [inr true; inl 3; inl 0]; []; [inr true; inl 3; inl 0]; []; [inr true; inl 3]] /\
  map (fun o => evaluations (snd o)) outs2 = [[]; []; [inr true; inl 3; inl 0]; []; [inr true]; []; [inr true; inl 3; inl 0]].
Proof.
  exists ex_user, parity_user, ex_pf, ex_rd, half_program, (0, 0). do 4 eexists.
  split; [split; reflexivity|]. split; [split; reflexivity|]. split.
  - split; [|reflexivity]. intros [|[|[|[|f]]]] xs v E; cbn in E; try discriminate; now injection E as <-.
  - split; [intros a b E; cbn in E; apply Nat.eqb_eq in E as <-; unfold aeq, parity_user, parity_eq; apply eqb_reflx|].
    split; [intros a b; apply Nat.eqb_eq|].
    unfold aeq, parity_user, parity_eq. split; [intros a; apply eqb_reflx|]. split; [intros a b; now destruct (Nat.even a), (Nat.even b)|].
    split; [intros a b c; now destruct (Nat.even a), (Nat.even b), (Nat.even c)|].
    split; [vm_compute; reflexivity|]. split; [vm_compute; reflexivity|]. split; reflexivity.
Qed.
