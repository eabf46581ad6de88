(** Proofs about LazyModel.v: refinement to LazySpec.v. *)
From Coq Require Import List Bool Arith Lia.
From Verif Require Import Value TupleAlg TupleAlgProofs LazyModel LazySpec.
Import ListNotations.

Lemma nth_error_update {X} (l : list X) n m x :
  nth_error (update n x l) m =
  if Nat.eqb n m then (if Nat.ltb n (length l) then Some x else None) else nth_error l m.
Proof.
  revert n m; induction l as [|y l IH]; intros [|n] [|m]; cbn; try reflexivity.
  - now destruct (Nat.eqb n m).
  - rewrite IH. reflexivity.
Qed.

Lemma update_length {X} (l : list X) n x : length (update n x l) = length l.
Proof. revert n; induction l as [|y l IH]; intros [|n]; cbn; auto. Qed.

Lemma map_update {X Y} (f : X -> Y) l n x : map f (update n x l) = update n (f x) (map f l).
Proof. revert n; induction l as [|y l IH]; intros [|n]; cbn; auto. now rewrite IH. Qed.

Lemma update_same {X} (l : list X) n x : nth_error l n = Some x -> update n x l = l.
Proof.
  revert n; induction l as [|y l IH]; intros [|n]; cbn; auto; intros E.
  - now injection E as ->.
  - now rewrite IH.
Qed.

Lemma Forall2_update {X Y} (R : X -> Y -> Prop) xs ys n x y :
  Forall2 R xs ys -> R x y -> Forall2 R (update n x xs) (update n y ys).
Proof.
  intros H Hxy. revert n. induction H as [|a b xs ys Hab H IH]; intros [|n]; cbn; auto.
Qed.

Lemma Forall2_nth_error {X Y} (R : X -> Y -> Prop) xs ys n x :
  Forall2 R xs ys -> nth_error xs n = Some x -> exists y, nth_error ys n = Some y /\ R x y.
Proof.
  intros H. revert n. induction H as [|a b xs ys Hab H IH]; intros [|n]; cbn; try discriminate.
  - intros E. injection E as <-. eauto.
  - apply IH.
Qed.

Lemma Forall2_nth_error_None {X Y} (R : X -> Y -> Prop) xs ys n :
  Forall2 R xs ys -> nth_error xs n = None -> nth_error ys n = None.
Proof.
  intros H. revert n. induction H as [|a b xs ys Hab H IH]; intros [|n]; cbn; auto; discriminate.
Qed.

Lemma Forall2_length {X Y} (R : X -> Y -> Prop) xs ys : Forall2 R xs ys -> length xs = length ys.
Proof. induction 1; cbn; auto. Qed.

Section Proofs.
Context {A W fid did : Type}.
Notation value := (val A).
Notation lz := (lz A fid did).
Notation event := (event A fid did).

Lemma veq_sound (aeq : A -> A -> bool) :
  (forall a b, aeq a b = true -> a = b) ->
  forall x y : value, veq aeq x y = true -> x = y.
Proof.
  intros Haeq x. induction x as [a| |l IH|x1 x2 IH1 IH2| |x IH] using val_ind';
    intros [b| |m|y1 y2|[y|]]; cbn; try discriminate; intros H.
  - f_equal; auto.
  - reflexivity.
  - f_equal. revert m H. induction IH as [|x l Hx Hl IHl]; intros [|y m] H; try discriminate; auto.
    apply andb_true_iff in H as [H1 H2]. f_equal; auto.
  - apply andb_true_iff in H as [H1 H2]. f_equal; auto.
  - reflexivity.
  - do 2 f_equal. auto.
Qed.

Lemma veq_refl (aeq : A -> A -> bool) :
  (forall a, aeq a a = true) -> forall x : value, veq aeq x x = true.
Proof.
  intros Haeq x. induction x as [a| |l IH|x1 x2 IH1 IH2| |x IH] using val_ind'; cbn; auto.
  - induction IH as [|x l Hx Hl IHl]; auto. now rewrite Hx.
  - now rewrite IH1, IH2.
Qed.

Lemma veq_sym (aeq : A -> A -> bool) :
  (forall a b, aeq a b = aeq b a) -> forall x y : value, veq aeq x y = veq aeq y x.
Proof.
  intros Haeq x. induction x as [a| |l IH|x1 x2 IH1 IH2| |x IH] using val_ind';
    intros [b| |m|y1 y2|[y|]]; cbn; auto.
  - revert m. induction IH as [|x l Hx Hl IHl]; intros [|y m]; auto.
    now rewrite Hx, IHl.
  - now rewrite IH1, IH2.
Qed.

Lemma veq_trans (aeq : A -> A -> bool) :
  (forall a b c, aeq a b = true -> aeq b c = true -> aeq a c = true) ->
  forall x y z : value, veq aeq x y = true -> veq aeq y z = true -> veq aeq x z = true.
Proof.
  intros Haeq x. induction x as [a| |l IH|x1 x2 IH1 IH2| |x IH] using val_ind';
    intros [b| |m|y1 y2|[y|]] [c| |n|z1 z2|[z|]]; cbn; auto; try discriminate.
  - apply Haeq.
  - revert m n. induction IH as [|x l Hx Hl IHl]; intros [|y m] [|z n]; auto; try discriminate.
    intros H1 H2. apply andb_true_iff in H1 as [H1 H1'], H2 as [H2 H2'].
    rewrite (Hx y z), (IHl m n); auto.
  - intros H1 H2. apply andb_true_iff in H1 as [H1 H1'], H2 as [H2 H2'].
    rewrite (IH1 y1 z1), (IH2 y2 z2); auto.
  - apply IH.
Qed.

Lemma veq_exact (aeq : A -> A -> bool) :
  (forall a b, aeq a b = true <-> a = b) ->
  forall x y : value, veq aeq x y = true <-> x = y.
Proof.
  intros H x y; split.
  - apply veq_sound. intros a b; apply H.
  - intros ->. apply veq_refl. intros a. now apply H.
Qed.

(** [cache != result] is the negation of [==], unless an empty optional is
    involved. *)
Lemma opt_ne_nonnull (aeq : A -> A -> bool) (y : value) : forall x,
  has_nullopt y = false ->
  opt_ne aeq x y = match x with None => true | Some c => negb (veq aeq c y) end.
Proof.
  induction y as [a| |l IH|x1 x2 IH1 IH2| |y IH] using val_ind'; intros x H; try reflexivity.
  - discriminate.
  - cbn in H |- *. destruct x as [[| | | |[c|]]|]; try reflexivity; rewrite IH by exact H; reflexivity.
Qed.

(** And the emptiness of a single optional only makes more differences. *)
Lemma opt_ne_unnested (aeq : A -> A -> bool) (x : value) (y : value) :
  nested_opt y = false -> opt_ne aeq (Some x) y = false -> veq aeq x y = true.
Proof.
  destruct y as [| | | |[y|]]; cbn; intros Hn H; try (now apply negb_false_iff in H); try discriminate.
  destruct x as [| | | |[c|]]; try discriminate;
    destruct y as [| | | |[y|]]; cbn in H; try discriminate; now apply negb_false_iff in H.
Qed.

Lemma veq_nested (aeq : A -> A -> bool) (x y : value) :
  veq aeq x y = true -> nested_opt y = nested_opt x.
Proof.
  destruct x as [| | | |[x|]], y as [| | | |[y|]]; cbn; try discriminate; try reflexivity.
  destruct x as [| | | |[x|]], y as [| | | |[y|]]; cbn; try discriminate; reflexivity.
Qed.

Lemma veq_as_tuple (aeq : A -> A -> bool) (x y : value) :
  veq aeq x y = true -> as_tuple x = None -> as_tuple y = None.
Proof. destruct x as [| | | |[x|]], y as [| | | |[y|]]; cbn; intros; congruence. Qed.

(** ** One call, in terms of the specification (exact equality, pure functions) *)
Section Exact.
Variable U : user A W fid did.
Variable pf : fid -> list value -> option value.
Variable rd : did -> W -> value.
Hypothesis Hpure : pure_user U pf rd.
Hypothesis Hexact : exact_eq U.

Notation eval := (eval pf rd).
Notation eqb := (veq (aeq U)).
Notation differs := (differs pf rd eqb).
Notation expected := (expected pf rd eqb).

Lemma eqb_spec x y : eqb x y = true <-> x = y.
Proof. apply veq_exact. exact Hexact. Qed.

(** A tracked expression and a tree in agreement: caches hold the value at the
    last use, and all parts of a used node were used together with it. *)
Definition in_sync (t : tracked A W fid did) (w : W) : Prop :=
  match t with TConst _ => True | _ => last_of t = Some w end.

Inductive rel : tracked A W fid did -> lz -> Prop :=
| rel_const v : rel (TConst v) (LValue v false)
| rel_fun d last :
    rel (TFun d last)
        (LCore (FnSample d) (option_map (rd d) last) [LValue (VAtom (int0 U)) true])
| rel_app f last ts ls :
    Forall2 rel ts ls ->
    (forall w0, last = Some w0 -> Forall (fun t => in_sync t w0) ts) ->
    rel (TApp f last ts)
        (LCore (FnUser f) (option_map (eval (EApp f (map erase ts))) last) ls).

Section TrackedInd.
  Variable P : tracked A W fid did -> Prop.
  Hypothesis H1 : forall v, P (TConst v).
  Hypothesis H2 : forall d l, P (TFun d l).
  Hypothesis H3 : forall f l ts, Forall P ts -> P (TApp f l ts).
  Fixpoint tracked_ind' (t : tracked A W fid did) : P t :=
    match t with
    | TConst v => H1 v
    | TFun d l => H2 d l
    | TApp f l ts => H3 f l ts
        ((fix go (ts : list (tracked A W fid did)) : Forall P ts :=
            match ts with
            | [] => Forall_nil P
            | t :: ts' => Forall_cons t (tracked_ind' t) (go ts')
            end) ts)
    end.
End TrackedInd.

Lemma erase_touch w (t : tracked A W fid did) : erase (touch w t) = erase t.
Proof.
  induction t as [v|d l|f l ts IH] using tracked_ind'; cbn; auto.
  f_equal. rewrite map_map. induction IH as [|t ts Ht Hts IH]; cbn; auto. now rewrite Ht, IH.
Qed.

Lemma touch_in_sync w (t : tracked A W fid did) : in_sync (touch w t) w.
Proof. destruct t; cbn; auto. Qed.

Lemma regular_app f (es : list (expr A fid did)) :
  regular pf rd (EApp f es) <->
  (match es with [e1] => forall w, as_tuple (eval e1 w) = None | _ => True end)
  /\ Forall (regular pf rd) es.
Proof.
  cbn. split; intros [Ha Hb]; (split; [exact Ha|]); clear Ha.
  - induction es as [|e es IH]; constructor; [apply Hb | apply IH, Hb].
  - induction Hb as [|e es He Hes IH]; [exact I|]. split; assumption.
Qed.

Lemma all_results_app P f (es : list (expr A fid did)) :
  all_results pf rd P (EApp f es) <->
  (forall w, P (fval pf f (map (fun e => eval e w) es))) /\ Forall (all_results pf rd P) es.
Proof.
  cbn. split; intros [Ha Hb]; (split; [exact Ha|]); clear Ha.
  - induction es as [|e es IH]; constructor; [apply Hb | apply IH, Hb].
  - induction Hb as [|e es He Hes IH]; [exact I|]. split; assumption.
Qed.

Lemma step_spec (t : tracked A W fid did) : forall l w,
  rel t l -> regular pf rd (erase t) -> never_null pf rd (erase t) ->
  exists l', step U l w = (Ok (eval (erase t) w, differs t w), l', w, expected t w)
             /\ rel (touch w t) l'.
Proof.
  destruct Hpure as [Hsem Hdsem].
  induction t as [v|d last|f last ts IH] using tracked_ind'; intros l w Hrel Hreg Hnn.
  - inversion Hrel; subst. eexists; split; [reflexivity|]. constructor.
  - inversion Hrel; subst. cbn. unfold core. rewrite any_pure, transform_pure. cbn.
    rewrite orb_true_r. rewrite Hdsem. cbn.
    unfold LazySpec.differs, LazySpec.compare_last; cbn.
    rewrite opt_ne_nonnull by apply Hnn.
    destruct last as [w0|]; cbn.
    + eexists; split; [reflexivity|]. exact (rel_fun d (Some w)).
    + eexists; split; [reflexivity|]. exact (rel_fun d (Some w)).
  - inversion Hrel as [| |f' last' ts' ls Hts Hsync]; subst f' last' ts' l.
    cbn [erase] in Hreg, Hnn. apply regular_app in Hreg as [Hone Hregs].
    apply all_results_app in Hnn as [Hnn Hnns].
    (* the dependencies *)
    assert (Hdeps : exists ls', steps U ls w
              = (Ok (map (fun t => (eval (erase t) w, differs t w)) ts), ls', w,
                 flat_map (fun t => expected t w) ts)
              /\ Forall2 rel (map (touch w) ts) ls').
    { clear Hsync Hone Hrel Hnn.
      revert Hregs Hnns IH. induction Hts as [|t l ts ls Htl Hts IHts]; intros Hregs Hnns IH.
      - exists []. split; [reflexivity|constructor].
      - cbn in Hregs. inversion Hregs as [|? ? Hreg1 Hreg2]; subst.
        inversion IH as [|? ? IH1 IH2]; subst.
        cbn in Hnns. inversion Hnns as [|? ? Hnn1 Hnn2]; subst.
        destruct (IH1 l w Htl Hreg1 Hnn1) as (l' & Hstep & Hrel').
        destruct (IHts Hreg2 Hnn2 IH2) as (ls' & Hsteps & Hrels').
        exists (l' :: ls'). split.
        + unfold steps in *. cbn. rewrite Hstep. rewrite Hsteps. reflexivity.
        + cbn. constructor; assumption. }
    destruct Hdeps as (ls' & Hsteps & Hrels').
    cbn [step]. fold (steps U). rewrite Hsteps. rewrite ctad_none.
    unfold core. rewrite any_pure, transform_pure. cbn [fst].
    assert (Hvals : map lr_value (map (fun t => (eval (erase t) w, differs t w)) ts)
                    = map (fun t => eval (erase t) w) ts)
      by (rewrite map_map; reflexivity).
    assert (Hflags : existsb lr_is_changed (map (fun t => (eval (erase t) w, differs t w)) ts)
                     = existsb (fun t => differs t w) ts).
    { clear. induction ts as [|t ts IH]; cbn; auto. now rewrite <- IH. }
    rewrite Hvals, Hflags.
    assert (Hct : ctad_tuple as_tuple (map (fun t => eval (erase t) w) ts)
                  = map (fun t => eval (erase t) w) ts).
    { apply ctad_regular. intros x Hx. destruct ts as [|t [|t2 ts]]; cbn in Hx; try discriminate.
      injection Hx as <-. cbn in Hone. apply Hone. }
    rewrite Hct.
    assert (Hrel' : forall c,
      c = fval pf f (map (fun t => eval (erase t) w) ts) ->
      rel (touch w (TApp f last ts)) (LCore (FnUser f) (Some c) ls')).
    { intros c ->. cbn [touch].
      pose proof (rel_app f (Some w) (map (touch w) ts) ls' Hrels') as Hr.
      cbn [option_map] in Hr.
      assert (He : eval (EApp f (map erase (map (touch w) ts))) w
                   = fval pf f (map (fun t => eval (erase t) w) ts)).
      { cbn. f_equal. rewrite !map_map. apply map_ext. intros t. now rewrite erase_touch. }
      rewrite He in Hr. apply Hr. intros w0 Hw0. injection Hw0 as <-.
      apply Forall_forall. intros t Ht. apply in_map_iff in Ht as (t0 & <- & _).
      apply touch_in_sync. }
    assert (Heval : eval (erase (TApp f last ts)) w = fval pf f (map (fun t => eval (erase t) w) ts)).
    { cbn. f_equal. rewrite map_map. reflexivity. }
    cbn [call_fn]. rewrite Hsem.
    assert (Hreg : regularized (FRet (pf f (map (fun t => eval (erase t) w) ts)))
                   = VRet (fval pf f (map (fun t => eval (erase t) w) ts))).
    { unfold regularized, fval. now destruct (pf f _). }
    assert (Hnn' : has_nullopt (fval pf f (map (fun t => eval (erase t) w) ts)) = false).
    { specialize (Hnn w). rewrite map_map in Hnn. exact Hnn. }
    destruct last as [w0|]; cbn [option_map is_some negb orb].
    + destruct (existsb (fun t => differs t w) ts) eqn:Hex.
      * rewrite Hreg. unfold opt_neq. rewrite opt_ne_nonnull by exact Hnn'.
        eexists; split; [|apply Hrel'; reflexivity].
        cbn [expected]. rewrite Hex. unfold LazySpec.compare_last, LazySpec.differs.
        cbn [last_of]. rewrite Heval. reflexivity.
      * (* nothing changed: the cache is still right *)
        assert (Hsame : map (fun t => eval (erase t) w0) ts = map (fun t => eval (erase t) w) ts).
        { specialize (Hsync w0 eq_refl). clear -Hsync Hex Hexact.
          induction Hsync as [|t ts Ht Hts IH]; cbn in *; auto.
          apply orb_false_iff in Hex as [Hd Hex]. f_equal; [|auto].
          destruct t as [v|d l|g l us]; [reflexivity| |].
          - cbn in Ht; subst l. unfold LazySpec.differs in Hd. cbn in Hd.
            apply negb_false_iff in Hd. now apply eqb_spec in Hd.
          - cbn [in_sync last_of] in Ht; subst l. unfold LazySpec.differs in Hd. cbn [last_of] in Hd.
            apply negb_false_iff in Hd. now apply eqb_spec in Hd. }
        assert (Hc : eval (EApp f (map erase ts)) w0 = fval pf f (map (fun t => eval (erase t) w) ts)).
        { cbn. f_equal. rewrite map_map. exact Hsame. }
        rewrite Hc. eexists; split; [|apply Hrel'; reflexivity].
        cbn [expected]. rewrite Hex. unfold LazySpec.differs. cbn [last_of].
        rewrite Heval.
        change (eval (erase (TApp f (Some w0) ts)) w0) with (eval (EApp f (map erase ts)) w0).
        rewrite Hc.
        assert (Hrefl : eqb (fval pf f (map (fun t => eval (erase t) w) ts))
                            (fval pf f (map (fun t => eval (erase t) w) ts)) = true)
          by (now apply eqb_spec).
        rewrite Hrefl. reflexivity.
    + rewrite Hreg. unfold opt_neq. rewrite opt_ne_nonnull by exact Hnn'.
      eexists; split; [|apply Hrel'; reflexivity].
      cbn [expected]. unfold LazySpec.compare_last, LazySpec.differs. cbn [last_of].
      rewrite Heval. reflexivity.
Qed.

(** ** Programs *)
Lemma api_visible v ch : api_result (Ok (v, ch)) = Ok (@visible A v).
Proof. destruct v; reflexivity. Qed.

Lemma deps_rel (ts : list (tracked A W fid did)) (ls : list lz) ss :
  Forall2 rel ts ls ->
  match spec_deps TConst (fun d => TFun d None) ts ss, deps_of ls ss with
  | Some us, Some os => Forall2 rel us (map (ensure_lazy U) os)
  | None, None => True
  | _, _ => False
  end.
Proof.
  intros H. induction ss as [|s ss IH]; cbn; [constructor|].
  assert (Hs : match (match s with DVar x => nth_error ts x | DFun d => Some (TFun d None)
                      | DConst v => Some (TConst v) end), dep_of ls s with
               | Some u, Some o => rel u (ensure_lazy U o)
               | None, None => True
               | _, _ => False end).
  { destruct s as [x|d|v]; cbn.
    - destruct (nth_error ts x) as [t|] eqn:E.
      + destruct (Forall2_nth_error _ _ _ _ _ H E) as (l & -> & Hl). exact Hl.
      + now rewrite (Forall2_nth_error_None _ _ _ _ H E).
    - exact (rel_fun d None).
    - constructor. }
  destruct s as [x|d|v]; cbn in *.
  - destruct (nth_error ts x), (nth_error ls x); cbn in *; try contradiction;
      destruct (spec_deps _ _ ts ss), (deps_of ls ss); auto; now constructor.
  - destruct (spec_deps _ _ ts ss), (deps_of ls ss); auto. now constructor.
  - destruct (spec_deps _ _ ts ss), (deps_of ls ss); auto. now constructor.
Qed.

Lemma spec_deps_erase (ts : list (tracked A W fid did)) ss :
  spec_deps EConst EFun (map erase ts) ss
  = option_map (map erase) (spec_deps TConst (fun d => TFun d None) ts ss).
Proof.
  induction ss as [|s ss IH]; cbn; [reflexivity|]. rewrite IH.
  destruct s as [x|d|v].
  - rewrite nth_error_map. destruct (nth_error ts x); cbn; [|reflexivity].
    now destruct (spec_deps _ _ ts ss).
  - now destruct (spec_deps _ _ ts ss).
  - now destruct (spec_deps _ _ ts ss).
Qed.

(** The expressions of a program: those of the eager specification. *)
Lemma eager_extends p : forall (vs : list (expr A fid did)) w vs' outs,
  eager pf rd p vs w = Some (vs', outs) -> exists ext, vs' = vs ++ ext.
Proof.
  induction p as [|o p IH]; intros vs w vs' outs H; cbn in H.
  - injection H as <- _. exists []. now rewrite app_nil_r.
  - destruct o as [f ss|x|x|h].
    + destruct (spec_deps _ _ vs ss) as [es|]; [|discriminate].
      destruct (IH _ _ _ _ H) as [ext ->]. rewrite <- app_assoc. eauto.
    + destruct (nth_error vs x) as [e|]; [|discriminate].
      destruct (IH _ _ _ _ H) as [ext ->]. rewrite <- app_assoc. eauto.
    + destruct (nth_error vs x) as [e|]; [|discriminate].
      destruct (eager pf rd p vs w) as [[vs1 outs1]|] eqn:E; [|discriminate].
      injection H as <- _. eauto.
    + eauto.
Qed.

Lemma run_refines p : forall ts ls w,
  Forall2 rel ts ls ->
  match eager pf rd p (map erase ts) w with
  | Some (es, vals) =>
      Forall (regular pf rd) es -> Forall (never_null pf rd) es ->
      exists s ts' outs,
        run U p (mkState ls w) = Some (s, outs) /\
        tracked_run pf rd eqb p ts w = Some (ts', outs) /\
        Forall2 rel ts' (vars s) /\
        results outs = map Ok vals
  | None => run U p (mkState ls w) = None /\ tracked_run pf rd eqb p ts w = None
  end.
Proof.
  induction p as [|o p IH]; intros ts ls w Hrel.
  - cbn. intros _ _. exists (mkState ls w), ts, []. auto.
  - destruct o as [f ss|x|x|h].
    + cbn [eager run tracked_run exec vars world].
      rewrite spec_deps_erase. pose proof (deps_rel ts ls ss Hrel) as Hd.
      destruct (spec_deps TConst _ ts ss) as [us|], (deps_of ls ss) as [os|]; try contradiction; cbn.
      2:{ auto. }
      specialize (IH (ts ++ [TApp f None us]) (ls ++ [mk_lazy U f os]) w).
      rewrite map_app in IH. cbn in IH.
      assert (Hrel' : Forall2 rel (ts ++ [TApp f None us]) (ls ++ [mk_lazy U f os])).
      { apply Forall2_app; [assumption|]. constructor; [|constructor].
        unfold mk_lazy. apply (rel_app f None us _ Hd). discriminate. }
      specialize (IH Hrel').
      destruct (eager pf rd p (map erase ts ++ [EApp f (map erase us)]) w) as [[es vals]|].
      * intros Hreg Hnn. destruct (IH Hreg Hnn) as (s & ts' & outs & -> & -> & H1 & H2).
        exists s, ts', ((None, []) :: outs). auto.
      * destruct IH as [-> ->]. auto.
    + cbn [eager run tracked_run exec vars world].
      rewrite nth_error_map. destruct (nth_error ts x) as [t|] eqn:Et.
      * destruct (Forall2_nth_error _ _ _ _ _ Hrel Et) as (l & -> & Hl). cbn.
        specialize (IH (ts ++ [t]) (ls ++ [l]) w). rewrite map_app in IH. cbn in IH.
        assert (Hrel' : Forall2 rel (ts ++ [t]) (ls ++ [l])).
        { apply Forall2_app; auto. }
        specialize (IH Hrel').
        destruct (eager pf rd p (map erase ts ++ [erase t]) w) as [[es vals]|].
        -- intros Hreg Hnn. destruct (IH Hreg Hnn) as (s & ts' & outs & -> & -> & H1 & H2).
           exists s, ts', ((None, []) :: outs). auto.
        -- destruct IH as [-> ->]. auto.
      * rewrite (Forall2_nth_error_None _ _ _ _ Hrel Et). cbn. auto.
    + cbn [eager run tracked_run exec vars world].
      rewrite nth_error_map. destruct (nth_error ts x) as [t|] eqn:Et.
      * destruct (Forall2_nth_error _ _ _ _ _ Hrel Et) as (l & -> & Hl). cbn [option_map].
        destruct (eager pf rd p (map erase ts) w) as [[es vals]|] eqn:Ee.
        -- intros Hreg Hnn.
           assert (Hregt : regular pf rd (erase t) /\ never_null pf rd (erase t)).
           { destruct (eager_extends _ _ _ _ _ Ee) as [ext ->].
             apply Forall_app in Hreg as [Hreg _]. apply Forall_app in Hnn as [Hnn _].
             rewrite Forall_forall in Hreg, Hnn.
             split; [apply Hreg|apply Hnn]; apply in_map; eapply nth_error_In; eauto. }
           destruct Hregt as [Hregt Hnnt].
           destruct (step_spec t l w Hl Hregt Hnnt) as (l' & Hstep & Hl'). rewrite Hstep.
           specialize (IH (update x (touch w t) ts) (update x l' ls) w
                          (Forall2_update _ _ _ _ _ _ Hrel Hl')).
           rewrite map_update, erase_touch, update_same in IH
             by (rewrite nth_error_map, Et; reflexivity).
           rewrite Ee in IH.
           destruct (IH Hreg Hnn) as (s & ts' & outs & -> & -> & H1 & H2).
           exists s, ts', ((Some (Ok (visible (eval (erase t) w))), expected t w) :: outs).
           rewrite api_visible. repeat split; auto.
           unfold results in *. cbn. now rewrite H2.
        -- destruct (step U l w) as [[[r l'] w'] lg] eqn:Es.
           (* only well-scopedness matters here *)
           assert (Hscope : forall q vs1 w1, eager pf rd q vs1 w1 = None ->
                     forall ls1 w2, length ls1 = length vs1 -> run U q (mkState ls1 w2) = None).
           { clear. induction q as [|o q IHq]; intros vs1 w1 He ls1 w2 Hlen; cbn in He; [discriminate|].
             assert (Hnth : forall x, nth_error vs1 x = None <-> nth_error ls1 x = None).
             { intros x. rewrite !nth_error_None. now rewrite Hlen. }
             assert (Hdeps : forall ss, spec_deps EConst EFun vs1 ss = None <-> deps_of ls1 ss = None).
             { induction ss as [|s ss IHs]; cbn; [split; discriminate|].
               destruct s as [x|d|v]; cbn.
               - specialize (Hnth x). destruct (nth_error vs1 x), (nth_error ls1 x); cbn;
                   try (destruct Hnth as [Hn1 Hn2]; (discriminate (Hn1 eq_refl) || discriminate (Hn2 eq_refl))).
                 + destruct (spec_deps _ _ vs1 ss), (deps_of ls1 ss); cbn; intuition discriminate.
                 + intuition.
               - destruct (spec_deps _ _ vs1 ss), (deps_of ls1 ss); cbn; intuition discriminate.
               - destruct (spec_deps _ _ vs1 ss), (deps_of ls1 ss); cbn; intuition discriminate. }
             destruct o as [f ss|x|x|h]; cbn [run exec vars world].
             - specialize (Hdeps ss). destruct (spec_deps _ _ vs1 ss) as [es|] eqn:Esd.
               + destruct (deps_of ls1 ss) as [os|]; [|reflexivity].
                 rewrite (IHq _ _ He); [reflexivity|]. rewrite !app_length; cbn; lia.
               + destruct (deps_of ls1 ss); [|reflexivity].
                 destruct Hdeps as [Hd _]. discriminate (Hd eq_refl).
             - specialize (Hnth x). destruct (nth_error vs1 x) as [e|].
               + destruct (nth_error ls1 x) as [l|]; [|reflexivity].
                 rewrite (IHq _ _ He); [reflexivity|]. rewrite !app_length; cbn; lia.
               + destruct (nth_error ls1 x); [|reflexivity].
                 destruct Hnth as [Hd _]. discriminate (Hd eq_refl).
             - specialize (Hnth x). destruct (nth_error vs1 x) as [e|].
               + destruct (nth_error ls1 x) as [l|]; [|reflexivity].
                 destruct (step U l w2) as [[[r l'] w'] lg].
                 destruct (eager pf rd q vs1 w1) as [[? ?]|] eqn:Eq; [discriminate|].
                 rewrite (IHq _ _ Eq); [reflexivity|]. now rewrite update_length.
               + destruct (nth_error ls1 x); [|reflexivity].
                 destruct Hnth as [Hd _]. discriminate (Hd eq_refl).
             - now rewrite (IHq _ _ He). }
           assert (Hscope2 : forall q vs1 w1, eager pf rd q vs1 w1 = None ->
                     forall ts1 w2, length ts1 = length vs1 -> tracked_run pf rd eqb q ts1 w2 = None).
           { clear. induction q as [|o q IHq]; intros vs1 w1 He ls1 w2 Hlen; cbn in He; [discriminate|].
             assert (Hnth : forall x, nth_error vs1 x = None <-> nth_error ls1 x = None).
             { intros x. rewrite !nth_error_None. now rewrite Hlen. }
             assert (Hdeps : forall ss, spec_deps EConst EFun vs1 ss = None
                       <-> spec_deps TConst (fun d => TFun d None) ls1 ss = None).
             { induction ss as [|s ss IHs]; cbn; [split; discriminate|].
               destruct s as [x|d|v]; cbn.
               - specialize (Hnth x). destruct (nth_error vs1 x), (nth_error ls1 x); cbn;
                   try (destruct Hnth as [Hn1 Hn2]; (discriminate (Hn1 eq_refl) || discriminate (Hn2 eq_refl))).
                 + destruct (spec_deps _ _ vs1 ss), (spec_deps _ _ ls1 ss); cbn; intuition discriminate.
                 + intuition.
               - destruct (spec_deps _ _ vs1 ss), (spec_deps _ _ ls1 ss); cbn; intuition discriminate.
               - destruct (spec_deps _ _ vs1 ss), (spec_deps _ _ ls1 ss); cbn; intuition discriminate. }
             destruct o as [f ss|x|x|h]; cbn [tracked_run].
             - specialize (Hdeps ss). destruct (spec_deps EConst _ vs1 ss) as [es|] eqn:Esd.
               + destruct (spec_deps _ _ ls1 ss) as [os|]; [|reflexivity].
                 rewrite (IHq _ _ He); [reflexivity|]. rewrite !app_length; cbn; lia.
               + destruct (spec_deps _ _ ls1 ss); [|reflexivity].
                 destruct Hdeps as [Hd _]. discriminate (Hd eq_refl).
             - specialize (Hnth x). destruct (nth_error vs1 x) as [e|].
               + destruct (nth_error ls1 x) as [l|]; [|reflexivity].
                 rewrite (IHq _ _ He); [reflexivity|]. rewrite !app_length; cbn; lia.
               + destruct (nth_error ls1 x); [|reflexivity].
                 destruct Hnth as [Hd _]. discriminate (Hd eq_refl).
             - specialize (Hnth x). destruct (nth_error vs1 x) as [e|].
               + destruct (nth_error ls1 x) as [l|]; [|reflexivity].
                 destruct (eager pf rd q vs1 w1) as [[? ?]|] eqn:Eq; [discriminate|].
                 rewrite (IHq _ _ Eq); [reflexivity|]. now rewrite update_length.
               + destruct (nth_error ls1 x); [|reflexivity].
                 destruct Hnth as [Hd _]. discriminate (Hd eq_refl).
             - now rewrite (IHq _ _ He). }
           rewrite (Hscope _ _ _ Ee)
             by (rewrite update_length, map_length; symmetry; eapply Forall2_length; eauto).
           rewrite (Hscope2 _ _ _ Ee) by (now rewrite update_length, map_length).
           auto.
      * rewrite (Forall2_nth_error_None _ _ _ _ Hrel Et). cbn. auto.
    + cbn [eager run tracked_run exec vars world].
      specialize (IH ts ls (h w) Hrel).
      destruct (eager pf rd p (map erase ts) (h w)) as [[es vals]|].
      * intros Hreg Hnn. destruct (IH Hreg Hnn) as (s & ts' & outs & -> & -> & H1 & H2).
        exists s, ts', ((None, []) :: outs). auto.
      * destruct IH as [-> ->]. auto.
Qed.

End Exact.
End Proofs.
