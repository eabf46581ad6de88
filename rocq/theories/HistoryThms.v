(** Proofs about arbitrary histories (C56, C15). *)
From Coq Require Import List Bool Arith Lia.
From Verif Require Import Value TupleAlg TupleAlgProofs LazyModel LazySpec LazySpec2 LazyProofs LazyGeneral
  SharedModel SharedProofs LazyThms HistorySpec.
Import ListNotations.

Section Proofs.
Context {A W fid did : Type}.
Notation value := (val A).
Notation expr := (expr A fid did).
Notation slz := (slz A fid did).
Notation sop := (sop A W fid did).
Variable U : user A W fid did.
Variable pf : fid -> list value -> option value.
Variable rd : did -> W -> value.
Hypothesis Hpt : pure_or_throw U pf rd.

Section Induction.
  Variable P : slz -> Prop.
  Hypothesis Hvalue : forall v ch, P (SValue v ch).
  Hypothesis Hcore : forall g cache deps, Forall P deps -> P (SCore g cache deps).
  Hypothesis Href : forall x, P (SRef x).
  Fixpoint slz_ind' (l : slz) : P l :=
    match l with
    | SValue v ch => Hvalue v ch
    | SCore g cache deps =>
        Hcore g cache deps
          ((fix go (ds : list slz) : Forall P ds :=
              match ds with
              | [] => Forall_nil P
              | d :: ds' => Forall_cons d (slz_ind' d) (go ds')
              end) deps)
    | SRef x => Href x
    end.
End Induction.

Section Inv.
Variable P : W -> Prop.

(** All cached values of [l], which stands for [e], are mixed values. *)
Inductive from (es : list expr) : expr -> slz -> Prop :=
| from_const v : from es (EConst v) (SValue v false)
| from_fun d c :
    (forall v, c = Some v -> exists w, P w /\ v = rd d w) ->
    from es (EFun d) (SCore (FnSample d) c [SValue (VAtom (int0 U)) true])
| from_app f c us ds :
    Forall2 (from es) us ds ->
    (forall v, c = Some v -> mixed pf rd P (EApp f us) v) ->
    from es (EApp f us) (SCore (FnUser f) c ds)
| from_ref x e : nth_error es x = Some e -> from es e (SRef x).

Lemma from_app_es es ext l : forall e, from es e l -> from (es ++ ext) e l.
Proof.
  induction l as [v ch|g cache deps IH|x] using slz_ind'; intros e H; inversion H; subst.
  - constructor.
  - constructor; auto.
  - match goal with Hd : Forall2 (from es) _ _ |- _ => rename Hd into Hf end.
    constructor; auto.
    clear - Hf IH. induction Hf as [|u d us ds Hud Hf IHf]; [constructor|].
    inversion IH; subst. constructor; auto.
  - constructor. rewrite nth_error_app1; auto. apply nth_error_Some. congruence.
Qed.

Definition sound_step (n : nat) (es : list expr) (l : slz) : Prop :=
  forall e vs w r l' vs' w' lg,
    from es e l -> Forall2 (from es) es vs -> P w ->
    sstep U n l vs w = Some (r, l', vs', w', lg) ->
    w' = w /\ from es e l' /\ Forall2 (from es) es vs' /\
    match r with Ok (v, _) => mixed pf rd P e v | Exc => True | UB => False end.

Lemma ssteps_sound n es ls : Forall (sound_step n es) ls ->
  forall us vs w r ls' vs' w' lg,
    Forall2 (from es) us ls -> Forall2 (from es) es vs -> P w ->
    ssteps_with (sstep U n) ls vs w = Some (r, ls', vs', w', lg) ->
    w' = w /\ Forall2 (from es) us ls' /\ Forall2 (from es) es vs' /\
    match r with Ok rs => mixed_all pf rd P us (map fst rs) | Exc => True | UB => False end.
Proof.
  induction 1 as [|l ls Hl Hls IH]; intros us vs w r ls' vs' w' lg Hu Hv Hw Hs.
  - inversion Hu; subst. cbn in Hs. injection Hs as <- <- <- <- <-. repeat split; auto; constructor.
  - inversion Hu as [|e ? us' ? He Hus]; subst. rewrite ssteps_cons in Hs.
    destruct (sstep U n l vs w) as [[[[[r1 l1] vs1] w1] lg1]|] eqn:E1; [|discriminate].
    destruct (Hl _ _ _ _ _ _ _ _ He Hv Hw E1) as (-> & Hl1 & Hv1 & Hr1).
    destruct r1 as [[v ch]| |]; [| |destruct Hr1].
    + destruct (ssteps_with (sstep U n) ls vs1 w) as [[[[[r2 ls2] vs2] w2] lg2]|] eqn:E2; [|discriminate].
      destruct (IH _ _ _ _ _ _ _ _ Hus Hv1 Hw E2) as (-> & Hl2 & Hv2 & Hr2).
      injection Hs as <- <- <- <- <-. repeat split; auto.
      destruct r2; auto. cbn. constructor; auto.
    + injection Hs as <- <- <- <- <-. repeat split; auto.
Qed.

Lemma update_Forall2 {X Y} (R : X -> Y -> Prop) xs ys n x y :
  Forall2 R xs ys -> nth_error xs n = Some x -> R x y -> Forall2 R xs (update n y ys).
Proof.
  intros H. revert n. induction H as [|a b xs ys Hab H IH]; intros [|n] Hn HR; cbn in *; try discriminate.
  - injection Hn as ->. constructor; auto.
  - constructor; auto.
Qed.

(** Reading again what references designate gives mixed values, too. *)
Lemma read_ref_mixed es e d (vs : list slz) r :
  from es e d -> Forall2 (from es) es vs -> mixed pf rd P e (fst r) -> mixed pf rd P e (fst (read_ref vs d r)).
Proof.
  intros Hf Hv Hm. unfold read_ref. inversion Hf as [| | |x ? Hx]; subst; auto.
  destruct (Forall2_nth_error _ _ _ _ _ Hv Hx) as (l & Hl & Hfl). rewrite Hl.
  assert (Hc : mixed pf rd P e (fst (match l with SCore _ (Some c) _ => (c, snd r) | _ => r end))).
  { inversion Hfl as [|d0 c Hc|f c us ds Hus Hc|]; subst; auto; destruct c as [c|]; auto; cbn [fst]; auto.
    destruct (Hc c eq_refl) as (w0 & Hw0 & ->). now constructor. }
  destruct r as [v ch]. cbn [fst snd] in *. destruct v; exact Hm || exact Hc.
Qed.

Lemma read_refs_mixed es us ds (vs : list slz) rs :
  Forall2 (from es) us ds -> Forall2 (from es) es vs -> mixed_all pf rd P us (map fst rs) ->
  mixed_all pf rd P us (map fst (read_refs vs ds rs)).
Proof.
  intros Hu Hv. revert rs. induction Hu as [|e d us ds Hed _ IH]; intros rs Hm; [destruct rs; exact Hm|].
  destruct rs as [|r rs]; [exact Hm|]. inversion Hm; subst. cbn [read_refs map]. constructor; auto.
  now apply (read_ref_mixed es).
Qed.

Lemma sstep_sound n es : forall l, sound_step n es l.
Proof.
  destruct Hpt as [Hsem Hdsem].
  induction n as [n IHn] using lt_wf_ind. intros l.
  induction l as [v ch|g cache deps IH|x] using slz_ind'; intros e vs w r l' vs' w' lg Hf Hv Hw Hs;
    rewrite sstep_eq in Hs.
  - inversion Hf; subst. injection Hs as <- <- <- <- <-. repeat split; auto. constructor.
  - inversion Hf as [|d c Hc|f c us ds Hus Hc|]; subst.
    + rewrite ssteps_cons, sstep_eq in Hs. cbn in Hs. rewrite core_eq in Hs.
      cbn [existsb snd map fst] in Hs. rewrite orb_true_r in Hs. cbn [call_fn] in Hs.
      destruct (Hdsem d w) as [Hd|Hd]; rewrite Hd in Hs; injection Hs as <- <- <- <- <-;
        repeat split; auto.
      * constructor. intros v Hv0. injection Hv0 as <-. eauto.
      * constructor. exact Hw.
    + destruct (ssteps_with (sstep U n) deps vs w) as [[[[[rs ds'] vs1] w1] lg1]|] eqn:Es; [|discriminate].
      destruct (ssteps_sound n es deps IH _ _ _ _ _ _ _ _ Hus Hv Hw Es) as (-> & Hds & Hv1 & Hrs).
      destruct rs as [rs| |]; [| |destruct Hrs].
      * cbv zeta in Hs. rewrite ctad_none in Hs. apply (read_refs_mixed es us ds' vs1 rs Hds Hv1) in Hrs.
        set (rs2 := read_refs vs1 ds' rs) in *. clearbody rs2. clear rs Es. rename rs2 into rs.
        rewrite core_eq in Hs. cbn [call_fn] in Hs.
        destruct (negb (is_some cache) || existsb snd rs) eqn:Ech.
        -- destruct (Hsem f (ctad_tuple as_tuple (map fst rs)) w) as [Hfe|Hfe]; rewrite Hfe in Hs.
           ++ assert (Hreg : regularized (FRet (pf f (ctad_tuple as_tuple (map fst rs)))) =
                             VRet (fval pf f (ctad_tuple as_tuple (map fst rs)))).
              { unfold regularized, fval. now destruct (pf f _). }
              rewrite Hreg in Hs. injection Hs as <- <- <- <- <-.
              assert (Hm : mixed pf rd P (EApp f us) (fval pf f (ctad_tuple as_tuple (map fst rs)))).
              { econstructor; [exact Hrs|apply ctad_passes]. }
              repeat split; auto. constructor; auto. intros v Hv0. now injection Hv0 as <-.
           ++ injection Hs as <- <- <- <- <-. repeat split; auto. constructor; auto.
        -- apply orb_false_iff in Ech as [Hcache _]. destruct cache as [c|]; [|discriminate].
           injection Hs as <- <- <- <- <-. repeat split; auto. constructor; auto.
      * injection Hs as <- <- <- <- <-. repeat split; auto. constructor; auto.
  - inversion Hf as [| | |? ? Hx]; subst. destruct n as [|n]; [discriminate|].
    destruct (Forall2_nth_error _ _ _ _ _ Hv Hx) as (l0 & Hl0 & Hfl). rewrite Hl0 in Hs.
    destruct (sstep U n l0 vs w) as [[[[[r0 l1] vs1] w1] lg1]|] eqn:E0; [|discriminate].
    injection Hs as <- <- <- <- <-.
    destruct (IHn n (Nat.lt_succ_diag_r n) l0 _ _ _ _ _ _ _ _ Hfl Hv Hw E0) as (-> & Hl1 & Hv1 & Hr).
    repeat split; auto. eapply update_Forall2; eauto.
Qed.

(** ** Programs *)
Lemma sdeps_from es vs ss us ds :
  Forall2 (from es) es vs ->
  spec_deps EConst EFun es (map by_value_dep ss) = Some us -> sdeps_of U vs ss = Some ds ->
  Forall2 (from es) us ds.
Proof.
  intros Hv. revert us ds. induction ss as [|s ss IH]; intros us ds Hu Hd; cbn in Hu, Hd.
  - injection Hu as <-. injection Hd as <-. constructor.
  - destruct (sdep_of U vs s) as [o|] eqn:Eo; [|discriminate].
    destruct (sdeps_of U vs ss) as [os|]; [|discriminate]. injection Hd as <-.
    destruct (spec_deps EConst EFun es (map by_value_dep ss)) as [ts|];
      [|destruct s as [x|[x|d|v]]; cbn in Hu; try destruct (nth_error es x); discriminate].
    destruct s as [x|[x|d|v]]; cbn in Hu, Eo.
    + destruct (nth_error es x) as [t|] eqn:Et; [|discriminate]. injection Hu as <-.
      destruct (nth_error vs x); [|discriminate]. injection Eo as <-. constructor; auto. now constructor.
    + destruct (nth_error es x) as [t|] eqn:Et; [|discriminate]. injection Hu as <-.
      destruct (Forall2_nth_error _ _ _ _ _ Hv Et) as (l & El & Hl). rewrite El in Eo. injection Eo as <-.
      constructor; auto.
    + injection Hu as <-. injection Eo as <-. constructor; auto. constructor. discriminate.
    + injection Hu as <-. injection Eo as <-. constructor; auto. constructor.
Qed.

Lemma Forall2_from_ext es ext us vs :
  Forall2 (from es) us vs -> Forall2 (from (es ++ ext)) us vs.
Proof. induction 1; constructor; auto using from_app_es. Qed.

Lemma srun_from p : forall es vs w s outs es',
  Forall2 (from es) es vs -> (forall w', In w' (called_worlds p w) -> P w') ->
  srun U p (mkSState vs w) = Some (s, outs) -> shapes (map by_value p) es = Some es' ->
  Forall2 (from es') es' (svars s) /\
  forall p2, (forall w', In w' (called_worlds (p ++ p2) w) -> P w') ->
             forall w', In w' (called_worlds p2 (sworld s)) -> P w'.
Proof.
  induction p as [|o p IH]; intros es vs w s outs es' Hv Hp Hr Hsh.
  - cbn in *. injection Hr as <- <-. injection Hsh as <-. split; auto.
  - destruct o as [f ss|x|x|h]; cbn [srun sexec svars sworld map by_value shapes called_worlds app] in *.
    + destruct (sdeps_of U vs ss) as [ds|] eqn:Ed; [|discriminate].
      destruct (srun U p _) as [[s2 outs2]|] eqn:Er; [|discriminate]. injection Hr as <- <-.
      destruct (spec_deps EConst EFun es (map by_value_dep ss)) as [us|] eqn:Eu; [|discriminate].
      assert (Hv' : Forall2 (from (es ++ [EApp f us])) (es ++ [EApp f us]) (vs ++ [SCore (FnUser f) None ds])).
      { apply Forall2_app; [now apply Forall2_from_ext|].
        constructor; [|constructor]. constructor; [|discriminate].
        apply Forall2_from_ext. eapply sdeps_from; eauto. }
      eapply IH; eauto.
    + destruct (nth_error es x) as [e|] eqn:Ee; [|discriminate].
      destruct (Forall2_nth_error _ _ _ _ _ Hv Ee) as (l & El & Hl). rewrite El in Hr.
      destruct (srun U p _) as [[s2 outs2]|] eqn:Er; [|discriminate]. injection Hr as <- <-.
      assert (Hv' : Forall2 (from (es ++ [e])) (es ++ [e]) (vs ++ [l])).
      { apply Forall2_app; [now apply Forall2_from_ext|].
        constructor; [|constructor]. now apply from_app_es. }
      eapply IH; eauto.
    + destruct (nth_error es x) as [e|] eqn:Ee; [|discriminate].
      destruct (Forall2_nth_error _ _ _ _ _ Hv Ee) as (l & El & Hl). rewrite El in Hr.
      destruct (sstep U (length vs) l vs w) as [[[[[r l'] vs'] w'] lg]|] eqn:Es; [|discriminate].
      destruct (srun U p _) as [[s2 outs2]|] eqn:Er; [|discriminate]. injection Hr as <- <-.
      destruct (sstep_sound _ _ _ _ _ _ _ _ _ _ _ Hl Hv (Hp w (or_introl eq_refl)) Es) as (-> & Hl' & Hv' & _).
      assert (Hv2 : Forall2 (from es) es (update x l' vs')) by (eapply update_Forall2; eauto).
      destruct (IH es (update x l' vs') w s2 outs2 es' Hv2 (fun w' H => Hp w' (or_intror H)) Er Hsh) as [IH1 IH2].
      split; auto. intros p2 Hp2. apply IH2. intros w' Hw'. apply Hp2. now right.
    + destruct (srun U p _) as [[s2 outs2]|] eqn:Er; [|discriminate]. injection Hr as <- <-.
      eapply IH; eauto.
Qed.

End Inv.

Lemma Forall2_nth_error_r {X Y} (R : X -> Y -> Prop) xs ys n y :
  Forall2 R xs ys -> nth_error ys n = Some y -> exists x, nth_error xs n = Some x /\ R x y.
Proof.
  intros H. revert n. induction H as [|a b xs ys Hab H IH]; intros [|n] Hn; cbn in *; try discriminate.
  - injection Hn as ->. eauto.
  - eauto.
Qed.

Lemma shapes_nth (p : list (op A W fid did)) : forall es es' x e,
  shapes p es = Some es' -> nth_error es x = Some e -> nth_error es' x = Some e.
Proof.
  induction p as [|o p IH]; intros es es' x e Hs Hx; cbn in Hs.
  - now injection Hs as <-.
  - assert (Hlt : x < length es) by (apply nth_error_Some; congruence).
    destruct o as [f ss|y|y|h].
    + destruct (spec_deps EConst EFun es ss); [|discriminate]. eapply IH; eauto. rewrite nth_error_app1; auto.
    + destruct (nth_error es y); [|discriminate]. eapply IH; eauto. rewrite nth_error_app1; auto.
    + destruct (nth_error es y); [|discriminate]. eauto.
    + eauto.
Qed.

Lemma real_inputs p x w s outs s' r lg es :
  srun U p (mkSState [] w) = Some (s, outs) ->
  sexec U (SCall x) s = Some (s', (Some r, lg)) ->
  shapes (map by_value p) [] = Some es ->
  r <> UB /\
  forall o, r = Ok o ->
    exists e v, nth_error es x = Some e /\ o = visible v /\
                mixed pf rd (fun w' => In w' (called_worlds (p ++ [SCall x]) w)) e v.
Proof.
  intros Hr Hx Hsh. set (P := fun w' => In w' (called_worlds (p ++ [SCall x]) w)).
  assert (Hp : forall w', In w' (called_worlds p w) -> P w').
  { intros w' Hw'. unfold P. clear - Hw'. revert w Hw'. induction p as [|o p IH]; intros w Hw'; [destruct Hw'|].
    destruct o; cbn in *; auto. destruct Hw'; auto. }
  destruct (srun_from P p [] [] w s outs es) as [Hv Hw]; auto.
  specialize (Hw [SCall x] (fun _ H => H)). cbn in Hw.
  cbn in Hx. destruct (nth_error (svars s) x) as [l|] eqn:El; [|discriminate].
  assert (He : exists e, nth_error es x = Some e /\ from P es e l).
  { exact (Forall2_nth_error_r _ _ _ _ _ Hv El). }
  destruct He as (e & He & Hl).
  destruct (sstep U (length (svars s)) l (svars s) (sworld s)) as [[[[[r0 l'] vs'] w'] lg']|] eqn:Es; [|discriminate].
  injection Hx as <- <- <-.
  destruct (sstep_sound P _ _ _ _ _ _ _ _ _ _ _ Hl Hv (Hw _ (or_introl eq_refl)) Es) as (_ & _ & _ & Hr0).
  destruct r0 as [[v ch]| |]; [| |destruct Hr0].
  - split; [destruct v; discriminate|]. intros o Ho. exists e, v. repeat split; auto.
    destruct v; cbn in Ho; injection Ho as <-; reflexivity.
  - split; discriminate.
Qed.

(** ** A call that evaluates everything *)
Lemma subseq_length {X} (a b : list X) : subseq a b -> length a <= length b.
Proof. induction 1; cbn; lia. Qed.

Lemma subseq_full {X} (a b : list X) : subseq a b -> length a = length b -> a = b.
Proof.
  induction 1 as [|x a b H IH|x a b H IH]; cbn; intros E; auto.
  - apply subseq_length in H. lia.
  - f_equal. auto.
Qed.

Lemma subseq_full_app {X} (a b c d : list X) :
  subseq a b -> subseq c d -> a ++ c = b ++ d -> a = b /\ c = d.
Proof.
  intros H1 H2 E. pose proof (subseq_length _ _ H1). pose proof (subseq_length _ _ H2).
  apply (f_equal (@length X)) in E as El. rewrite !app_length in El.
  split; apply subseq_full; auto; lia.
Qed.

Lemma performs_world_mut :
  (forall l w lg w' v, performs U l w lg w' v -> w' = w) /\
  (forall ds w lg w' vs, performs_all U ds w lg w' vs -> w' = w).
Proof.
  destruct Hpt as [Hsem Hdsem].
  assert (Hs : forall f a x r y, sem U f a x = (r, y) -> y = x).
  { intros f a x r y H. destruct (Hsem f a x) as [E|E]; rewrite E in H; now injection H as _ <-. }
  assert (Hd : forall d x r y, dsem U d x = (r, y) -> y = x).
  { intros d x r y H. destruct (Hdsem d x) as [E|E]; rewrite E in H; now injection H as _ <-. }
  apply performs_mut; intros;
    repeat match goal with
           | H : sem U _ _ _ = _ |- _ => apply Hs in H
           | H : dsem U _ _ = _ |- _ => apply Hd in H
           end; congruence.
Qed.

Lemma passes_regular (vs args : list value) :
  passes vs args -> match vs with [v] => as_tuple v = None | _ => True end -> args = vs.
Proof. destruct 1; auto; discriminate. Qed.

Lemma performs_recover_mut :
  (forall l w lg w' v, performs U l w lg w' v ->
     forall e u, has_shape U e l -> evaluations lg = postorder e -> regular pf rd e ->
     v = Some u -> u = eval pf rd e w) /\
  (forall ds w lg w' vs, performs_all U ds w lg w' vs ->
     forall es us, Forall2 (has_shape U) es ds -> evaluations lg = flat_map postorder es ->
     Forall (regular pf rd) es -> vs = Some us -> us = map (fun e => eval pf rd e w) es).
Proof.
  assert (Happ : forall f us vs args o w1 w2 w,
    vs = map (fun e => eval pf rd e w) us -> regular pf rd (EApp f us) -> passes vs args ->
    sem U f args w1 = (FRet o, w2) -> match o with Some v => v | None => VVoid end = eval pf rd (EApp f us) w).
  { intros f us vs args o w1 w2 w -> Hreg Hp Hs. destruct Hpt as [Hsem _].
    apply passes_regular in Hp as ->.
    2:{ apply regular_app in Hreg as [H1 _]. destruct us as [|u [|u2 us]]; cbn; auto. }
    destruct (Hsem f (map (fun e => eval pf rd e w) us) w1) as [E|E]; rewrite E in Hs; [|discriminate].
    injection Hs as <- <-. reflexivity. }
  apply performs_mut.
  - intros v ch w e u H _ _ E. inversion H; subst. now injection E as <-.
  - intros f c ds w lg w' vs Hp IH e u H E. inversion H; subst. cbn in E.
    pose proof (proj2 (performs_evals_mut U) _ _ _ _ _ Hp _ ltac:(eassumption)) as Hsub.
    apply subseq_length in Hsub. rewrite E, app_length in Hsub. cbn in Hsub. lia.
  - intros f ds w lg w1 vs args o w2 Hp IH Hpa Hs e u H E Hreg Hu. inversion H; subst. injection Hu as <-.
    rewrite evaluations_app in E. cbn in E. apply app_inj_tail in E as [E _].
    assert (Hvs : vs = map (fun e => eval pf rd e w) es)
      by (apply IH; auto; now apply regular_app in Hreg).
    exact (Happ _ _ _ _ _ _ _ _ Hvs Hreg Hpa Hs).
  - intros f c ds w lg w1 vs args o w2 Hp IH Hpa Hs e u H E Hreg Hu. inversion H; subst. injection Hu as <-.
    rewrite evaluations_app in E. cbn in E. apply app_inj_tail in E as [E _].
    assert (Hvs : vs = map (fun e => eval pf rd e w) es)
      by (apply IH; auto; now apply regular_app in Hreg).
    exact (Happ _ _ _ _ _ _ _ _ Hvs Hreg Hpa Hs).
  - discriminate.
  - discriminate.
  - intros d ds w v w' Hs e u H _ _ Hu. inversion H; subst. injection Hu as <-.
    destruct Hpt as [_ Hdsem]. destruct (Hdsem d w) as [E|E]; rewrite E in Hs; [|discriminate].
    now injection Hs as <- _.
  - intros d c ds w v w' Hs e u H _ _ Hu. inversion H; subst. injection Hu as <-.
    destruct Hpt as [_ Hdsem]. destruct (Hdsem d w) as [E|E]; rewrite E in Hs; [|discriminate].
    now injection Hs as <- _.
  - discriminate.
  - intros w es us H _ _ E. inversion H; subst. now injection E as <-.
  - intros d ds w lg1 w1 v lg2 w2 vs Hp1 IH1 Hp2 IH2 es us H E Hreg Hu.
    inversion H as [|e ? es' ? He Hes]; subst. inversion Hreg; subst. injection Hu as <-.
    rewrite evaluations_app in E. cbn in E.
    apply subseq_full_app in E as [E1 E2];
      [|eapply (proj1 (performs_evals_mut U)); eauto|eapply (proj2 (performs_evals_mut U)); eauto].
    pose proof (proj1 performs_world_mut _ _ _ _ _ Hp1) as ->.
    cbn. f_equal; eauto.
  - discriminate.
  - discriminate.
Qed.

Lemma recovers p w s outs es x e s' o lg :
  run U p (mkState [] w) = Some (s, outs) -> shapes p [] = Some es ->
  nth_error es x = Some e -> regular pf rd e ->
  exec U (Call x) s = Some (s', (Some (Ok o), lg)) ->
  evaluations lg = postorder e ->
  o = visible (eval pf rd e (world s)).
Proof.
  intros Hr Hs Hx Hreg He Hev. destruct (program_var _ _ _ _ _ _ _ _ Hr Hs Hx) as (l & Hl & Hshape).
  destruct (exec_call_inv _ _ _ _ _ _ He) as (l0 & l' & r' & Hl0 & Hstep & Hres & _).
  rewrite Hl in Hl0. injection Hl0 as <-.
  pose proof (step_performs U l e (world s) Hshape) as Hp. rewrite Hstep in Hp.
  destruct r' as [[v ch]| |]; try discriminate.
  rewrite <- (proj1 performs_recover_mut _ _ _ _ _ Hp e v Hshape Hev Hreg eq_refl).
  destruct v; cbn in Hres; injection Hres as ->; reflexivity.
Qed.

End Proofs.
