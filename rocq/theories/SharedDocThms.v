(** Sharing by reference in the design of dependencies.md (C95). *)
From Coq Require Import List Bool Arith Lia.
From Verif Require Import Value TupleAlg TupleAlgProofs LazyModel LazySpec LazySpec2 LazyProofs LazyGeneral LazyThms
  SharedModel DocModel SharedDocModel.
Import ListNotations.

Section SharedDoc.
Context {A W fid did : Type}.
Notation value := (val A).
Notation expr := (expr A fid did).
Notation xz := (xz A fid did).
Variable U : user A W fid did.

Lemma xz_ind' (P : xz -> Prop) :
  (forall v, P (XConst v)) -> (forall d, P (XFun d)) ->
  (forall f c a ds, Forall P ds -> P (XNode f c a ds)) -> (forall x, P (XRef x)) -> forall l, P l.
Proof.
  intros Hc Hf Hn Hr. fix IH 1. intros [v|d|f c a ds|x]; [apply Hc|apply Hf| |apply Hr].
  apply Hn. induction ds as [|d ds IHds]; constructor; [apply IH|exact IHds].
Qed.

Notation xcalls n := (xcalls_with (xcall U n)).

Lemma xcall_eq n l vs w :
  xcall U n l vs w =
  match l with
  | XConst v => Some (Ok v, l, vs, w, [])
  | XFun d =>
      let '(r, w') := dsem U d w in
      Some (match r with VRet v => Ok v | VThrow => Exc end, l, vs, w', [EvSample d])
  | XRef x =>
      match n with
      | 0 => None
      | S n' =>
          match nth_error vs x with
          | None => None
          | Some l0 =>
              match xcall U n' l0 vs w with
              | None => None
              | Some (r, l0', vs', w', lg) => Some (r, XRef x, update x l0' vs', w', lg)
              end
          end
      end
  | XNode f cache args_cache deps =>
      match xcalls n deps vs w with
      | None => None
      | Some (Ok rs, deps', vs1, w1, l1) =>
          let args := ctad_tuple as_tuple rs in
          if negb (is_some cache) || args_differ U args_cache args then
            let '(r, w2) := sem U f args w1 in
            Some (match regularized r with
                  | VRet v => (Ok v, XNode f (Some v) (Some args) deps', vs1, w2, l1 ++ [EvCall f args])
                  | VThrow => (Exc, XNode f cache args_cache deps', vs1, w2, l1 ++ [EvCall f args])
                  end)
          else
            Some (match cache with Some c => Ok c | None => UB end, XNode f cache args_cache deps', vs1, w1, l1)
      | Some (Exc, deps', vs1, w1, l1) => Some (Exc, XNode f cache args_cache deps', vs1, w1, l1)
      | Some (UB, deps', vs1, w1, l1) => Some (UB, XNode f cache args_cache deps', vs1, w1, l1)
      end
  end.
Proof. destruct n, l; reflexivity. Qed.

Lemma xcalls_cons n d ds vs w :
  xcalls n (d :: ds) vs w =
  match xcall U n d vs w with
  | None => None
  | Some (Ok x, d', vs1, w1, l1) =>
      match xcalls n ds vs1 w1 with
      | None => None
      | Some (rs, ds'', vs2, w2, l2) =>
          Some (match rs with Ok xs => Ok (x :: xs) | Exc => Exc | UB => UB end,
                d' :: ds'', vs2, w2, l1 ++ l2)
      end
  | Some (Exc, d', vs1, w1, l1) => Some (Exc, d' :: ds, vs1, w1, l1)
  | Some (UB, d', vs1, w1, l1) => Some (UB, d' :: ds, vs1, w1, l1)
  end.
Proof. reflexivity. Qed.

(** ** Values *)
Section Values.
Variable pf : fid -> list value -> option value.
Variable rd : did -> W -> value.
Variable throwing : Prop.
Hypothesis Hsem : forall f args w,
  sem U f args w = (FRet (pf f args), w) \/ throwing /\ sem U f args w = (FThrow, w).
Hypothesis Hdsem : forall d w, dsem U d w = (VRet (rd d w), w) \/ throwing /\ dsem U d w = (VThrow, w).
Hypothesis Hsound : sound_eq U.
Notation eval := (eval pf rd).

(** [l] computes [e], where variable [x] computes [nth x es]; references are to variables
    before [k]; the cached result is that of the cached arguments. *)
Inductive knows (es : list expr) (k : nat) : expr -> xz -> Prop :=
| kn_const v : knows es k (EConst v) (XConst v)
| kn_fun d : knows es k (EFun d) (XFun d)
| kn_node f c a us ds :
    Forall2 (knows es k) us ds ->
    (forall v, c = Some v -> exists args, a = Some args /\ v = fval pf f args) ->
    knows es k (EApp f us) (XNode f c a ds)
| kn_ref x e : nth_error es x = Some e -> x < k -> knows es k e (XRef x).

Lemma knows_more es es2 k k2 l : k <= k2 -> forall e, knows es k e l -> knows (es ++ es2) k2 e l.
Proof.
  intros Hk. induction l as [v|d|f c a ds IH|x] using xz_ind'; intros e H; inversion H; subst; try constructor; auto.
  - clear H. match goal with H : Forall2 _ _ _ |- _ => induction H end; constructor; inversion IH; subst; auto.
  - rewrite nth_error_app1; [assumption|]. apply nth_error_Some. congruence.
  - lia.
Qed.

Definition know (es : list expr) (vs : list xz) : Prop :=
  length vs = length es /\ forall x e l, nth_error es x = Some e -> nth_error vs x = Some l -> knows es x e l.

Lemma knows_le es k k2 e l : k <= k2 -> knows es k e l -> knows es k2 e l.
Proof. intros Hk H. rewrite <- (app_nil_r es). now apply knows_more with (k := k). Qed.

Lemma know_update es vs x e l :
  know es vs -> nth_error es x = Some e -> knows es x e l -> know es (update x l vs).
Proof.
  intros [Hlen H] Hx Hl. split; [now rewrite update_length|].
  intros y e' l' Hy Hl'. rewrite nth_error_update in Hl'. destruct (x =? y) eqn:E; [|eauto].
  apply Nat.eqb_eq in E as <-. destruct (x <? length vs); congruence.
Qed.

Definition right_step (n : nat) (l : xz) : Prop := forall es e k vs w,
  know es vs -> knows es k e l -> k <= n -> k <= length es -> regular pf rd e ->
  exists r l' vs' lg, xcall U n l vs w = Some (r, l', vs', w, lg) /\ know es vs' /\ knows es k e l' /\
    (r = Ok (eval e w) \/ throwing /\ r = Exc).

Lemma right_steps n ds : Forall (right_step n) ds -> forall es us k vs w,
  know es vs -> Forall2 (knows es k) us ds -> k <= n -> k <= length es -> Forall (regular pf rd) us ->
  exists r ds' vs' lg, xcalls n ds vs w = Some (r, ds', vs', w, lg) /\ know es vs' /\ Forall2 (knows es k) us ds' /\
    (r = Ok (map (fun e => eval e w) us) \/ throwing /\ r = Exc).
Proof.
  induction 1 as [|d ds Hd Hds IH]; intros es us k vs w Hv Hk Hn Hl Hr.
  - inversion Hk; subst. exists (Ok []), [], vs, []. repeat split; auto; apply Hv.
  - inversion Hk as [|u ? us' ? Hu Hus]; subst. inversion Hr as [|? ? Hr1 Hr2]; subst. rewrite xcalls_cons.
    destruct (Hd es u k vs w Hv Hu Hn Hl Hr1) as (r & d' & vs1 & lg & -> & Hv1 & Hd' & [->|[Ht ->]]).
    + destruct (IH es us' k vs1 w Hv1 Hus Hn Hl Hr2) as (rs & ds' & vs2 & lg2 & -> & Hv2 & Hds' & Hrs).
      do 4 eexists. split; [reflexivity|]. split; [exact Hv2|]. split; [now constructor|].
      destruct Hrs as [->|[Ht ->]]; auto.
    + do 4 eexists. split; [reflexivity|]. split; [exact Hv1|]. split; [now constructor|auto].
Qed.

Lemma step_right n : forall l, right_step n l.
Proof.
  induction n as [n IHn] using lt_wf_ind.
  induction l as [v|d|f c a ds IH|x] using xz_ind'; intros es e k vs w Hv Hk Hn Hl Hr;
    rewrite xcall_eq; inversion Hk; subst.
  - do 4 eexists. split; [reflexivity|]. auto.
  - destruct (Hdsem d w) as [->|[Ht ->]]; do 4 eexists; (split; [reflexivity|]); auto.
  - apply regular_app in Hr as [Hone Hr].
    destruct (right_steps n ds IH es us k vs w Hv ltac:(assumption) Hn Hl Hr)
      as (r & ds' & vs1 & lg & -> & Hv1 & Hds' & [->|[Ht ->]]).
    + assert (Hargs : ctad_tuple as_tuple (map (fun e => eval e w) us) = map (fun e => eval e w) us).
      { apply ctad_regular. intros y Hy. destruct us as [|u1 [|u2 us]]; try discriminate. injection Hy as <-. apply Hone. }
      rewrite Hargs. cbv zeta.
      destruct (negb (is_some c) || args_differ U a _) eqn:E.
      * destruct (Hsem f (map (fun e => eval e w) us) w) as [->|[Ht ->]].
        -- assert (Hreg : regularized (FRet (pf f (map (fun e => eval e w) us))) = VRet (eval (EApp f us) w)).
           { cbn. unfold fval. now destruct (pf f _). }
           rewrite Hreg. do 4 eexists. split; [reflexivity|]. split; [exact Hv1|]. split; [|auto].
           constructor; auto. intros v Hvv. injection Hvv as <-. eexists. split; reflexivity.
        -- cbn [regularized]. do 4 eexists. split; [reflexivity|]. split; [exact Hv1|]. split; [|auto]. now constructor.
      * apply orb_false_iff in E as [Ec Ea]. destruct c as [c|]; [|discriminate].
        match goal with H : forall v, Some c = Some v -> _ |- _ => pose proof H as Hc end.
        destruct (Hc c eq_refl) as (args & -> & ->).
        do 4 eexists. split; [reflexivity|]. split; [exact Hv1|]. split; [now constructor|]. left.
        cbn [args_differ] in Ea. apply negb_false_iff in Ea. apply (veq_sound _ Hsound) in Ea. injection Ea as ->.
        reflexivity.
    + do 4 eexists. split; [reflexivity|]. split; [exact Hv1|]. split; [|auto]. now constructor.
  - destruct n as [|n]; [lia|]. destruct Hv as [Hlen Hv].
    destruct (nth_error vs x) as [l0|] eqn:El.
    2: { apply nth_error_None in El. lia. }
    assert (Hx : knows es x e l0) by eauto.
    destruct (IHn n (Nat.lt_succ_diag_r n) l0 es e x vs w (conj Hlen Hv) Hx) as (r & l1 & vs1 & lg & -> & Hv1 & Hl1 & Hr1);
      [lia|lia|exact Hr|].
    do 4 eexists. split; [reflexivity|]. split; [|split; [exact Hk|exact Hr1]].
    eapply know_update; eauto.
Qed.

Lemma xdeps_know es vs ss : know es vs ->
  match spec_deps EConst EFun es (map by_value_dep ss) with
  | Some us => exists ds, xdeps_of vs ss = Some ds /\ Forall2 (knows es (length es)) us ds
  | None => True
  end.
Proof.
  intros [Hlen Hv]. induction ss as [|s ss IH]; cbn [map spec_deps xdeps_of]; [exists []; auto|].
  assert (Hin : forall x e, nth_error es x = Some e -> exists l, nth_error vs x = Some l /\ knows es (length es) e l /\ x < length es).
  { intros x e He. assert (x < length es) by (apply nth_error_Some; congruence).
    destruct (nth_error vs x) as [l|] eqn:El; [|apply nth_error_None in El; lia].
    exists l. split; [reflexivity|]. split; [|assumption]. eapply knows_le; [|eauto]. lia. }
  destruct s as [x|[x|d|v]]; cbn [by_value_dep xdep_of].
  - destruct (nth_error es x) as [e|] eqn:E; [|exact I]. destruct (Hin x e E) as (l & -> & Hl & Hlt).
    destruct (spec_deps _ _ es _) as [us|]; [|exact I]. destruct IH as (ds & -> & Hds).
    eexists. split; [reflexivity|]. constructor; [now constructor|exact Hds].
  - destruct (nth_error es x) as [e|] eqn:E; [|exact I]. destruct (Hin x e E) as (l & -> & Hl & Hlt).
    destruct (spec_deps _ _ es _) as [us|]; [|exact I]. destruct IH as (ds & -> & Hds).
    eexists. split; [reflexivity|]. constructor; [exact Hl|exact Hds].
  - destruct (spec_deps _ _ es _) as [us|]; [|exact I]. destruct IH as (ds & -> & Hds).
    eexists. split; [reflexivity|]. constructor; [constructor|exact Hds].
  - destruct (spec_deps _ _ es _) as [us|]; [|exact I]. destruct IH as (ds & -> & Hds).
    eexists. split; [reflexivity|]. constructor; [constructor|exact Hds].
Qed.

Lemma know_add es vs e l : know es vs -> knows es (length es) e l -> know (es ++ [e]) (vs ++ [l]).
Proof.
  intros [Hlen Hv] Hl. split; [rewrite !app_length; cbn; lia|].
  intros x e' l' He Hl'. destruct (lt_dec x (length es)) as [Hx|Hx].
  - rewrite nth_error_app1 in He by lia. rewrite nth_error_app1 in Hl' by lia.
    apply knows_more with (k := x); [lia|eauto].
  - assert (x = length es).
    { assert (x < length (es ++ [e])) by (apply nth_error_Some; congruence). rewrite app_length in *; cbn in *; lia. }
    subst x. rewrite nth_error_app2, Nat.sub_diag in He by lia. rewrite nth_error_app2, Hlen, Nat.sub_diag in Hl' by lia.
    cbn in He, Hl'. injection He as <-. injection Hl' as <-. apply knows_more with (k := length es); [lia|exact Hl].
Qed.

Lemma eager_grows p : forall es w es' vals, eager pf rd p es w = Some (es', vals) -> exists more, es' = es ++ more.
Proof.
  induction p as [|o p IH]; intros es w es' vals H; cbn in H.
  - injection H as <- <-. exists []. now rewrite app_nil_r.
  - destruct o as [f ss|x|x|h].
    + destruct (spec_deps _ _ es ss); [|discriminate]. destruct (IH _ _ _ _ H) as [more ->]. rewrite <- app_assoc. eauto.
    + destruct (nth_error es x); [|discriminate]. destruct (IH _ _ _ _ H) as [more ->]. rewrite <- app_assoc. eauto.
    + destruct (nth_error es x); [|discriminate]. destruct (eager pf rd p es w) as [[? ?]|] eqn:E; [|discriminate].
      injection H as <- <-. eauto.
    + eauto.
Qed.

Lemma xrun_right p : forall es w es' vals vs,
  know es vs -> eager pf rd (map by_value p) es w = Some (es', vals) -> Forall (regular pf rd) es' ->
  exists s outs, xrun U p (mkXState vs w) = Some (s, outs) /\
    Forall2 (fun r v => r = Ok v \/ throwing /\ r = Exc) (results outs) vals.
Proof.
  induction p as [|o p IH]; intros es w es' vals vs Hv He Hr.
  - cbn in He. injection He as <- <-. do 2 eexists. split; [reflexivity|constructor].
  - destruct o as [f ss|x|x|h]; cbn [map by_value eager] in He; cbn [xrun xexec xvars xworld].
    + pose proof (xdeps_know es vs ss Hv) as Hd. destruct (spec_deps _ _ es _) as [us|]; [|discriminate].
      destruct Hd as (ds & -> & Hds).
      destruct (IH (es ++ [EApp f us]) w es' vals (vs ++ [XNode f None None ds])) as (s & outs & -> & Ho); auto.
      { apply know_add; [exact Hv|]. constructor; [exact Hds|discriminate]. }
      do 2 eexists. split; [reflexivity|exact Ho].
    + destruct (nth_error es x) as [e|] eqn:E; [|discriminate]. pose proof Hv as [Hlen Hv'].
      assert (x < length es) by (apply nth_error_Some; congruence).
      destruct (nth_error vs x) as [l|] eqn:El; [|apply nth_error_None in El; lia].
      destruct (IH (es ++ [e]) w es' vals (vs ++ [l])) as (s & outs & -> & Ho); auto.
      { apply know_add; [exact Hv|]. eapply knows_le; [|eauto]. lia. }
      do 2 eexists. split; [reflexivity|exact Ho].
    + destruct (nth_error es x) as [e|] eqn:E; [|discriminate]. pose proof Hv as [Hlen Hv'].
      assert (x < length es) by (apply nth_error_Some; congruence).
      destruct (nth_error vs x) as [l|] eqn:El; [|apply nth_error_None in El; lia].
      destruct (eager pf rd (map by_value p) es w) as [[es1 vals1]|] eqn:Ee; [|discriminate]. injection He as <- <-.
      assert (Hre : regular pf rd e).
      { destruct (eager_grows _ _ _ _ _ Ee) as [more ->]. apply Forall_app in Hr as [Hr _].
        rewrite Forall_forall in Hr. apply Hr. eapply nth_error_In; eauto. }
      destruct (step_right (length vs) l es e x vs w Hv (Hv' _ _ _ E El)) as (r & l' & vs' & lg & -> & Hv1 & Hl' & Hres);
        [lia|lia|exact Hre|].
      destruct (IH es w es1 vals1 (update x l' vs') (know_update _ _ _ _ _ Hv1 E Hl') Ee Hr) as (s & outs & -> & Ho).
      do 2 eexists. split; [reflexivity|]. cbn. constructor; [|exact Ho].
      destruct Hres as [->|[Ht ->]]; [left|right; auto]. apply api_result_visible.
    + destruct (IH es (h w) es' vals vs Hv He Hr) as (s & outs & -> & Ho).
      do 2 eexists. split; [reflexivity|exact Ho].
Qed.
End Values.

Lemma shared_right pf rd : pure_user U pf rd -> sound_eq U -> forall p w es vals,
  eager pf rd (map by_value p) [] w = Some (es, vals) -> Forall (regular pf rd) es ->
  exists s outs, xrun U p (mkXState [] w) = Some (s, outs) /\ results outs = map Ok vals.
Proof.
  intros [Hsem Hdsem] Hsound p w es vals He Hr.
  destruct (xrun_right pf rd False) with (p := p) (es := @nil expr) (w := w) (es' := es) (vals := vals) (vs := @nil xz)
    as (s & outs & Hx & Ho); auto.
  - split; [reflexivity|]. intros [|x]; discriminate.
  - do 2 eexists. split; [exact Hx|]. clear Hx He. revert Ho. generalize (results outs). intros l Ho.
    induction Ho as [|r v rs vs [->|[[] _]] Ho IH]; [reflexivity|]. cbn. now rewrite IH.
Qed.

Lemma shared_right_or_throws pf rd : pure_or_throw U pf rd -> sound_eq U -> forall p w es vals,
  eager pf rd (map by_value p) [] w = Some (es, vals) -> Forall (regular pf rd) es ->
  exists s outs, xrun U p (mkXState [] w) = Some (s, outs) /\
    Forall2 (fun r v => r = Exc \/ r = Ok v) (results outs) vals.
Proof.
  intros [Hsem Hdsem] Hsound p w es vals He Hr.
  destruct (xrun_right pf rd True) with (p := p) (es := @nil expr) (w := w) (es' := es) (vals := vals) (vs := @nil xz)
    as (s & outs & Hx & Ho); auto.
  - intros f args w0. destruct (Hsem f args w0); auto.
  - intros d w0. destruct (Hdsem d w0); auto.
  - split; [reflexivity|]. intros [|x]; discriminate.
  - do 2 eexists. split; [exact Hx|]. clear Hx He. revert Ho. generalize (results outs). intros l Ho.
    induction Ho as [|r v rs vs [->|[_ ->]] Ho IH]; constructor; auto.
Qed.

(** ** Without references *)
Notation wz := (wz A fid did).
Fixpoint with_refs (l : wz) : xz :=
  match l with
  | WConst v => XConst v
  | WFun d => XFun d
  | WNode f c a ds => XNode f c a (map with_refs ds)
  end.

Lemma wz_ind2 (P : wz -> Prop) :
  (forall v, P (WConst v)) -> (forall d, P (WFun d)) ->
  (forall f c a ds, Forall P ds -> P (WNode f c a ds)) -> forall l, P l.
Proof.
  intros Hc Hf Hn. fix IH 1. intros [v|d|f c a ds]; [apply Hc|apply Hf|].
  apply Hn. induction ds as [|d ds IHds]; constructor; [apply IH|exact IHds].
Qed.

Lemma xcall_no_refs n vs l : forall w,
  xcall U n (with_refs l) vs w =
  let '(r, l', w', lg) := wcall U l w in Some (r, with_refs l', vs, w', lg).
Proof.
  induction l as [v|d|f c a ds IH] using wz_ind2; intros w; rewrite xcall_eq; cbn [with_refs wcall].
  - reflexivity.
  - destruct (dsem U d w) as [r w']. reflexivity.
  - assert (H : forall w, xcalls n (map with_refs ds) vs w =
      let '(r, ds', w', lg) := wcalls_with (wcall U) ds w in Some (r, map with_refs ds', vs, w', lg)).
    { clear w. induction IH as [|d ds Hd Hds IHds]; intros w; [reflexivity|].
      cbn [map]. rewrite xcalls_cons, Hd. cbn [wcalls_with]. destruct (wcall U d w) as [[[r d'] w1] l1].
      destruct r as [v| |]; [|reflexivity|reflexivity]. rewrite IHds.
      now destruct (wcalls_with (wcall U) ds w1) as [[[rs ds'] w2] l2]. }
    rewrite H. destruct (wcalls_with (wcall U) ds w) as [[[[rs| |] ds'] w1] l1]; try reflexivity.
    cbv zeta. destruct (negb (is_some c) || _); [|reflexivity].
    destruct (sem U f _ w1) as [r w2]. now destruct (regularized r).
Qed.

Lemma xdeps_no_refs vs ss :
  xdeps_of (map with_refs vs) (map SDep ss) = option_map (map with_refs) (wdeps_of vs ss).
Proof.
  induction ss as [|s ss IH]; [reflexivity|]. cbn [map xdeps_of wdeps_of]. rewrite IH.
  destruct s as [x|d|v]; cbn; [rewrite nth_error_map; destruct (nth_error vs x); cbn|..]; destruct (wdeps_of vs ss); reflexivity.
Qed.

Lemma xrun_no_refs p : forall vs w,
  option_map snd (xrun U (map no_refs p) (mkXState (map with_refs vs) w)) = wrun U p vs w.
Proof.
  induction p as [|o p IH]; intros vs w; [reflexivity|].
  cbn [map xrun wrun]. destruct o as [f ss|x|x|h]; cbn [no_refs xexec xvars xworld].
  - rewrite xdeps_no_refs. destruct (wdeps_of vs ss) as [ds|]; [|reflexivity]. cbn [option_map].
    specialize (IH (vs ++ [WNode f None None ds]) w). rewrite map_app in IH. cbn [map with_refs] in IH. rewrite <- IH.
    now destruct (xrun U (map no_refs p) _) as [[? ?]|].
  - rewrite nth_error_map. destruct (nth_error vs x) as [l|]; [|reflexivity]. cbn [option_map].
    specialize (IH (vs ++ [l]) w). rewrite map_app in IH. cbn [map] in IH. rewrite <- IH.
    now destruct (xrun U (map no_refs p) _) as [[? ?]|].
  - rewrite nth_error_map. destruct (nth_error vs x) as [l|]; [|reflexivity]. cbn [option_map].
    rewrite xcall_no_refs. destruct (wcall U l w) as [[[r l'] w'] lg].
    specialize (IH (update x l' vs) w'). rewrite map_update in IH. rewrite <- IH.
    now destruct (xrun U (map no_refs p) _) as [[? ?]|].
  - specialize (IH vs (h w)). rewrite <- IH. now destruct (xrun U (map no_refs p) _) as [[? ?]|].
Qed.

Lemma same_without_refs p w : option_map snd (xrun U (map no_refs p) (mkXState [] w)) = wrun U p [] w.
Proof. exact (xrun_no_refs p [] w). Qed.
End SharedDoc.
