(** After a call, nothing that it refers to is evaluated again in the same world (C97). *)
From Coq Require Import List Bool Arith Lia.
From Verif Require Import Value TupleAlg LazyModel LazySpec LazyProofs LazyGeneral TupleAlgProofs SharedModel DocSpec DocThms
  SharedProofs HistoryThms VersionSpec.
Import ListNotations.

Section Settled.
Context {A W fid did : Type}.
Notation value := (val A).
Notation slz := (slz A fid did).
Variable U : user A W fid did.
Notation ssteps n := (ssteps_with (sstep U n)).
Variable pf : fid -> list value -> option value.
Variable rd : did -> W -> value.
Hypothesis Hpure : pure_user U pf rd.
Hypothesis Hrefl : forall a, aeq U a a = true.
Hypothesis Hnull : forall d w, has_nullopt (rd d w) = false.

(** A call in [w] would evaluate no wrapped function. *)
Inductive settled (vs : list slz) (w : W) : slz -> Prop :=
| se_value v : settled vs w (SValue v false)
| se_fun d v : settled vs w (SCore (FnSample d) (Some (rd d w)) [SValue v true])
| se_core f c ds : settled_all vs w ds -> settled vs w (SCore (FnUser f) (Some c) ds)
| se_ref x l : nth_error vs x = Some l -> settled vs w l -> settled vs w (SRef x)
with settled_all (vs : list slz) (w : W) : list slz -> Prop :=
| sa_nil : settled_all vs w []
| sa_cons d ds : settled vs w d -> settled_all vs w ds -> settled_all vs w (d :: ds).
Scheme settled_min := Minimality for settled Sort Prop
  with settled_all_min := Minimality for settled_all Sort Prop.
Combined Scheme settled_mut from settled_min, settled_all_min.

Definition kept (w : W) (vs vs' : list slz) : Prop :=
  forall x l, nth_error vs x = Some l -> settled vs w l -> nth_error vs' x = Some l.
Definition untouched (k : nat) (vs vs' : list slz) : Prop := forall y, k <= y -> nth_error vs' y = nth_error vs y.
Definition is_core (l : slz) : bool := match l with SCore (FnUser _) _ _ => true | _ => false end.
Definition cached (l : slz) : option value := match l with SCore _ c _ => c | _ => None end.

Lemma settled_kept w vs vs' l : kept w vs vs' -> settled vs w l -> settled vs' w l.
Proof.
  intros Hk. revert l. refine (proj1 (settled_mut vs w (settled vs' w) (settled_all vs' w) _ _ _ _ _ _)); try (constructor; auto; fail).
  intros x l Hx Hl IH. econstructor; [exact (Hk _ _ Hx Hl)|exact IH].
Qed.
Lemma kept_refl w vs : kept w vs vs.
Proof. intros x l H _. exact H. Qed.
Lemma kept_trans w vs vs1 vs2 : kept w vs vs1 -> kept w vs1 vs2 -> kept w vs vs2.
Proof. intros H1 H2 x l Hx Hl. apply H2; [now apply H1|]. now apply (settled_kept w vs vs1 l H1). Qed.

(** References are to variables before [k]; what lazy.h:78-90 makes of dependencies. *)
Inductive below (k : nat) : slz -> Prop :=
| be_value v : below k (SValue v false)
| be_fun d c v : below k (SCore (FnSample d) c [SValue v true])
| be_core f c ds : Forall (below k) ds -> below k (SCore (FnUser f) c ds)
| be_ref x : x < k -> below k (SRef x).

Lemma below_le k k2 l : k <= k2 -> below k l -> below k2 l.
Proof.
  intros Hk. induction l as [v ch|g c ds IH|x] using slz_ind'; intros H; inversion H; subst; constructor; try lia.
  match goal with Hd : Forall (below k) ds |- _ => clear - IH Hd; induction Hd; constructor; inversion IH; subst; auto end.
Qed.

Definition ordered (vs : list slz) : Prop :=
  forall x l, nth_error vs x = Some l -> is_core l = true /\ below x l.

(** What only refers to variables before [x] does not notice that [x] changes. *)
Lemma settled_before_mut w vs x l' : ordered vs ->
  (forall l, settled vs w l -> below x l -> settled (update x l' vs) w l) /\
  (forall ls, settled_all vs w ls -> Forall (below x) ls -> settled_all (update x l' vs) w ls).
Proof.
  intros Ho. apply settled_mut.
  - constructor.
  - constructor.
  - intros f c ds _ IH Hb. inversion Hb; subst. constructor; auto.
  - intros y l Hy Hl IH Hb. inversion Hb; subst. econstructor.
    + rewrite nth_error_update. replace (x =? y) with false by (symmetry; apply Nat.eqb_neq; lia). exact Hy.
    + apply IH. apply below_le with (k := y); [lia|]. apply (Ho _ _ Hy).
  - constructor.
  - intros d ds _ IH1 _ IH2 Hb. inversion Hb; subst. constructor; auto.
Qed.

Definition brings (n : nat) (l : slz) : Prop := forall k vs w,
  ordered vs -> below k l -> k <= n -> k <= length vs ->
  exists v b l' vs' lg, sstep U n l vs w = Some (Ok (v, b), l', vs', w, lg) /\
    (is_core l = true -> cached l' = Some v) /\
    ordered vs' /\ below k l' /\ is_core l' = is_core l /\ length vs' = length vs /\ untouched k vs vs' /\
    kept w vs vs' /\ settled vs' w l' /\ (settled vs w l -> b = false /\ l' = l /\ vs' = vs /\ function_calls lg = []).

Lemma steps_bring n ds : Forall (brings n) ds -> forall k vs w,
  ordered vs -> Forall (below k) ds -> k <= n -> k <= length vs ->
  exists rs ds' vs' lg, ssteps n ds vs w = Some (Ok rs, ds', vs', w, lg) /\
    ordered vs' /\ Forall (below k) ds' /\ length vs' = length vs /\ untouched k vs vs' /\
    kept w vs vs' /\ settled_all vs' w ds' /\
    (settled_all vs w ds -> existsb id (map snd rs) = false /\ ds' = ds /\ vs' = vs /\ function_calls lg = []).
Proof.
  induction 1 as [|d ds Hd Hds IH]; intros k vs w Ho Hb Hn Hl.
  - exists [], [], vs, []. split; [reflexivity|]. split; [exact Ho|]. split; [constructor|].
    split; [reflexivity|]. split; [intros y _; reflexivity|]. split; [apply kept_refl|]. split; [constructor|]. auto.
  - inversion Hb as [|? ? Hb1 Hb2]; subst. rewrite ssteps_cons.
    destruct (Hd k vs w Ho Hb1 Hn Hl) as (v & b & d' & vs1 & lg & -> & _ & Ho1 & Hb1' & _ & Hlen & Hun & Hke & Hse & Hq).
    destruct (IH k vs1 w Ho1 Hb2 Hn ltac:(lia)) as (rs & ds' & vs2 & lg2 & -> & Ho2 & Hb2' & Hlen2 & Hun2 & Hke2 & Hse2 & Hq2).
    pose proof (settled_kept w vs1 vs2 d' Hke2 Hse) as Hse'.
    do 4 eexists. split; [reflexivity|]. split; [exact Ho2|]. split; [now constructor|].
    split; [lia|]. split; [intros y Hy; rewrite Hun2, Hun; auto|]. split; [eapply kept_trans; eauto|].
    split; [now constructor|]. intros Hs. inversion Hs as [|? ? Hs1 Hs2]; subst.
    destruct (Hq Hs1) as (-> & -> & -> & Hf1). destruct (Hq2 Hs2) as (Hb' & -> & -> & Hf2).
    rewrite function_calls_app, Hf1, Hf2. auto.
Qed.

Lemma step_brings n : forall l, brings n l.
Proof.
  destruct Hpure as [Hsem Hdsem]. induction n as [n IHn] using lt_wf_ind.
  induction l as [v ch|g c ds IH|x] using slz_ind'; intros k vs w Ho Hb Hn Hl.
  - inversion Hb; subst. rewrite sstep_eq. exists v, false, (SValue v false), vs, []. split; [reflexivity|]. split; [discriminate|].
    split; [exact Ho|]. split; [constructor|]. split; [reflexivity|].
    split; [reflexivity|]. split; [intros y _; reflexivity|]. split; [apply kept_refl|]. split; [constructor|]. auto.
  - inversion Hb as [|d ? v0|f ? ? Hbd|]; subst.
    + rewrite sstep_eq, ssteps_cons, sstep_eq. cbn [ssteps_with ctad_tuple read_refs read_ref]. rewrite core_eq.
      replace (negb (is_some c) || _) with true by (cbn; now rewrite orb_true_r).
      cbn [call_fn]. rewrite Hdsem.
      exists (rd d w), (opt_ne (aeq U) c (rd d w)), (SCore (FnSample d) (Some (rd d w)) [SValue v0 true]), vs.
      eexists. split; [reflexivity|]. split; [discriminate|]. split; [exact Ho|]. split; [constructor|]. split; [reflexivity|].
      split; [reflexivity|]. split; [intros y _; reflexivity|]. split; [apply kept_refl|]. split; [constructor|].
      intros Hs. inversion Hs; subst. rewrite opt_ne_nonnull by apply Hnull. rewrite veq_refl by exact Hrefl. auto.
    + rewrite sstep_eq.
      destruct (steps_bring n ds IH k vs w Ho Hbd Hn Hl) as (rs & ds' & vs1 & lg & -> & Ho1 & Hb1 & Hlen & Hun & Hke & Hse & Hq).
      cbv zeta. rewrite ctad_none, core_eq.
      assert (Eb : existsb snd (read_refs vs1 ds' rs) = existsb id (map snd rs)).
      { rewrite <- (read_refs_flags vs1 ds' rs). generalize (read_refs vs1 ds' rs). intros l.
        induction l as [|[a b] l IHl]; cbn; [reflexivity|]. now rewrite IHl. }
      rewrite Eb. destruct (negb (is_some c) || existsb id (map snd rs)) eqn:E.
      * cbn [call_fn]. rewrite Hsem.
        assert (Hreg : forall o, exists v, regularized (FRet o) = @VRet A v) by (intros [v|]; eexists; reflexivity).
        match goal with |- context [pf f ?a] => destruct (Hreg (pf f a)) as [v ->] end.
        exists v, (opt_ne (aeq U) c v), (SCore (FnUser f) (Some v) ds'), vs1. eexists. split; [reflexivity|]. split; [reflexivity|].
        split; [exact Ho1|]. split; [now constructor|]. split; [reflexivity|].
        split; [exact Hlen|]. split; [exact Hun|]. split; [exact Hke|]. split; [now constructor|].
        intros Hs. exfalso. inversion Hs; subst. destruct (Hq ltac:(assumption)) as (Hb' & _).
        rewrite Hb' in E. discriminate.
      * apply orb_false_iff in E as [Ec Es]. destruct c as [c|]; [|discriminate].
        exists c, false, (SCore (FnUser f) (Some c) ds'), vs1. eexists. split; [reflexivity|]. split; [reflexivity|].
        split; [exact Ho1|]. split; [now constructor|]. split; [reflexivity|].
        split; [exact Hlen|]. split; [exact Hun|]. split; [exact Hke|]. split; [now constructor|].
        intros Hs. inversion Hs; subst. destruct (Hq ltac:(assumption)) as (_ & -> & -> & Hf). rewrite app_nil_r. auto.
  - rewrite sstep_eq. inversion Hb as [| | |? Hx]; subst. destruct n as [|n]; [lia|].
    destruct (nth_error vs x) as [l0|] eqn:El.
    2: { apply nth_error_None in El. lia. }
    destruct (Ho _ _ El) as [Hc0 Hb0].
    destruct (IHn n (Nat.lt_succ_diag_r n) l0 x vs w Ho Hb0 ltac:(lia) ltac:(lia))
      as (v & b & l1 & vs1 & lg & -> & Hca & Ho1 & Hb1 & Hc1 & Hlen & Hun & Hke & Hse & Hq).
    assert (El1 : nth_error vs1 x = Some l0) by (rewrite Hun; auto).
    assert (Hxl : x <? length vs1 = true) by (apply Nat.ltb_lt, nth_error_Some; congruence).
    assert (Enew : nth_error (update x l1 vs1) x = Some l1) by (rewrite nth_error_update, Nat.eqb_refl, Hxl; reflexivity).
    assert (Ho2 : ordered (update x l1 vs1)).
    { intros y l Hy. rewrite nth_error_update in Hy. destruct (x =? y) eqn:E; [|eauto].
      apply Nat.eqb_eq in E as <-. rewrite Hxl in Hy. injection Hy as <-. split; [congruence|exact Hb1]. }
    exists v, b, (SRef x), (update x l1 vs1), lg. split; [reflexivity|]. split; [discriminate|]. split; [exact Ho2|].
    split; [now constructor|]. split; [reflexivity|]. split; [rewrite update_length; lia|].
    split.
    { intros y Hy. rewrite nth_error_update. replace (x =? y) with false by (symmetry; apply Nat.eqb_neq; lia). apply Hun. lia. }
    split.
    { intros y l Hy Hs. rewrite nth_error_update. destruct (x =? y) eqn:E; [|exact (Hke _ _ Hy Hs)].
      apply Nat.eqb_eq in E as <-. rewrite Hxl. assert (l = l0) as -> by congruence. f_equal. now apply Hq. }
    split.
    { econstructor; [exact Enew|]. exact (proj1 (settled_before_mut w vs1 x l1 Ho1) l1 Hse Hb1). }
    intros Hs. inversion Hs as [| | |? l Hl0 Hs0]; subst. assert (l = l0) as -> by congruence.
    destruct (Hq Hs0) as (-> & -> & -> & Hf). split; [reflexivity|]. split; [reflexivity|]. split; [now apply update_same|exact Hf].
Qed.

(** ** Programs *)

(** [l] refers to [ys] at most through settled things: all of [ys] are settled if [l] is. *)
Inductive reaches (us : list (list nat)) : slz -> list nat -> Prop :=
| re_value v b : reaches us (SValue v b) []
| re_core g c ds ys : reaches_all us ds ys -> reaches us (SCore g c ds) ys
| re_ref x : reaches us (SRef x) (x :: nth x us [])
with reaches_all (us : list (list nat)) : list slz -> list nat -> Prop :=
| ra_nil : reaches_all us [] []
| ra_cons d ds ys zs : reaches us d ys -> reaches_all us ds zs -> reaches_all us (d :: ds) (ys ++ zs).
Scheme reaches_min := Minimality for reaches Sort Prop
  with reaches_all_min := Minimality for reaches_all Sort Prop.
Combined Scheme reaches_mut from reaches_min, reaches_all_min.

Definition described (us : list (list nat)) (vs : list slz) : Prop :=
  length us = length vs /\ forall x l, nth_error vs x = Some l -> reaches us l (nth x us []).

Lemma settled_reached vs w us : described us vs ->
  (forall l, settled vs w l -> forall ys, reaches us l ys -> forall y, In y ys -> settled vs w (SRef y)) /\
  (forall ls, settled_all vs w ls -> forall ys, reaches_all us ls ys -> forall y, In y ys -> settled vs w (SRef y)).
Proof.
  intros [Hlen Hd]. apply settled_mut.
  - intros v ys H y Hy. inversion H; subst. destruct Hy.
  - intros d v ys H y Hy. inversion H as [|? ? ? ? Ha|]; subst. inversion Ha as [|? ? ? ? Hv Hn]; subst.
    inversion Hv; inversion Hn; subst. destruct Hy.
  - intros f c ds _ IH ys H y Hy. inversion H; subst. eauto.
  - intros x l Hx Hl IH ys H y Hy. inversion H; subst. destruct Hy as [<-|Hy]; [econstructor; eauto|]. eauto.
  - intros ys H y Hy. inversion H; subst. destruct Hy.
  - intros d ds _ IH1 _ IH2 ys H y Hy. inversion H; subst. apply in_app_or in Hy as [Hy|Hy]; eauto.
Qed.

(** A call changes no references. *)
Lemma steps_reach n ds : Forall (fun l => forall us vs w r l' vs' w' lg, (forall x l, nth_error vs x = Some l -> reaches us l (nth x us [])) ->
    sstep U n l vs w = Some (r, l', vs', w', lg) ->
    (forall ys, reaches us l ys -> reaches us l' ys) /\ (forall x l, nth_error vs' x = Some l -> reaches us l (nth x us []))) ds ->
  forall us vs w r ds' vs' w' lg, (forall x l, nth_error vs x = Some l -> reaches us l (nth x us [])) ->
  ssteps n ds vs w = Some (r, ds', vs', w', lg) ->
  (forall ys, reaches_all us ds ys -> reaches_all us ds' ys) /\ (forall x l, nth_error vs' x = Some l -> reaches us l (nth x us [])).
Proof.
  induction 1 as [|d ds Hd Hds IH]; intros us vs w r ds' vs' w' lg Hv Hs.
  - cbn in Hs. injection Hs as <- <- <- <- <-. auto.
  - rewrite ssteps_cons in Hs. destruct (sstep U n d vs w) as [[[[[r1 d1] vs1] w1] lg1]|] eqn:E1; [|discriminate].
    destruct (Hd us _ _ _ _ _ _ _ Hv E1) as [H1 Hv1]. destruct r1 as [x| |].
    + destruct (ssteps n ds vs1 w1) as [[[[[rs ds2] vs2] w2] lg2]|] eqn:E2; [|discriminate]. injection Hs as <- <- <- <- <-.
      destruct (IH us _ _ _ _ _ _ _ Hv1 E2) as [H2 Hv2]. split; [|exact Hv2].
      intros ys H. inversion H; subst. constructor; auto.
    + injection Hs as <- <- <- <- <-. split; [|exact Hv1]. intros ys H. inversion H; subst. constructor; auto.
    + injection Hs as <- <- <- <- <-. split; [|exact Hv1]. intros ys H. inversion H; subst. constructor; auto.
Qed.

Lemma step_reach n : forall l us vs w r l' vs' w' lg,
  (forall x l, nth_error vs x = Some l -> reaches us l (nth x us [])) ->
  sstep U n l vs w = Some (r, l', vs', w', lg) ->
  (forall ys, reaches us l ys -> reaches us l' ys) /\ (forall x l, nth_error vs' x = Some l -> reaches us l (nth x us [])).
Proof.
  induction n as [n IHn] using lt_wf_ind.
  induction l as [v ch|g c ds IH|x] using slz_ind'; intros us vs w r l' vs' w' lg Hv Hs; rewrite sstep_eq in Hs.
  - injection Hs as <- <- <- <- <-. auto.
  - destruct (ssteps n ds vs w) as [[[[[rs ds1] vs1] w1] lg1]|] eqn:E; [|discriminate].
    destruct (steps_reach n ds IH us _ _ _ _ _ _ _ Hv E) as [Hds Hv1].
    assert (Hall : forall c' ys, reaches us (SCore g c ds) ys -> reaches us (SCore g c' ds1) ys).
    { intros c' ys H. inversion H; subst. constructor. auto. }
    destruct rs as [rs| |].
    + cbv zeta in Hs. destruct (core U g c _ w1) as [[[r2 c2] w2] lg2]. injection Hs as <- <- <- <- <-. split; [apply Hall|exact Hv1].
    + injection Hs as <- <- <- <- <-. split; [apply Hall|exact Hv1].
    + injection Hs as <- <- <- <- <-. split; [apply Hall|exact Hv1].
  - destruct n as [|n]; [discriminate|]. destruct (nth_error vs x) as [l0|] eqn:El; [|discriminate].
    destruct (sstep U n l0 vs w) as [[[[[r1 l1] vs1] w1] lg1]|] eqn:E; [|discriminate]. injection Hs as <- <- <- <- <-.
    destruct (IHn n (Nat.lt_succ_diag_r n) l0 us _ _ _ _ _ _ _ Hv E) as [Hl Hv1]. split; [auto|].
    intros y l Hy. rewrite nth_error_update in Hy. destruct (x =? y) eqn:Exy; [|eauto].
    apply Nat.eqb_eq in Exy as <-. destruct (x <? length vs1); [|discriminate]. injection Hy as <-. apply Hl. eauto.
Qed.

Lemma reaches_more us us2 :
  (forall l ys, reaches us l ys -> below (length us) l -> reaches (us ++ us2) l ys) /\
  (forall ls ys, reaches_all us ls ys -> Forall (below (length us)) ls -> reaches_all (us ++ us2) ls ys).
Proof.
  apply reaches_mut; try (intros; constructor; fail).
  - intros g c ds ys Hds IH Hb. constructor. inversion Hb; subst; [|auto].
    inversion Hds as [|? ? ? ? Hv Hn]; subst. inversion Hv; inversion Hn; subst. repeat constructor.
  - intros x Hb. inversion Hb; subst. rewrite <- (app_nth1 us us2 []) by assumption. constructor.
  - intros d ds ys zs _ IH1 _ IH2 Hb. inversion Hb; subst. constructor; auto.
Qed.

Lemma sdeps_reach us vs ss ds : ordered vs -> described us vs -> sdeps_of U vs ss = Some ds ->
  Forall (below (length vs)) ds /\ reaches_all us ds (flat_map (dep_refers us) ss).
Proof.
  intros Ho [Hlen Hd]. revert ds. induction ss as [|s ss IH]; intros ds H; cbn in H.
  - injection H as <-. split; constructor.
  - destruct (sdep_of U vs s) as [d|] eqn:E; [|discriminate]. destruct (sdeps_of U vs ss) as [ds'|]; [|discriminate].
    injection H as <-. destruct (IH _ eq_refl) as [H1 H2]. cbn [flat_map].
    assert (Hs : below (length vs) d /\ reaches us d (dep_refers us s)).
    { destruct s as [x|[x|f|v]]; cbn in E |- *.
      - destruct (nth_error vs x) eqn:Ex; [|discriminate]. injection E as <-. split; [|constructor].
        constructor. apply nth_error_Some. congruence.
      - split; [|eauto]. apply below_le with (k := x); [|apply (Ho _ _ E)].
        apply Nat.lt_le_incl, nth_error_Some. congruence.
      - injection E as <-. split; [constructor|]. constructor. apply (ra_cons us _ _ [] []); constructor.
      - injection E as <-. split; constructor. }
    destruct Hs as [Hs1 Hs2]. split; constructor; auto.
Qed.

Lemma described_add us vs l ys : ordered vs -> described us vs -> is_core l = true -> below (length vs) l -> reaches us l ys ->
  ordered (vs ++ [l]) /\ described (us ++ [ys]) (vs ++ [l]).
Proof.
  intros Ho [Hlen Hd] Hc Hb Hr.
  assert (Hcase : forall x l0, nth_error (vs ++ [l]) x = Some l0 ->
    nth_error vs x = Some l0 /\ x < length vs \/ x = length vs /\ l0 = l).
  { intros x l0 H. destruct (lt_dec x (length vs)) as [Hx|Hx].
    - left. rewrite nth_error_app1 in H by assumption. auto.
    - right. assert (x < length (vs ++ [l])) by (apply nth_error_Some; congruence). rewrite app_length in *; cbn in *.
      assert (x = length vs) as -> by lia. rewrite nth_error_app2, Nat.sub_diag in H by lia. cbn in H. split; congruence. }
  split; [|split].
  - intros x l0 H. destruct (Hcase _ _ H) as [[H1 _]|[-> ->]]; auto.
  - rewrite !app_length. cbn. lia.
  - intros x l0 H. destruct (Hcase _ _ H) as [[H1 H2]|[-> ->]].
    + rewrite app_nth1 by lia. apply reaches_more; [auto|]. apply below_le with (k := x); [lia|]. apply (Ho _ _ H1).
    + rewrite app_nth2, Hlen, Nat.sub_diag by lia. cbn. apply reaches_more; [exact Hr|]. now rewrite Hlen.
Qed.

Lemma call_described us vs x l w : ordered vs -> described us vs -> nth_error vs x = Some l ->
  exists v b l' vs' lg, sstep U (length vs) l vs w = Some (Ok (v, b), l', vs', w, lg) /\
    ordered (update x l' vs') /\ described us (update x l' vs') /\ settled (update x l' vs') w (SRef x) /\
    cached l' = Some v /\ nth_error (update x l' vs') x = Some l' /\
    (settled vs w (SRef x) -> update x l' vs' = vs /\ function_calls lg = []).
Proof.
  intros Ho [Hlen Hd] Hx. assert (Hlt : x < length vs) by (apply nth_error_Some; congruence).
  destruct (Ho _ _ Hx) as [Hc Hb].
  destruct (step_brings (length vs) l x vs w Ho Hb ltac:(lia) ltac:(lia))
    as (v & b & l' & vs' & lg & E & Hca & Ho1 & Hb1 & Hc1 & Hl1 & Hun & Hke & Hse & Hq).
  destruct (step_reach _ _ us _ _ _ _ _ _ _ Hd E) as [Hre Hd1].
  assert (Hxl : x <? length vs' = true) by (apply Nat.ltb_lt; lia).
  assert (Hnew : nth_error (update x l' vs') x = Some l') by (rewrite nth_error_update, Nat.eqb_refl, Hxl; reflexivity).
  do 5 eexists. split; [exact E|]. split.
  { intros y l0 Hy. rewrite nth_error_update in Hy. destruct (x =? y) eqn:Exy; [|eauto].
    apply Nat.eqb_eq in Exy as <-. rewrite Hxl in Hy. injection Hy as <-. split; [congruence|exact Hb1]. }
  split.
  { split; [rewrite update_length; lia|]. intros y l0 Hy. rewrite nth_error_update in Hy. destruct (x =? y) eqn:Exy; [|eauto].
    apply Nat.eqb_eq in Exy as <-. rewrite Hxl in Hy. injection Hy as <-. eauto. }
  split; [econstructor; [exact Hnew|]; exact (proj1 (settled_before_mut w vs' x l' Ho1) l' Hse Hb1)|].
  split; [auto|]. split; [exact Hnew|].
  intros Hs. inversion Hs as [| | |? l0 Hx0 Hs0]; subst. assert (l0 = l) as -> by congruence.
  destruct (Hq Hs0) as (_ & -> & -> & Hf). split; [now apply update_same|exact Hf].
Qed.

Lemma run_described p : forall us s s' outs, ordered (svars s) -> described us (svars s) ->
  srun U p s = Some (s', outs) -> ordered (svars s') /\ described (referred p us) (svars s').
Proof.
  induction p as [|o p IH]; intros us s s' outs Ho Hd Hr.
  - cbn in Hr. injection Hr as <- <-. auto.
  - cbn [srun] in Hr. destruct (sexec U o s) as [[s1 out]|] eqn:Ex; [|discriminate].
    destruct (srun U p s1) as [[s2 outs']|] eqn:Er; [|discriminate]. injection Hr as <- <-.
    destruct o as [f ss|x|x|h]; cbn [sexec] in Ex; cbn [referred].
    + destruct (sdeps_of U (svars s) ss) as [ds|] eqn:E; [|discriminate]. injection Ex as <- <-.
      destruct (sdeps_reach us _ ss ds Ho Hd E) as [H1 H2].
      destruct (described_add us (svars s) (SCore (FnUser f) None ds) _ Ho Hd eq_refl (be_core _ _ _ _ H1) (re_core _ _ _ _ _ H2)) as [Ho1 Hd1].
      eapply (IH _ (mkSState _ _)); eauto.
    + destruct (nth_error (svars s) x) as [l|] eqn:E; [|discriminate]. injection Ex as <- <-.
      destruct (Ho _ _ E) as [Hc Hb]. assert (x < length (svars s)) by (apply nth_error_Some; congruence).
      destruct (described_add us (svars s) l (nth x us []) Ho Hd Hc) as [Ho1 Hd1].
      { apply below_le with (k := x); [lia|exact Hb]. }
      { now apply Hd. }
      eapply (IH _ (mkSState _ _)); eauto.
    + destruct (nth_error (svars s) x) as [l|] eqn:E; [|discriminate].
      destruct (call_described us (svars s) x l (sworld s) Ho Hd E) as (v & b & l' & vs' & lg & Es & Ho1 & Hd1 & _).
      rewrite Es in Ex. injection Ex as <- <-. eapply (IH _ (mkSState _ _)); eauto.
    + injection Ex as <- <-. eapply (IH _ (mkSState _ _)); eauto.
Qed.

Lemma settles p w s1 outs x s2 r lg :
  srun U p (mkSState [] w) = Some (s1, outs) -> sexec U (SCall x) s1 = Some (s2, (r, lg)) ->
  (exists lg', sexec U (SCall x) s2 = Some (s2, (r, lg')) /\ function_calls lg' = []) /\
  (forall y, In y (nth x (referred p []) []) ->
   exists r' lg', sexec U (SCall y) s2 = Some (s2, (r', lg')) /\ function_calls lg' = []).
Proof.
  intros Hp Hc.
  destruct (run_described p [] (mkSState [] w) s1 outs) as [Ho Hd]; auto.
  { intros [|z]; discriminate. }
  { split; [reflexivity|]. intros [|z]; discriminate. }
  cbn [sexec] in Hc. destruct (nth_error (svars s1) x) as [l|] eqn:E; [|discriminate].
  destruct (call_described _ (svars s1) x l (sworld s1) Ho Hd E) as (v & b & l' & vs' & lg1 & Es & Ho1 & Hd1 & Hse & Hca & Hnew & _).
  rewrite Es in Hc. injection Hc as <- <- <-.
  assert (Hany : forall y, settled (update x l' vs') (sworld s1) (SRef y) ->
    exists v2 b2 lg2, sexec U (SCall y) (mkSState (update x l' vs') (sworld s1))
      = Some (mkSState (update x l' vs') (sworld s1), (Some (api_result (Ok (v2, b2))), lg2)) /\ function_calls lg2 = [] /\
      forall ly, nth_error (update x l' vs') y = Some ly -> cached ly = Some v2).
  { intros y Hsy. pose proof Hsy as Hsy'. inversion Hsy' as [| | |? ly Hly _]; subst.
    destruct (call_described _ _ y ly (sworld s1) Ho1 Hd1 Hly) as (v2 & b2 & l2 & vs2 & lg2 & Es2 & _ & _ & _ & Hca2 & Hnew2 & Hq).
    destruct (Hq Hsy) as [Hu Hf]. cbn [sexec svars sworld]. rewrite Hly, Es2, Hu. exists v2, b2, lg2. split; [reflexivity|]. split; [exact Hf|].
    intros ly2 Hly2. rewrite Hu in Hnew2. congruence. }
  split.
  - destruct (Hany x Hse) as (v2 & b2 & lg2 & Ex & Hf & Hv). exists lg2. split; [|exact Hf].
    specialize (Hv l' Hnew). assert (v2 = v) as -> by congruence. rewrite Ex. reflexivity.
  - intros y Hy. destruct (Hany y) as (v2 & b2 & lg2 & Ex & Hf & _).
    + refine (proj1 (settled_reached _ _ _ Hd1) (SRef x) Hse _ (re_ref _ x) y _). now right.
    + eauto.
Qed.

Lemma settles_all p w s1 outs x s2 r lg ys :
  srun U p (mkSState [] w) = Some (s1, outs) -> sexec U (SCall x) s1 = Some (s2, (r, lg)) ->
  Forall (fun y => y = x \/ In y (nth x (referred p []) [])) ys ->
  exists outs', srun U (map SCall ys) s2 = Some (s2, outs') /\
    Forall (fun out => function_calls (snd out) = []) outs' /\
    Forall2 (fun y out => y = x -> fst out = r) ys outs'.
Proof.
  intros Hp Hc. destruct (settles p w s1 outs x s2 r lg Hp Hc) as [Hx Hy].
  induction 1 as [|y ys H _ (outs' & IH1 & IH2 & IH3)]; [exists []; cbn; auto|].
  assert (Ho : exists out, sexec U (SCall y) s2 = Some (s2, out) /\ function_calls (snd out) = [] /\ (y = x -> fst out = r)).
  { destruct (Nat.eq_dec y x) as [->|Hne].
    - destruct Hx as (lg' & E & Hf). exists (r, lg'). auto.
    - destruct H as [H|H]; [contradiction|]. destruct (Hy _ H) as (r' & lg' & E & Hf). exists (r', lg'). repeat split; auto. contradiction. }
  destruct Ho as (out & E & Hf & Hr). exists (out :: outs'). cbn [map srun]. rewrite E, IH1. auto.
Qed.
End Settled.
