(** Proofs about typed programs (C89). *)
From Coq Require Import List Bool Arith Lia.
From Verif Require Import Value TupleAlg LazyModel TypedModel TypedSpec RelateThms LazyExamples.
Import ListNotations.

Section TyInd.
  Variable P : ty -> Prop.
  Hypothesis Hatom : forall c, P (TAtom c).
  Hypothesis Hvoid : P TVoid.
  Hypothesis Htuple : forall ts, Forall P ts -> P (TTuple ts).
  Hypothesis Hpair : forall t u, P t -> P u -> P (TPair t u).
  Hypothesis Hopt : forall t, P t -> P (TOpt t).
  Fixpoint ty_ind' (t : ty) : P t :=
    match t with
    | TAtom c => Hatom c
    | TVoid => Hvoid
    | TTuple ts =>
        Htuple ts ((fix go (l : list ty) : Forall P l :=
                      match l with
                      | [] => Forall_nil P
                      | x :: xs => Forall_cons x (ty_ind' x) (go xs)
                      end) ts)
    | TPair t u => Hpair t u (ty_ind' t) (ty_ind' u)
    | TOpt t => Hopt t (ty_ind' t)
    end.
End TyInd.

Lemma ty_eqb_eq t : forall u, ty_eqb t u = true <-> t = u.
Proof.
  induction t as [c| |ts IH|t1 t2 IH1 IH2|t IH] using ty_ind'; intros [d| |us|u1 u2|u]; cbn; try (split; discriminate); try (split; congruence).
  - rewrite Nat.eqb_eq. split; congruence.
  - revert us. induction IH as [|x xs Hx Hxs IHl]; intros [|y ys]; try (split; [discriminate|congruence]).
    + split; congruence.
    + rewrite andb_true_iff, Hx, IHl. split.
      * intros [-> E]. now injection E as ->.
      * intros E. injection E as -> ->. auto.
  - rewrite andb_true_iff, IH1, IH2. split; [intros [-> ->]; reflexivity|intros E; injection E as -> ->; auto].
  - rewrite IH. split; congruence.
Qed.
Lemma ty_eqb_refl t : ty_eqb t t = true.
Proof. now apply ty_eqb_eq. Qed.

Lemma forall2_map_right {X Y Z} (R : X -> Z -> Prop) (f : Y -> Z) xs ys :
  Forall2 (fun x y => R x (f y)) xs ys -> Forall2 R xs (map f ys).
Proof. induction 1; constructor; auto. Qed.

Section Proofs.
Context {A W fid did : Type}.
Variable aty : A -> nat.
Variable TU : typed_user A W fid did.
Hypothesis HT : respects aty TU.
Notation U := (untyped TU).
Notation value := (val A).
Notation has_type := (has_type aty).

Lemma teq_veq t : forall x y, has_type x t -> has_type y t -> teq TU t x y = veq (aeq U) x y.
Proof.
  induction t as [c| |ts IH|t1 t2 IH1 IH2|t IH] using ty_ind'; intros x y Hx Hy; inversion Hx; inversion Hy; subst; cbn; auto.
  - match goal with H1 : Forall2 _ ?a ts, H2 : Forall2 _ ?b ts |- _ => clear Hx Hy; revert a b H1 H2 end.
    induction IH as [|t ts Ht Hts IHl]; intros a b Ha Hb; inversion Ha; inversion Hb; subst; cbn; [reflexivity|].
    rewrite Ht by assumption. f_equal. now apply IHl.
  - rewrite IH1, IH2 by assumption. reflexivity.
Qed.

Lemma opt_ne_by_type t : forall x y, (forall v, x = Some v -> has_type v t) -> has_type y t ->
  opt_ne_ty TU t x y = opt_ne (aeq U) x y.
Proof.
  induction t as [c| |ts IH|t1 t2 IH1 IH2|t IH] using ty_ind'; intros x y Hx Hy; inversion Hy; subst.
  - destruct x as [u|]; cbn; [|reflexivity]. specialize (Hx _ eq_refl). inversion Hx. now subst.
  - destruct x as [u|]; cbn; [|reflexivity]. specialize (Hx _ eq_refl). inversion Hx. now subst.
  - destruct x as [u|]; [|reflexivity]. specialize (Hx _ eq_refl).
    change (negb (teq TU (TTuple ts) u (VTuple l)) = negb (veq (aeq U) u (VTuple l))). now rewrite (teq_veq _ _ _ Hx Hy).
  - destruct x as [u|]; [|reflexivity]. specialize (Hx _ eq_refl).
    change (negb (teq TU (TPair t1 t2) u (VPair x0 y0)) = negb (veq (aeq U) u (VPair x0 y0))). now rewrite (teq_veq _ _ _ Hx Hy).
  - destruct x as [u|]; cbn; [|reflexivity]. specialize (Hx _ eq_refl). inversion Hx; now subst.
  - destruct x as [u|]; cbn; [|reflexivity]. specialize (Hx _ eq_refl). inversion Hx; subst.
    + rewrite IH; [reflexivity| |assumption]. discriminate.
    + rewrite IH; [reflexivity| |assumption]. intros v E. now injection E as <-.
Qed.

Lemma tuple_values_typed vs ts : Forall2 has_type vs ts -> Forall2 has_type (tuple_values ts vs) (tuple_types ts).
Proof.
  intros H. destruct H as [|v t vs ts Hv Hvs]; [constructor|]. destruct Hvs as [|v2 t2 vs ts Hv2 Hvs].
  - unfold tuple_types, tuple_values. inversion Hv; subst; cbn; auto. 
  - unfold tuple_types, tuple_values. destruct t; cbn; auto.
Qed.
Lemma tuple_values_look vs ts : Forall2 has_type vs ts -> tuple_values ts vs = ctad_tuple as_tuple vs.
Proof.
  intros H. destruct H as [|v t vs ts Hv Hvs]; [reflexivity|]. destruct Hvs as [|v2 t2 vs ts Hv2 Hvs].
  - inversion Hv; reflexivity.
  - unfold tuple_values. destruct t; reflexivity.
Qed.

(** Well-typed lazy functions. *)
Inductive wt : tlz A fid did -> Prop :=
| wt_value t v ch : has_type v t -> wt (TLValue t v ch)
| wt_user f t t' cache deps :
    Forall wt deps -> (forall c, cache = Some c -> has_type c t) ->
    node_types TU f (map type_of deps) = Some (t, t') -> wt (TLCore (FnUser f) t t' cache deps)
| wt_sample d cache deps :
    Forall wt deps -> (forall c, cache = Some c -> has_type c (dty TU d)) -> wt (TLCore (FnSample d) (dty TU d) (dty TU d) cache deps).

Definition result_ok (t : ty) (r : res (value * bool)) : Prop :=
  match r with Ok (v, _) => has_type v t | Exc => True | UB => False end.
Definition results_ok (ts : list ty) (r : res (list (value * bool))) : Prop :=
  match r with Ok vs => Forall2 has_type (map fst vs) ts | Exc => True | UB => False end.

Lemma core_general g t t' ts cache args w r cache' w' lg :
  (forall c, cache = Some c -> has_type c t) -> accepted TU t t' = true ->
  (forall v w1 lg1, call_fn U g (tuple_values ts (map fst args)) w = (VRet v, w1, lg1) -> has_type v t') ->
  (forall r w1 lg1, call_fn U g (tuple_values ts (map fst args)) w = (r, w1, lg1) -> Forall (event_ok aty TU) lg1) ->
  tcore TU g t t' ts cache args w = (r, cache', w', lg) ->
  result_ok t r /\ (forall c, cache' = Some c -> has_type c t) /\ Forall (event_ok aty TU) lg.
Proof.
  intros Hc Ha Hret Hev E. unfold tcore in E.
  destruct (negb (is_some cache) || existsb snd args) eqn:Ech.
  - destruct (call_fn U g _ w) as [[[v|] w1] lg1].
    + specialize (Hret _ _ _ eq_refl). specialize (Hev _ _ _ eq_refl). injection E as <- <- <- <-.
      assert (Hs : has_type (if ty_eqb t t' then v else match conv TU t' t with Some c => c v | None => v end) t).
      { unfold accepted in Ha. destruct (ty_eqb t t') eqn:Et; [apply ty_eqb_eq in Et as <-; exact Hret|]. cbn in Ha.
        apply andb_true_iff in Ha as [_ Ha]. destruct (conv TU t' t) as [cv|] eqn:Ecv; [|discriminate].
        exact (resp_conv _ _ HT _ _ _ _ Ecv Hret). }
      split; [exact Hs|]. split; [intros c E; injection E as <-; exact Hs|].
      apply Forall_app. split; [exact Hev|]. destruct cache as [c|]; constructor; [|constructor].
      exists t, t'. split; [now apply Hc|]. split; [exact Hret|].
      unfold accepted in Ha. destruct (ty_eqb t t') eqn:Et; [left; now apply ty_eqb_eq|right]. cbn in Ha.
      apply andb_true_iff in Ha as [Ha _]. destruct (mixed TU t t'); [discriminate|discriminate Ha].
    + injection E as <- <- <- <-. split; [exact I|]. split; [exact Hc|]. exact (Hev _ _ _ eq_refl).
  - destruct cache as [c|]; [|discriminate Ech]. injection E as <- <- <- <-. split; [now apply Hc|]. split; [exact Hc|constructor].
Qed.

Lemma steps_ok ds : Forall (fun d => wt d -> forall w r d' w' lg, tstep TU d w = (r, d', w', lg) ->
    wt d' /\ type_of d' = type_of d /\ Forall (event_ok aty TU) lg /\ result_ok (type_of d) r) ds ->
  Forall wt ds -> forall w r ds' w' lg, tsteps_with (tstep TU) ds w = (r, ds', w', lg) ->
  Forall wt ds' /\ map type_of ds' = map type_of ds /\ Forall (event_ok aty TU) lg /\ results_ok (map type_of ds) r.
Proof.
  intros H Hw. induction Hw as [|d ds Hd Hds IH]; intros w r ds' w' lg E; cbn in E.
  - injection E as <- <- <- <-. repeat split; constructor.
  - inversion H as [|? ? Hd' Hds']; subst. destruct (tstep TU d w) as [[[r1 d1] w1] l1] eqn:E1.
    destruct (Hd' Hd _ _ _ _ _ E1) as (Hwt & Hty & Hev & Hr).
    destruct r1 as [[v b]| |].
    + destruct (tsteps_with (tstep TU) ds w1) as [[[rs ds2] w2] l2] eqn:E2. injection E as <- <- <- <-.
      destruct (IH Hds' _ _ _ _ _ E2) as (Hwt2 & Hty2 & Hev2 & Hr2).
      split; [constructor; auto|]. split; [cbn; now f_equal|]. split; [apply Forall_app; auto|].
      destruct rs as [vs| |]; cbn in *; auto.
    + injection E as <- <- <- <-. split; [constructor; auto|]. split; [cbn; now f_equal|]. split; [exact Hev|exact I].
    + contradiction.
Qed.

Lemma node_types_inv f ts t t' : node_types TU f ts = Some (t, t') ->
  exists r r', fty TU f ts = Some r /\ fty TU f (tuple_types ts) = Some r' /\ t = reg r /\ t' = reg r' /\ accepted TU t t' = true.
Proof.
  unfold node_types. destruct (fty TU f ts) as [r|]; [|discriminate]. destruct (fty TU f (tuple_types ts)) as [r'|]; [|discriminate].
  destruct (accepted TU (reg r) (reg r')) eqn:Ea; [|discriminate]. intros E. injection E as <- <-. eauto 10.
Qed.

Lemma returns_regularized r t : returns aty r t -> match regularized r with VRet v => has_type v (reg t) | VThrow => True end.
Proof. destruct r as [[v|]|], t as [t|]; cbn; try contradiction; auto. constructor. Qed.

Lemma step_ok l : wt l -> forall w r l' w' lg, tstep TU l w = (r, l', w', lg) ->
  wt l' /\ type_of l' = type_of l /\ Forall (event_ok aty TU) lg /\ result_ok (type_of l) r.
Proof.
  induction l as [t v ch|g t t' cache deps IH] using tlz_ind'; intros Hw w r l' w' lg E; cbn in E.
  - injection E as <- <- <- <-. inversion Hw; subst. repeat split; [exact Hw|constructor|assumption].
  - destruct (tsteps_with (tstep TU) deps w) as [[[rs ds] w1] l1] eqn:E1.
    assert (Hds : Forall wt deps) by now inversion Hw.
    destruct (steps_ok _ IH Hds _ _ _ _ _ E1) as (Hwt & Hty & Hev & Hr).
    assert (Hsame : forall c, (forall u, c = Some u -> has_type u t) -> wt (TLCore g t t' c ds)).
    { intros c Hc. inversion Hw; subst; constructor; auto. now rewrite Hty. }
    assert (Hcache : forall c, cache = Some c -> has_type c t) by (inversion Hw; subst; assumption).
    destruct rs as [args| |]; cbn in Hr.
    + destruct (tcore TU g t t' (map type_of deps) cache args w1) as [[[r2 c2] w2] l2] eqn:E2. injection E as <- <- <- <-.
      enough (K : result_ok t r2 /\ (forall c, c2 = Some c -> has_type c t) /\ Forall (event_ok aty TU) l2).
      { destruct K as (K1 & K2 & K3). split; [now apply Hsame|]. split; [reflexivity|]. split; [apply Forall_app; auto|exact K1]. }
      refine (core_general _ _ _ _ _ _ _ _ _ _ _ Hcache _ _ _ E2).
      * inversion Hw; subst.
        -- match goal with H : node_types _ _ _ = _ |- _ => apply node_types_inv in H as (q & q' & _ & _ & _ & _ & Ha) end. exact Ha.
        -- unfold accepted. now rewrite ty_eqb_refl.
      * intros v w3 lg3 Ec. inversion Hw as [|f tt tt' cc dd Hdd Hcc Hn|d cc dd Hdd Hcc]; subst; cbn in Ec.
        -- apply node_types_inv in Hn as (q & q' & _ & Hq & _ & -> & _).
           destruct (sem U f (tuple_values (map type_of deps) (map fst args)) w1) as [rf wf] eqn:Es. injection Ec as Ec _ _.
           pose proof (resp_f _ _ HT f _ _ _ w1 Hq (tuple_values_typed _ _ Hr)) as K. rewrite Es in K. cbn in K.
           apply returns_regularized in K. rewrite Ec in K. exact K.
        -- destruct (dsem U d w1) as [rf wf] eqn:Es. injection Ec as -> _ _. apply (resp_d _ _ HT d w1). now rewrite Es.
      * intros v w3 lg3 Ec. inversion Hw as [|f tt tt' cc dd Hdd Hcc Hn|d cc dd Hdd Hcc]; subst; cbn in Ec.
        -- apply node_types_inv in Hn as (q & q' & _ & Hq & _ & -> & _).
           destruct (sem U f (tuple_values (map type_of deps) (map fst args)) w1) as [rf wf]. injection Ec as _ _ <-.
           constructor; [|constructor]. eexists. split; [|exact (tuple_values_typed _ _ Hr)]. congruence.
        -- destruct (dsem U d w1) as [rf wf]. injection Ec as _ _ <-. constructor; [exact I|constructor].
    + injection E as <- <- <- <-. split; [now apply Hsame|]. split; [reflexivity|]. split; [exact Hev|exact I].
    + contradiction.
Qed.

(** ** Without types *)
Fixpoint erase_lz (l : tlz A fid did) : lz A fid did :=
  match l with
  | TLValue _ v ch => LValue v ch
  | TLCore g _ _ cache deps => LCore g cache (map erase_lz deps)
  end.
Inductive same : tlz A fid did -> Prop :=
| same_value t v ch : same (TLValue t v ch)
| same_core g t cache deps : Forall same deps -> same (TLCore g t t cache deps).

Lemma core_erase g t ts cache args w :
  (forall c, cache = Some c -> has_type c t) -> Forall2 has_type (map fst args) ts ->
  (forall v w1 lg1, call_fn U g (tuple_values ts (map fst args)) w = (VRet v, w1, lg1) -> has_type v t) ->
  tcore TU g t t ts cache args w = core U g cache args w.
Proof.
  intros Hc Hts Hret. rewrite core_unfold. unfold tcore. rewrite <- (tuple_values_look _ _ Hts), ty_eqb_refl.
  destruct (negb (is_some cache) || existsb snd args); [|reflexivity].
  destruct (call_fn U g (tuple_values ts (map fst args)) w) as [[[v|] w1] lg1] eqn:E; [|reflexivity].
  unfold opt_neq. rewrite opt_ne_by_type; [reflexivity|exact Hc|exact (Hret _ _ _ eq_refl)].
Qed.

Lemma steps_erase ds : Forall (fun d => wt d -> same d -> forall w r d' w' lg, tstep TU d w = (r, d', w', lg) ->
    step U (erase_lz d) w = (r, erase_lz d', w', lg) /\ same d') ds ->
  Forall wt ds -> Forall same ds -> forall w r ds' w' lg, tsteps_with (tstep TU) ds w = (r, ds', w', lg) ->
  steps_with (step U) (map erase_lz ds) w = (r, map erase_lz ds', w', lg) /\ Forall same ds'.
Proof.
  intros H Hw Hs. induction Hw as [|d ds Hd Hds IH]; intros w r ds' w' lg E; cbn in E.
  - injection E as <- <- <- <-. split; [reflexivity|constructor].
  - inversion H as [|? ? Hd' Hds']; inversion Hs as [|? ? Sd Sds]; subst. destruct (tstep TU d w) as [[[r1 d1] w1] l1] eqn:E1.
    destruct (Hd' Hd Sd _ _ _ _ _ E1) as (He & S1). cbn [map steps_with]. rewrite He.
    destruct r1 as [x| |].
    + destruct (tsteps_with (tstep TU) ds w1) as [[[rs ds2] w2] l2] eqn:E2. injection E as <- <- <- <-.
      destruct (IH Hds' Sds _ _ _ _ _ E2) as (He2 & S2). rewrite He2. split; [reflexivity|constructor; auto].
    + injection E as <- <- <- <-. split; [reflexivity|constructor; auto].
    + injection E as <- <- <- <-. split; [reflexivity|constructor; auto].
Qed.

Lemma ctad_none {X} (l : list X) : ctad_tuple (fun _ => None) l = l.
Proof. destruct l as [|x [|y l]]; reflexivity. Qed.

Lemma step_erase l : wt l -> same l -> forall w r l' w' lg, tstep TU l w = (r, l', w', lg) ->
  step U (erase_lz l) w = (r, erase_lz l', w', lg) /\ same l'.
Proof.
  induction l as [t v ch|g t t' cache deps IH] using tlz_ind'; intros Hw Hs w r l' w' lg E; cbn in E.
  - injection E as <- <- <- <-. split; [reflexivity|constructor].
  - destruct (tsteps_with (tstep TU) deps w) as [[[rs ds] w1] l1] eqn:E1.
    assert (Hds : Forall wt deps) by now inversion Hw. inversion Hs as [|? ? ? ? Sds]; subst.
    destruct (steps_erase _ IH Hds Sds _ _ _ _ _ E1) as (He & S1).
    destruct (steps_ok _ (proj2 (Forall_forall _ _) (fun d _ Hd => step_ok d Hd)) Hds _ _ _ _ _ E1) as (_ & _ & _ & Hr).
    cbn [erase_lz step]. fold (step U). rewrite He. destruct rs as [args| |].
    + rewrite ctad_none. rewrite <- (core_erase g t' (map type_of deps) cache args w1).
      * destruct (tcore TU g t' t' (map type_of deps) cache args w1) as [[[r2 c2] w2] l2]. injection E as <- <- <- <-.
        split; [reflexivity|now constructor].
      * inversion Hw; subst; assumption.
      * exact Hr.
      * intros v w3 lg3 Ec. inversion Hw as [|f tt tt' cc dd Hdd Hcc Hn|d cc dd Hdd Hcc]; subst; cbn in Ec.
        -- apply node_types_inv in Hn as (q & q' & _ & Hq & _ & -> & _).
           destruct (sem U f (tuple_values (map type_of deps) (map fst args)) w1) as [rf wf] eqn:Es. injection Ec as Ec _ _.
           pose proof (resp_f _ _ HT f _ _ _ w1 Hq (tuple_values_typed _ _ Hr)) as K. rewrite Es in K. cbn in K.
           apply returns_regularized in K. rewrite Ec in K. exact K.
        -- destruct (dsem U d w1) as [rf wf] eqn:Es. injection Ec as -> _ _. apply (resp_d _ _ HT d w1). now rewrite Es.
    + injection E as <- <- <- <-. split; [reflexivity|now constructor].
    + injection E as <- <- <- <-. split; [reflexivity|now constructor].
Qed.

(** ** Programs *)
Lemma all_some_map {X Y Z} (f : X -> option Y) (g : X -> option Z) (h : Y -> Z) xs :
  (forall x, In x xs -> g x = option_map h (f x)) -> all_some (map g xs) = option_map (map h) (all_some (map f xs)).
Proof.
  intros H. induction xs as [|x xs IH]; [reflexivity|]. cbn. rewrite (H x (or_introl eq_refl)), IH.
  - destruct (f x), (all_some (map f xs)); reflexivity.
  - intros y Hy. apply H. now right.
Qed.

Lemma ensure_type vs d : dep_type TU (map type_of vs) d = option_map type_of (tensure TU vs d).
Proof. destruct d as [x|d|t v]; cbn; auto. rewrite nth_error_map. reflexivity. Qed.

Lemma ensure_wt vs d l : Forall wt vs -> const_ok aty d -> tensure TU vs d = Some l -> wt l.
Proof.
  intros Hv Hc E. destruct d as [x|d|t v]; cbn in E.
  - apply nth_error_In in E. rewrite Forall_forall in Hv. auto.
  - injection E as <-. constructor; [|discriminate]. constructor; [|constructor]. constructor.
    rewrite <- (resp_0 _ _ HT). constructor.
  - injection E as <-. now constructor.
Qed.
Lemma ensures_wt vs ds ls : Forall wt vs -> Forall (const_ok aty) ds -> all_some (map (tensure TU vs) ds) = Some ls -> Forall wt ls.
Proof.
  intros Hv Hc. revert ls. induction Hc as [|d ds Hd Hds IH]; intros ls E; cbn in E.
  - injection E as <-. constructor.
  - destruct (tensure TU vs d) as [l|] eqn:El; [|discriminate]. destruct (all_some (map (tensure TU vs) ds)) as [ls'|]; [|discriminate].
    injection E as <-. constructor; [exact (ensure_wt _ _ _ Hv Hd El)|now apply IH].
Qed.

Lemma nth_update {X} (l : list X) x y n : nth_error (update n x l) y = if y =? n then (if n <? length l then Some x else None) else nth_error l y.
Proof.
  revert n y. induction l as [|z l IH]; intros n y; cbn.
  - destruct (y =? n); destruct n, y; reflexivity.
  - destruct n as [|n], y as [|y]; cbn; auto. rewrite IH. destruct (y =? n); auto.
Qed.
Lemma map_update {X Y} (f : X -> Y) n x l : map f (update n x l) = update n (f x) (map f l).
Proof. revert n. induction l as [|y l IH]; intros [|n]; cbn; auto. now rewrite IH. Qed.
Lemma update_same {X} n (x : X) l : nth_error l n = Some x -> update n x l = l.
Proof. revert n. induction l as [|y l IH]; intros [|n] E; cbn in *; try discriminate; [now injection E as ->|]. now rewrite IH. Qed.
Lemma forall_update {X} (P : X -> Prop) n x l : P x -> Forall P l -> Forall P (update n x l).
Proof. intros Hx H. revert n. induction H as [|y l Hy H IH]; intros [|n]; cbn; constructor; auto. Qed.

Definition good (env : list ty) (s : tstate A W fid did) : Prop := Forall wt (tvars s) /\ map type_of (tvars s) = env.

Lemma exec_ok o s env : consts_ok aty o -> good env s ->
  match compile1 TU o env, texec TU o s with
  | Some env', Some (s', out) => good env' s' /\ output_ok aty TU env' o out /\ exists more, env' = env ++ more
  | None, None => True
  | _, _ => False
  end.
Proof.
  intros Hc [Hw <-]. destruct o as [f ds|x|x|h]; cbn.
  - rewrite (all_some_map (tensure TU (tvars s)) _ type_of) by (intros; apply ensure_type).
    destruct (all_some (map (tensure TU (tvars s)) ds)) as [ls|] eqn:El; [|exact I]. cbn [option_map].
    destruct (node_types TU f (map type_of ls)) as [[t t']|] eqn:En; [|exact I]. cbn.
    split; [|split; [split; [constructor|reflexivity]|eauto]]. split; cbn; [|now rewrite map_app].
    apply Forall_app. split; [exact Hw|]. constructor; [|constructor]. constructor; [|discriminate|exact En].
    exact (ensures_wt _ _ _ Hw Hc El).
  - rewrite nth_error_map. destruct (nth_error (tvars s) x) as [l|] eqn:El; [|exact I]. cbn.
    split; [|split; [split; [constructor|reflexivity]|eauto]]. split; cbn; [|now rewrite map_app].
    apply Forall_app. split; [exact Hw|]. constructor; [|constructor]. rewrite Forall_forall in Hw. apply Hw. eapply nth_error_In. exact El.
  - rewrite nth_error_map. destruct (nth_error (tvars s) x) as [l|] eqn:El; [|exact I]. cbn.
    destruct (tstep TU l (tworld s)) as [[[r l'] w'] lg] eqn:Es.
    assert (Hl : wt l) by (rewrite Forall_forall in Hw; apply Hw; eapply nth_error_In; exact El).
    destruct (step_ok l Hl _ _ _ _ _ Es) as (Hwt & Hty & Hev & Hr).
    split; [|split].
    + split; cbn; [now apply forall_update|]. rewrite map_update, Hty. apply update_same. rewrite nth_error_map, El. reflexivity.
    + split; [exact Hev|]. rewrite nth_error_map, El. cbn.
      destruct r as [[v b]| |]; cbn in *; [|exact I|contradiction].
      destruct (type_of l); try (eexists; split; [reflexivity|]; split; [discriminate|exact Hr]); reflexivity.
    + exists []. now rewrite app_nil_r.
  - split; [split; [exact Hw|reflexivity]|]. split; [split; [constructor|reflexivity]|]. exists []. now rewrite app_nil_r.
Qed.

Lemma output_ok_more env more o out : output_ok aty TU env o out -> output_ok aty TU (env ++ more) o out.
Proof.
  intros [He H]. split; [exact He|]. destruct o as [f ds|x|x|h]; auto. destruct (fst out) as [[[v|]| |]|]; auto.
  - destruct H as (t & Hn & H). exists t. split; [|exact H]. rewrite nth_error_app1; [exact Hn|]. apply nth_error_Some. congruence.
  - rewrite nth_error_app1; [exact H|]. apply nth_error_Some. congruence.
Qed.

Lemma run_ok p : forall env s, Forall (consts_ok aty) p -> good env s ->
  match compile TU p env, trun TU p s with
  | Some env', Some (s', outs) => good env' s' /\ Forall2 (output_ok aty TU env') p outs /\ exists more, env' = env ++ more
  | None, None => True
  | _, _ => False
  end.
Proof.
  induction p as [|o p IH]; intros env s Hc Hg; cbn.
  - split; [exact Hg|]. split; [constructor|]. exists []. now rewrite app_nil_r.
  - inversion Hc as [|? ? Ho Hp]; subst. pose proof (exec_ok o s env Ho Hg) as K.
    destruct (compile1 TU o env) as [env1|], (texec TU o s) as [[s1 out]|]; try contradiction; [|exact I].
    destruct K as (Hg1 & Hout & more & ->). specialize (IH _ s1 Hp Hg1).
    destruct (compile TU p (env ++ more)) as [env2|], (trun TU p s1) as [[s2 outs]|]; try contradiction; [|exact I].
    destruct IH as (Hg2 & Houts & more2 & ->). split; [exact Hg2|]. split; [|exists (more ++ more2); now rewrite app_assoc].
    constructor; [now apply output_ok_more|exact Houts].
Qed.

Theorem typed_ok p w : Forall (consts_ok aty) p ->
  match compile TU p [], trun TU p (mkTState [] w) with
  | Some env, Some (s, outs) => Forall2 (output_ok aty TU env) p outs
  | None, None => True
  | _, _ => False
  end.
Proof.
  intros Hc. pose proof (run_ok p [] (mkTState [] w) Hc (conj (Forall_nil _) eq_refl)) as K.
  destruct (compile TU p []) as [env|], (trun TU p (mkTState [] w)) as [[s outs]|]; auto. exact (proj1 (proj2 K)).
Qed.

Lemma deps_of_erase vs ds : option_map (map (@ensure_lazy A W fid did U)) (deps_of (map erase_lz vs) (map erase_dep ds)) =
  option_map (map erase_lz) (all_some (map (tensure TU vs) ds)).
Proof.
  induction ds as [|d ds IH]; [reflexivity|]. cbn [map deps_of all_some].
  destruct (deps_of (map erase_lz vs) (map erase_dep ds)) as [os|], (all_some (map (tensure TU vs) ds)) as [ls|]; cbn in IH; try discriminate.
  - injection IH as IH. destruct d as [x|d|t v]; cbn.
    + rewrite nth_error_map. destruct (nth_error vs x); cbn; [|reflexivity]. now rewrite IH.
    + now rewrite IH.
    + now rewrite IH.
  - destruct d as [x|d|t v]; cbn; auto. rewrite nth_error_map. destruct (nth_error vs x); reflexivity.
Qed.

Lemma api_erase t r : result_ok t r -> tapi t r = api_result r.
Proof. destruct r as [[v b]| |]; cbn; auto. intros H. inversion H; reflexivity. Qed.

Lemma exec_erase o s env env' : consts_ok aty o -> good env s -> Forall same (tvars s) ->
  (match o with TNew f ds => forall ts, all_some (map (dep_type TU env) ds) = Some ts -> fty TU f (tuple_types ts) = fty TU f ts | _ => True end) ->
  compile1 TU o env = Some env' ->
  exists s' out, texec TU o s = Some (s', out) /\ Forall same (tvars s') /\
    exec U (erase o) (mkState (map erase_lz (tvars s)) (tworld s)) = Some (mkState (map erase_lz (tvars s')) (tworld s'), out).
Proof.
  intros Hc Hg Hs Hsame Hcomp. pose proof (exec_ok o s env Hc Hg) as K. rewrite Hcomp in K.
  destruct (texec TU o s) as [[s' out]|] eqn:Ex; [|contradiction]. exists s', out. split; [reflexivity|].
  destruct Hg as [Hw <-]. clear K. destruct o as [f ds|x|x|h]; cbn in *.
  - pose proof (deps_of_erase (tvars s) ds) as D. rewrite (all_some_map (tensure TU (tvars s)) _ type_of) in Hcomp, Hsame by (intros; apply ensure_type).
    destruct (all_some (map (tensure TU (tvars s)) ds)) as [ls|] eqn:El; [|discriminate].
    destruct (deps_of (map erase_lz (tvars s)) (map erase_dep ds)) as [os|]; [|discriminate]. cbn in D. injection D as D.
    specialize (Hsame _ eq_refl). destruct (node_types TU f (map type_of ls)) as [[t t']|] eqn:En; [|discriminate].
    injection Ex as <- <-. apply node_types_inv in En as (q & q' & Hq & Hq' & -> & -> & _). assert (q' = q) as -> by congruence. split.
    + apply Forall_app. split; [exact Hs|]. constructor; [|constructor]. constructor.
      clear -El Hs. revert ls El. induction ds as [|d ds IH]; intros ls El; cbn in El.
      * injection El as <-. constructor.
      * destruct (tensure TU (tvars s) d) as [l|] eqn:E1; [|discriminate]. destruct (all_some (map (tensure TU (tvars s)) ds)) as [ls'|]; [|discriminate].
        injection El as <-. constructor; [|now apply IH]. destruct d as [x|d|t v]; cbn in E1.
        -- apply nth_error_In in E1. rewrite Forall_forall in Hs. auto.
        -- injection E1 as <-. constructor. constructor; [constructor|constructor].
        -- injection E1 as <-. constructor.
    + cbn. unfold mk_lazy. rewrite D, map_app. reflexivity.
  - destruct (nth_error (tvars s) x) as [l|] eqn:El; [|discriminate]. injection Ex as <- <-. cbn. rewrite nth_error_map, El. cbn. rewrite map_app. split; [|reflexivity].
    apply Forall_app. split; [exact Hs|]. constructor; [|constructor]. rewrite Forall_forall in Hs. apply Hs. eapply nth_error_In. exact El.
  - destruct (nth_error (tvars s) x) as [l|] eqn:El; [|discriminate].
    destruct (tstep TU l (tworld s)) as [[[r l'] w'] lg] eqn:Es. injection Ex as <- <-. cbn. rewrite nth_error_map, El. cbn.
    assert (Hl : wt l) by (rewrite Forall_forall in Hw; apply Hw; eapply nth_error_In; exact El).
    assert (Sl : same l) by (rewrite Forall_forall in Hs; apply Hs; eapply nth_error_In; exact El).
    destruct (step_ok l Hl _ _ _ _ _ Es) as (_ & _ & _ & Hr). destruct (step_erase l Hl Sl _ _ _ _ _ Es) as (He & Sl').
    rewrite He, map_update, (api_erase _ _ Hr). split; [now apply forall_update|reflexivity].
  - injection Ex as <- <-. split; [exact Hs|reflexivity].
Qed.

Lemma run_erase p : forall env env' s, Forall (consts_ok aty) p -> good env s -> Forall same (tvars s) -> same_types TU p env ->
  compile TU p env = Some env' ->
  exists s' outs, trun TU p s = Some (s', outs) /\
    run U (map erase p) (mkState (map erase_lz (tvars s)) (tworld s)) = Some (mkState (map erase_lz (tvars s')) (tworld s'), outs).
Proof.
  induction p as [|o p IH]; intros env env' s Hc Hg Hs Hst Hcomp; cbn in *.
  - eauto.
  - destruct Hst as [Ho Hp]. inversion Hc as [|? ? Co Cp]; subst. destruct (compile1 TU o env) as [env1|] eqn:E1; [|discriminate].
    destruct (exec_erase o s env env1 Co Hg Hs Ho E1) as (s1 & out & Ex & Hs1 & Er).
    pose proof (exec_ok o s env Co Hg) as K. rewrite E1, Ex in K. destruct K as (Hg1 & _).
    destruct (IH _ _ _ Cp Hg1 Hs1 (Hp _ eq_refl) Hcomp) as (s2 & outs & Et & Er2).
    rewrite Ex, Et, Er, Er2. eauto.
Qed.

Theorem erased_runs p env w : Forall (consts_ok aty) p -> compile TU p [] = Some env -> same_types TU p [] ->
  exists s s' outs, trun TU p (mkTState [] w) = Some (s, outs) /\ run U (map erase p) (mkState [] w) = Some (s', outs) /\ world s' = tworld s.
Proof.
  intros Hc Hcomp Hsame.
  destruct (run_erase p [] env (mkTState [] w) Hc (conj (Forall_nil _) eq_refl) (Forall_nil _) Hsame Hcomp) as (s & outs & E1 & E2).
  exists s. eexists. exists outs. split; [exact E1|]. split; [exact E2|reflexivity].
Qed.

End Proofs.

Lemma single_tuple_types {A W fid did} (TU : typed_user A W fid did) p : forall env, no_single_tuple TU p env -> same_types TU p env.
Proof.
  induction p as [|o p IH]; intros env H; cbn; [exact I|]. destruct H as [Ho Hp]. split; [|intros env' E; apply IH; auto].
  destruct o as [f ds|x|x|h]; try exact I. intros ts E. destruct ds as [|d [|d2 ds]].
  - injection E as <-. reflexivity.
  - cbn in E. destruct (dep_type TU env d) as [t|]; [|discriminate]. injection E as <-. unfold tuple_types. cbn. now rewrite (Ho _ eq_refl).
  - cbn in E. destruct (dep_type TU env d), (dep_type TU env d2), (all_some (map (dep_type TU env) ds)); try discriminate. injection E as <-. reflexivity.
Qed.

(** ** Examples: an atom is a number of a type, 0 for [int] and 1 for [double], of which it has the
    halves. *)
Definition tx_aty (a : nat * nat) : nat := fst a.
Definition int_of (v : val (nat * nat)) : nat :=
  match v with VAtom (_, n) | VTuple [VAtom (_, n)] | VOpt (Some (VAtom (_, n))) => n | _ => 0 end.
(** 0: returns a number for a tuple, a number and a half for its element; 1: the sum of the element
    of a tuple and what a [std::optional] has; 2: nothing, for a number. *)
Definition tx_sem (f : nat) (xs : list (val (nat * nat))) (w : nat) : fres (nat * nat) * nat :=
  match f, xs with
  | 0, [VAtom a] => (FRet (Some (VAtom (1, 2 * snd a + 1))), w)
  | 2, _ => (FRet None, w)
  | 0, _ => (FRet (Some (VAtom (0, 0))), w)
  | _, _ => (FRet (Some (VAtom (0, list_sum (map int_of xs)))), w)
  end.
Definition tx_dsem (d : bool) (w : nat) : vres (nat * nat) * nat :=
  (if d then VRet (VTuple [VAtom (0, w)]) else VRet (VOpt (if w =? 0 then None else Some (VAtom (0, w)))), w).
Definition tx_eq (a b : nat * nat) : bool := (fst a =? fst b) && (snd a =? snd b).
Definition tx_fty (f : nat) (ts : list ty) : option (option ty) :=
  match f, ts with
  | 0, [TTuple [TAtom 0]] => Some (Some (TAtom 0))
  | 0, [TAtom 0] => Some (Some (TAtom 1))
  | 1, [TTuple [TAtom 0]; TOpt (TAtom 0)] => Some (Some (TAtom 0))
  | 2, [TAtom 0] => Some None
  | _, _ => None
  end.
Definition tx_conv (t t' : ty) : option (val (nat * nat) -> val (nat * nat)) :=
  match t, t' with
  | TAtom 1, TAtom 0 => Some (fun v => VAtom (0, int_of v / 2))
  | _, _ => None
  end.
Definition tx_mixed (t t' : ty) : option (option (val (nat * nat)) -> val (nat * nat) -> bool) :=
  match t, t' with
  | TAtom 0, TAtom 1 => Some (fun c v => match c with None => true | Some u => negb (2 * int_of u =? int_of v) end)
  | _, _ => None
  end.
Definition tx_user : typed_user (nat * nat) nat nat bool :=
  mkTyped (mkUser tx_sem tx_dsem tx_eq (0, 0)) tx_fty (fun d : bool => if d then TTuple [TAtom 0] else TOpt (TAtom 0)) 0 tx_conv tx_mixed.

Lemma tx_respects : respects tx_aty tx_user.
Proof.
  constructor.
  - intros f ts r xs w E H. destruct f as [|[|[|f]]]; cbn [fty tx_user tx_fty] in E; [| | |discriminate].
    + destruct ts as [|t [|u ts]]; [discriminate| |].
      * destruct t as [c| |us|t1 t2|t1]; try discriminate.
        -- destruct c; [|discriminate]. injection E as <-. inversion H as [|x t' xs' ts' Hx Hxs]; subst. inversion Hxs; subst.
           assert (exists a, x = VAtom a) as [a ->] by (inversion Hx; eauto). exact (ht_atom tx_aty (1, _)).
        -- destruct us as [|[[|c]| | | |] [|u us]]; try discriminate. injection E as <-.
           inversion H as [|x t' xs' ts' Hx Hxs]; subst. inversion Hxs; subst.
           assert (exists l, x = VTuple l) as [l ->] by (inversion Hx; eauto). exact (ht_atom tx_aty (0, _)).
      * destruct t as [[|c]| |[|[[|c]| | | |] [|v us]]| |]; discriminate.
    + destruct ts as [|t [|u ts]]; [discriminate| |].
      * destruct t as [[|c]| |[|[[|c]| | | |] [|v us]]| |]; discriminate.
      * destruct t as [[|c]| |[|[[|c]| | | |] [|v us]]| |]; try discriminate. destruct u as [| | | |[[|c]| | | |]]; try discriminate.
        destruct ts; [|discriminate]. injection E as <-. exact (ht_atom tx_aty (0, _)).
    + destruct ts as [|[[|c]| | | |] [|u ts]]; try discriminate. injection E as <-. exact I.
  - intros [] w v E; cbn in E; injection E as <-; cbn.
    + constructor. constructor; [|constructor]. exact (ht_atom tx_aty (0, w)).
    + destruct (w =? 0); constructor. exact (ht_atom tx_aty (0, w)).
  - reflexivity.
  - intros t t' c v E H. destruct t as [[|[|k]]| | | |]; try discriminate. destruct t' as [[|k]| | | |]; try discriminate.
    injection E as <-. exact (ht_atom tx_aty (0, _)).
Qed.

Definition tx_program : list (top (nat * nat) nat nat bool) :=
  [TNew 1 [TDFun true; TDFun false]; TNew 2 [TDVar 0]; TCall 1; TCall 0; TEnv (fun _ => 0); TCall 1; TCall 0].

(** A [double] is kept in a cache of [int]s. *)
Lemma tx_converted : exists (TU : typed_user (nat * nat) nat nat bool) aty p w s outs s' outs',
  respects aty TU /\ Forall (consts_ok aty) p /\ compile TU p [] = Some [TAtom 0] /\
  trun TU p (mkTState [] w) = Some (s, outs) /\ run (untyped TU) (map erase p) (mkState [] w) = Some (s', outs') /\
  outs = [(None, []); (Some (Ok (Some (VAtom (0, 3)))), [EvSample true; EvCall 0 [VAtom (0, 3)]])] /\
  outs' = [(None, []); (Some (Ok (Some (VAtom (1, 7)))), [EvSample true; EvCall 0 [VAtom (0, 3)]])].
Proof.
  exists tx_user, tx_aty, [TNew 0 [TDFun true]; TCall 0], 3. do 4 eexists. split; [exact tx_respects|].
  split; [repeat constructor|]. split; [reflexivity|]. split; [vm_compute; reflexivity|]. split; [vm_compute; reflexivity|]. split; reflexivity.
Qed.
