(** Version numbers instead of flags (C96). *)
From Coq Require Import List Bool Arith Lia.
From Verif Require Import Value TupleAlg TupleAlgProofs LazyModel LazySpec LazySpec2 LazyProofs LazyGeneral LazyRel LazyThms
  SharedModel SharedDocModel SharedDocThms VersionModel.
Import ListNotations.

Section Version.
Context {A W fid did : Type}.
Notation value := (val A).
Notation expr := (expr A fid did).
Notation vz := (vz A fid did).
Variable U : user A W fid did.
Notation vsteps n := (vsteps_with (vstep U n)).

Lemma vz_ind' (P : vz -> Prop) :
  (forall v, P (VValue v)) -> (forall d c n, P (VFun d c n)) ->
  (forall f c n s ds, Forall P ds -> P (VCore f c n s ds)) -> (forall x, P (VRef x)) -> forall l, P l.
Proof.
  intros Hc Hf Hn Hr. fix IH 1. intros [v|d c n|f c n s ds|x]; [apply Hc|apply Hf| |apply Hr].
  apply Hn. induction ds as [|d ds IHds]; constructor; [apply IH|exact IHds].
Qed.

Lemma vstep_eq n l vs w :
  vstep U n l vs w =
  match l with
  | VValue v => Some (Ok (v, 0), l, vs, w, [])
  | VFun d cache current =>
      let '(r, w') := dsem U d w in
      Some (match r with
            | VRet v =>
                let '(current', lc) := next_version U cache current v in
                (Ok (v, current'), VFun d (Some v) current', vs, w', EvSample d :: lc)
            | VThrow => (Exc, l, vs, w', [EvSample d])
            end)
  | VRef x =>
      match n with
      | 0 => None
      | S n' =>
          match nth_error vs x with
          | None => None
          | Some l0 =>
              match vstep U n' l0 vs w with
              | None => None
              | Some (r, l0', vs', w', lg) => Some (r, VRef x, update x l0' vs', w', lg)
              end
          end
      end
  | VCore f cache current seen deps =>
      match vsteps n deps vs w with
      | None => None
      | Some (Ok rs, deps', vs1, w1, l1) =>
          let versions := map snd rs in
          if negb (is_some cache) || negb (same_versions versions seen) then
            let args := ctad_tuple as_tuple (map fst rs) in
            let '(r, w2) := sem U f args w1 in
            Some (match regularized r with
                  | VRet v =>
                      let '(current', lc) := next_version U cache current v in
                      (Ok (v, current'), VCore f (Some v) current' versions deps', vs1, w2, l1 ++ EvCall f args :: lc)
                  | VThrow => (Exc, VCore f cache current seen deps', vs1, w2, l1 ++ [EvCall f args])
                  end)
          else
            Some (match cache with Some c => Ok (c, current) | None => UB end,
                  VCore f cache current seen deps', vs1, w1, l1)
      | Some (Exc, deps', vs1, w1, l1) => Some (Exc, VCore f cache current seen deps', vs1, w1, l1)
      | Some (UB, deps', vs1, w1, l1) => Some (UB, VCore f cache current seen deps', vs1, w1, l1)
      end
  end.
Proof. destruct n, l; reflexivity. Qed.

Lemma vsteps_cons n d ds vs w :
  vsteps n (d :: ds) vs w =
  match vstep U n d vs w with
  | None => None
  | Some (Ok x, d', vs1, w1, l1) =>
      match vsteps n ds vs1 w1 with
      | None => None
      | Some (rs, ds'', vs2, w2, l2) =>
          Some (match rs with Ok xs => Ok (x :: xs) | Exc => Exc | UB => UB end,
                d' :: ds'', vs2, w2, l1 ++ l2)
      end
  | Some (Exc, d', vs1, w1, l1) => Some (Exc, d' :: ds, vs1, w1, l1)
  | Some (UB, d', vs1, w1, l1) => Some (UB, d' :: ds, vs1, w1, l1)
  end.
Proof. reflexivity. Qed.

Lemma same_versions_spec xs ys : same_versions xs ys = true <-> xs = ys.
Proof. unfold same_versions. destruct (list_eq_dec _ _ _); split; congruence. Qed.

(** ** What version numbers tell *)

(** The value last delivered and its version number. *)
Definition look (vs : list vz) (d : vz) : option value * nat :=
  match d with
  | VValue v => (Some v, 0)
  | VFun _ c n => (c, n)
  | VCore _ c n _ _ => (c, n)
  | VRef x => match nth_error vs x with Some (VCore _ c n _ _) => (c, n) | _ => (None, 0) end
  end.

(** Version numbers grow; the same number means the same value. *)
Definition evolves (p q : option value * nat) : Prop :=
  snd p <= snd q /\ (snd p = snd q -> forall v, fst p = Some v -> fst q = Some v).
Lemma evolves_refl p : evolves p p.
Proof. split; auto. Qed.
Lemma evolves_trans p q r : evolves p q -> evolves q r -> evolves p r.
Proof. intros [H1 H2] [H3 H4]. split; [lia|]. intros E v Hv. apply H4; [lia|]. apply H2; [lia|exact Hv]. Qed.

Definition later (vs vs' : list vz) : Prop := forall d, evolves (look vs d) (look vs' d).
Lemma later_refl vs : later vs vs.
Proof. intros d. apply evolves_refl. Qed.
Lemma later_trans vs vs1 vs2 : later vs vs1 -> later vs1 vs2 -> later vs vs2.
Proof. intros H1 H2 d. eapply evolves_trans; eauto. Qed.

(** If [d] still has version [snd na], its value is [fst na]. *)
Definition dep_ok (vs : list vz) (d : vz) (a : value * nat) : Prop := evolves (Some (fst a), snd a) (look vs d).
Lemma dep_ok_later vs vs' d d' a : dep_ok vs d a -> evolves (look vs d) (look vs' d') -> dep_ok vs' d' a.
Proof. intros H1 H2. exact (evolves_trans _ _ _ H1 H2). Qed.

Lemma next_evolves cache n v :
  (sound_eq U -> nested_opt v = false -> evolves (cache, n) (Some v, fst (next_version U cache n v))).
Proof.
  intros Hsound Hn. unfold next_version, opt_neq. cbn.
  destruct (opt_ne (aeq U) cache v) eqn:E; cbn; split; cbn; try lia.
  intros _ v0 Hv0. subst cache. apply opt_ne_unnested in E; [|exact Hn]. f_equal. symmetry. exact (veq_sound _ Hsound _ _ E).
Qed.

Section Values.
Variable pf : fid -> list value -> option value.
Variable rd : did -> W -> value.
Variable throwing : Prop.
Hypothesis Hsem : forall f args w,
  sem U f args w = (FRet (pf f args), w) \/ throwing /\ sem U f args w = (FThrow, w).
Hypothesis Hdsem : forall d w, dsem U d w = (VRet (rd d w), w) \/ throwing /\ dsem U d w = (VThrow, w).
Hypothesis Hsound : sound_eq U.
Notation eval := (eval pf rd).

(** As [SharedDocThms.knows]; the cached result is that of values the dependencies had with
    the version numbers seen. *)
Inductive knows (es : list expr) (vs : list vz) (k : nat) : expr -> vz -> Prop :=
| kn_const v : knows es vs k (EConst v) (VValue v)
| kn_fun d c n : knows es vs k (EFun d) (VFun d c n)
| kn_node f c n s us ds :
    Forall2 (knows es vs k) us ds ->
    (forall v, c = Some v -> exists args, Forall2 (dep_ok vs) ds args /\ s = map snd args /\ v = fval pf f (map fst args)) ->
    knows es vs k (EApp f us) (VCore f c n s ds)
| kn_ref x e : nth_error es x = Some e -> x < k -> knows es vs k e (VRef x).

Lemma knows_more es es2 vs vs2 k k2 l : k <= k2 -> (forall d e, knows es vs k e d -> evolves (look vs d) (look vs2 d)) ->
  forall e, knows es vs k e l -> knows (es ++ es2) vs2 k2 e l.
Proof.
  intros Hk Hl. induction l as [v|d c n|f c n s ds IH|x] using vz_ind'; intros e H;
    inversion H as [| |f' c' n' s' us ds' Hus Hc|x' e' Hx Hlt]; subst.
  - constructor.
  - constructor.
  - constructor.
    + clear - IH Hus. induction Hus; constructor; inversion IH; subst; auto.
    + intros v Hv. destruct (Hc v Hv) as (args & Ha & -> & ->).
      exists args. split; [|auto]. clear - Hl Ha Hus.
      revert us Hus. induction Ha as [|d a ds args Hd Ha IHa]; intros us Hus; constructor; inversion Hus; subst; eauto using dep_ok_later.
  - constructor; [|lia]. rewrite nth_error_app1; [assumption|]. apply nth_error_Some. congruence.
Qed.

Lemma knows_later es vs vs2 k k2 e l : k <= k2 -> later vs vs2 -> knows es vs k e l -> knows es vs2 k2 e l.
Proof. intros Hk Hl H. rewrite <- (app_nil_r es). eapply knows_more; eauto. Qed.

Definition is_core (l : vz) : bool := match l with VCore _ _ _ _ _ => true | _ => false end.
Definition know (es : list expr) (vs : list vz) : Prop :=
  length vs = length es /\
  forall x e l, nth_error es x = Some e -> nth_error vs x = Some l -> is_core l = true /\ knows es vs x e l.

(** Replacing a variable by what it has become. *)
Lemma later_update (vs : list vz) x l l' :
  nth_error vs x = Some l -> is_core l = true -> is_core l' = true -> evolves (look vs l) (look vs l') ->
  later vs (update x l' vs).
Proof.
  intros Hx Hc Hc' He [v|d c n|f c n s ds|y]; try apply evolves_refl.
  cbn [look]. rewrite nth_error_update. destruct (x =? y) eqn:E; [|apply evolves_refl].
  apply Nat.eqb_eq in E as <-. rewrite Hx.
  assert (x < length vs) by (apply nth_error_Some; congruence).
  replace (x <? length vs) with true by (symmetry; now apply Nat.ltb_lt).
  destruct l; try discriminate. destruct l'; try discriminate. exact He.
Qed.

Lemma know_update es vs x e l l' :
  know es vs -> nth_error es x = Some e -> nth_error vs x = Some l -> is_core l' = true ->
  evolves (look vs l) (look vs l') -> knows es vs x e l' ->
  know es (update x l' vs) /\ later vs (update x l' vs).
Proof.
  intros [Hlen H] Hx Hl Hc He Hk.
  assert (Hla : later vs (update x l' vs)) by (destruct (H _ _ _ Hx Hl); eapply later_update; eauto).
  split; [|exact Hla]. split; [now rewrite update_length|].
  intros y e' l2 Hy Hl2. rewrite nth_error_update in Hl2. destruct (x =? y) eqn:E.
  - apply Nat.eqb_eq in E as <-. destruct (x <? length vs); [|discriminate]. injection Hl2 as <-.
    assert (e' = e) as -> by congruence. split; [exact Hc|]. eapply knows_later; [reflexivity|exact Hla|exact Hk].
  - destruct (H _ _ _ Hy Hl2) as [H1 H2]. split; [exact H1|]. eapply knows_later; [reflexivity|exact Hla|exact H2].
Qed.

Definition untouched (k : nat) (vs vs' : list vz) : Prop := forall y, k <= y -> nth_error vs' y = nth_error vs y.

Definition right_step (n : nat) (l : vz) : Prop := forall es e k vs w,
  know es vs -> knows es vs k e l -> k <= n -> k <= length es -> regular pf rd e -> unnested pf rd e ->
  exists r l' vs' lg, vstep U n l vs w = Some (r, l', vs', w, lg) /\ know es vs' /\ knows es vs' k e l' /\
    later vs vs' /\ evolves (look vs l) (look vs' l') /\ untouched k vs vs' /\ is_core l' = is_core l /\
    (r = Ok (eval e w, snd (look vs' l')) /\ fst (look vs' l') = Some (eval e w) \/ throwing /\ r = Exc).

Lemma right_steps n ds : Forall (right_step n) ds -> forall es us k vs w,
  know es vs -> Forall2 (knows es vs k) us ds -> k <= n -> k <= length es ->
  Forall (regular pf rd) us -> Forall (unnested pf rd) us ->
  exists r ds' vs' lg, vsteps n ds vs w = Some (r, ds', vs', w, lg) /\ know es vs' /\ Forall2 (knows es vs' k) us ds' /\
    later vs vs' /\ Forall2 (fun d d' => evolves (look vs d) (look vs' d')) ds ds' /\ untouched k vs vs' /\
    ((exists rs, r = Ok rs /\ map fst rs = map (fun e => eval e w) us /\ Forall2 (dep_ok vs') ds' rs /\
        forall args, Forall2 (dep_ok vs) ds args -> map snd args = map snd rs -> map fst args = map fst rs)
     \/ throwing /\ r = Exc).
Proof.
  induction 1 as [|d ds Hd Hds IH]; intros es us k vs w Hv Hk Hn Hl Hr Hu.
  - inversion Hk; subst. exists (Ok []), [], vs, []. split; [reflexivity|]. split; [exact Hv|]. split; [constructor|].
    split; [apply later_refl|]. split; [constructor|]. split; [intros y _; reflexivity|]. left.
    exists []. split; [reflexivity|]. split; [reflexivity|]. split; [constructor|].
    intros args Ha _. inversion Ha. reflexivity.
  - inversion Hk as [|u ? us' ? Hu1 Hus]; subst. inversion Hr as [|? ? Hr1 Hr2]; subst.
    inversion Hu as [|? ? Hn1 Hn2]; subst. rewrite vsteps_cons.
    destruct (Hd es u k vs w Hv Hu1 Hn Hl Hr1 Hn1) as (r & d' & vs1 & lg & -> & Hv1 & Hd' & Hla & Hev & Hun & _ & Hres).
    assert (Hus1 : Forall2 (knows es vs1 k) us' ds).
    { clear - Hus Hla. induction Hus; constructor; eauto using knows_later. }
    destruct Hres as [[-> Hlook]|[Ht ->]].
    + destruct (IH es us' k vs1 w Hv1 Hus1 Hn Hl Hr2 Hn2)
        as (rs & ds' & vs2 & lg2 & -> & Hv2 & Hds' & Hla2 & Hevs & Hun2 & Hrs).
      do 4 eexists. split; [reflexivity|]. split; [exact Hv2|].
      split; [constructor; [eapply knows_later; eauto|exact Hds']|].
      split; [eapply later_trans; eauto|].
      split.
      { constructor; [eapply evolves_trans; [exact Hev|apply Hla2]|].
        clear - Hevs Hla. induction Hevs; constructor; auto. eapply evolves_trans; [apply Hla|eassumption]. }
      split; [intros y Hy; rewrite Hun2, Hun; auto|].
      destruct Hrs as [(rs' & -> & Hvals & Hok & Hsame)|[Ht ->]]; [left|auto].
      exists ((eval u w, snd (look vs1 d')) :: rs'). split; [reflexivity|]. cbn [map fst snd]. rewrite Hvals.
      split; [reflexivity|]. split.
      { constructor; [|exact Hok]. unfold dep_ok; cbn [fst snd]. rewrite <- Hlook, <- surjective_pairing. apply Hla2. }
      intros args Ha Hs. inversion Ha as [|? a ? args' Ha1 Ha2]; subst. cbn [map] in Hs |- *. injection Hs as Hs1 Hs2.
      f_equal.
      * pose proof (dep_ok_later _ _ _ _ _ Ha1 Hev) as [_ H]. cbn [fst snd] in H. specialize (H Hs1 _ eq_refl). congruence.
      * apply Hsame in Hs2; [congruence|]. clear - Ha2 Hla. induction Ha2; constructor; auto.
        eapply dep_ok_later; [eassumption|apply Hla].
    + do 4 eexists. split; [reflexivity|]. split; [exact Hv1|]. split; [now constructor|].
      split; [exact Hla|]. split; [|auto]. constructor; [exact Hev|].
      clear - Hla. induction ds; constructor; auto.
Qed.

Lemma step_right n : forall l, right_step n l.
Proof.
  induction n as [n IHn] using lt_wf_ind.
  induction l as [v|d c m|f c m s ds IH|x] using vz_ind'; intros es e k vs w Hv Hk Hn Hl Hr Hu;
    rewrite vstep_eq; inversion Hk; subst.
  - do 4 eexists. split; [reflexivity|].
    split; [exact Hv|]. split; [exact Hk|]. split; [apply later_refl|]. split; [apply evolves_refl|].
    split; [intros y _; reflexivity|]. auto.
  - destruct (Hdsem d w) as [->|[Ht ->]].
    + pose proof (next_evolves c m (rd d w) Hsound (Hu w)) as Hne.
      destruct (next_version U c m (rd d w)) as [m' lc]. cbn [fst] in Hne.
      do 4 eexists. split; [reflexivity|]. split; [exact Hv|]. split; [constructor|]. split; [apply later_refl|].
      split; [exact Hne|]. split; [intros y _; reflexivity|]. split; [reflexivity|]. left. split; reflexivity.
    + do 4 eexists. split; [reflexivity|]. split; [exact Hv|]. split; [constructor|]. split; [apply later_refl|].
      split; [apply evolves_refl|]. split; [intros y _; reflexivity|]. auto.
  - pose proof Hr as Hr0. apply regular_app in Hr0 as [Hone Hrs]. pose proof Hu as Hu0. apply all_results_app in Hu0 as [Hnest Hus].
    destruct (right_steps n ds IH es us k vs w Hv ltac:(assumption) Hn Hl Hrs Hus)
      as (r & ds' & vs1 & lg & -> & Hv1 & Hds' & Hla & Hevs & Hun & Hres).
    assert (Hkept : forall v, c = Some v -> exists args, Forall2 (dep_ok vs1) ds' args /\ s = map snd args /\ v = fval pf f (map fst args)).
    { intros v Hcv. match goal with H : forall v, c = Some v -> _ |- _ => destruct (H v Hcv) as (args & Ha & Hs & Hvv) end.
      exists args. split; [|auto]. clear - Ha Hevs. revert args Ha.
      induction Hevs as [|d d' ds ds' Hd Hevs IHe]; intros args Ha; inversion Ha; subst; constructor; eauto using dep_ok_later. }
    destruct Hres as [(rs & -> & Hvals & Hok & Hsame)|[Ht ->]].
    + assert (Hargs : ctad_tuple as_tuple (map fst rs) = map (fun e => eval e w) us).
      { rewrite Hvals. apply ctad_regular. intros y Hy. destruct us as [|u1 [|u2 us]]; try discriminate. injection Hy as <-. apply Hone. }
      cbv zeta. rewrite Hargs.
      destruct (negb (is_some c) || negb (same_versions (map snd rs) s)) eqn:E.
      * destruct (Hsem f (map (fun e => eval e w) us) w) as [->|[Ht ->]].
        -- assert (Hreg : regularized (FRet (pf f (map (fun e => eval e w) us))) = VRet (eval (EApp f us) w)).
           { cbn. unfold fval. now destruct (pf f _). }
           rewrite Hreg.
           pose proof (next_evolves c m (eval (EApp f us) w) Hsound (Hnest w)) as Hne.
           destruct (next_version U c m _) as [m' lc]. cbn [fst] in Hne.
           do 4 eexists. split; [reflexivity|]. split; [exact Hv1|].
           split. { constructor; auto. intros v Hvv. injection Hvv as <-. exists rs. rewrite Hvals. auto. }
           split; [exact Hla|]. split; [exact Hne|]. split; [exact Hun|]. split; [reflexivity|]. left. split; reflexivity.
        -- cbn [regularized]. do 4 eexists. split; [reflexivity|]. split; [exact Hv1|]. split; [now constructor|].
           split; [exact Hla|]. split; [apply evolves_refl|]. auto.
      * apply orb_false_iff in E as [Ec Ea]. destruct c as [c|]; [|discriminate].
        apply negb_false_iff in Ea. apply same_versions_spec in Ea.
        match goal with H : forall v, Some c = Some v -> exists args, Forall2 (dep_ok vs) ds args /\ _ |- _ =>
          destruct (H c eq_refl) as (args & Ha & Hs & Hc) end.
        assert (Hav : map fst args = map fst rs) by (apply Hsame; [exact Ha|congruence]).
        do 4 eexists. split; [reflexivity|]. split; [exact Hv1|]. split; [now constructor|].
        split; [exact Hla|]. split; [apply evolves_refl|]. split; [exact Hun|]. split; [reflexivity|]. left.
        assert (c = eval (EApp f us) w) as -> by (rewrite Hc, Hav, Hvals; reflexivity). split; reflexivity.
    + do 4 eexists. split; [reflexivity|]. split; [exact Hv1|]. split; [now constructor|].
      split; [exact Hla|]. split; [apply evolves_refl|]. auto.
  - destruct n as [|n]; [lia|]. pose proof Hv as [Hlen Hv'].
    destruct (nth_error vs x) as [l0|] eqn:El.
    2: { apply nth_error_None in El. lia. }
    destruct (Hv' x e l0 ltac:(assumption) El) as [Hc0 Hk0].
    destruct (IHn n (Nat.lt_succ_diag_r n) l0 es e x vs w Hv Hk0)
      as (r & l1 & vs1 & lg & -> & Hv1 & Hl1 & Hla & Hev & Hun & Hco & Hr1); [lia|lia|exact Hr|exact Hu|].
    assert (El1 : nth_error vs1 x = Some l0) by (rewrite Hun; auto).
    assert (Hc1 : is_core l1 = true) by congruence.
    assert (Hev1 : evolves (look vs1 l0) (look vs1 l1)).
    { destruct l0; try discriminate. destruct l1; try discriminate. exact Hev. }
    destruct (know_update es vs1 x e l0 l1 Hv1 ltac:(assumption) El1 Hc1 Hev1 Hl1) as [Hv2 Hla2].
    assert (Hlook : look (update x l1 vs1) (VRef x) = look vs1 l1).
    { cbn [look]. rewrite nth_error_update, Nat.eqb_refl.
      assert (x < length vs1) by (apply nth_error_Some; congruence).
      replace (x <? length vs1) with true by (symmetry; now apply Nat.ltb_lt).
      destruct l1; try discriminate. reflexivity. }
    do 4 eexists. split; [reflexivity|]. split; [exact Hv2|]. split; [now constructor|].
    split; [eapply later_trans; eauto|]. split; [eapply evolves_trans; [apply Hla|apply Hla2]|].
    split.
    { intros y Hy. rewrite nth_error_update. replace (x =? y) with false by (symmetry; apply Nat.eqb_neq; lia). apply Hun. lia. }
    split; [reflexivity|]. rewrite Hlook. exact Hr1.
Qed.

Lemma vdeps_know es vs ss : know es vs ->
  match spec_deps EConst EFun es (map by_value_dep ss) with
  | Some us => exists ds, vdeps_of vs ss = Some ds /\ Forall2 (knows es vs (length es)) us ds
  | None => True
  end.
Proof.
  intros [Hlen Hv]. induction ss as [|s ss IH]; cbn [map spec_deps vdeps_of]; [exists []; auto|].
  assert (Hin : forall x e, nth_error es x = Some e -> exists l, nth_error vs x = Some l /\ knows es vs (length es) e l /\ x < length es).
  { intros x e He. assert (x < length es) by (apply nth_error_Some; congruence).
    destruct (nth_error vs x) as [l|] eqn:El; [|apply nth_error_None in El; lia].
    exists l. split; [reflexivity|]. split; [|assumption]. destruct (Hv _ _ _ He El).
    eapply knows_later; [|apply later_refl|eassumption]. lia. }
  destruct s as [x|[x|d|v]]; cbn [by_value_dep vdep_of].
  - destruct (nth_error es x) as [e|] eqn:E; [|exact I]. destruct (Hin x e E) as (l & -> & Hl & Hlt).
    destruct (spec_deps _ _ es _) as [us|]; [|exact I]. destruct IH as (ds & -> & Hds).
    eexists. split; [reflexivity|]. constructor; [now constructor|exact Hds].
  - destruct (nth_error es x) as [e|] eqn:E; [|exact I]. destruct (Hin x e E) as (l & -> & Hl & Hlt).
    destruct (spec_deps _ _ es _) as [us|]; [|exact I]. destruct IH as (ds & -> & Hds).
    eexists. split; [reflexivity|]. constructor; [exact Hl|exact Hds].
  - destruct (spec_deps _ _ es _) as [us|]; [|exact I]. destruct IH as (ds & -> & Hds).
    eexists. split; [reflexivity|]. constructor; [constructor|exact Hds].
  - destruct (spec_deps _ _ es _) as [us|]; [|exact I]. destruct IH as (ds & -> & Hds).
    eexists. split; [reflexivity|]. constructor; [constructor|exact Hds].
Qed.

Lemma look_app vs l d es k e : length vs = length es -> knows es vs k e d -> k <= length es -> look (vs ++ [l]) d = look vs d.
Proof.
  intros Hlen H Hk. inversion H; subst; try reflexivity. cbn [look]. rewrite nth_error_app1; [reflexivity|lia].
Qed.

Lemma know_add es vs e l : know es vs -> is_core l = true -> knows es vs (length es) e l -> know (es ++ [e]) (vs ++ [l]).
Proof.
  intros [Hlen Hv] Hc Hl. split; [rewrite !app_length; cbn; lia|].
  intros x e' l' He Hl'. destruct (lt_dec x (length es)) as [Hx|Hx].
  - rewrite nth_error_app1 in He by lia. rewrite nth_error_app1 in Hl' by lia.
    destruct (Hv _ _ _ He Hl') as [H1 H2]. split; [exact H1|].
    apply knows_more with (vs := vs) (k := x); [lia| |exact H2].
    intros d e0 Hd. rewrite (look_app vs l d es x e0 Hlen Hd) by lia. apply evolves_refl.
  - assert (x = length es).
    { assert (x < length (es ++ [e])) by (apply nth_error_Some; congruence). rewrite app_length in *; cbn in *; lia. }
    subst x. rewrite nth_error_app2, Nat.sub_diag in He by lia. rewrite nth_error_app2, Hlen, Nat.sub_diag in Hl' by lia.
    cbn in He, Hl'. injection He as <-. injection Hl' as <-. split; [exact Hc|].
    apply knows_more with (vs := vs) (k := length es); [lia| |exact Hl].
    intros d e0 Hd. rewrite (look_app vs l d es _ e0 Hlen Hd) by lia. apply evolves_refl.
Qed.

Lemma vrun_right p : forall es w es' vals vs,
  know es vs -> eager pf rd (map by_value p) es w = Some (es', vals) ->
  Forall (regular pf rd) es' -> Forall (unnested pf rd) es' ->
  exists s outs, vrun U p (mkVState vs w) = Some (s, outs) /\
    Forall2 (fun r v => r = Ok v \/ throwing /\ r = Exc) (results outs) vals.
Proof.
  induction p as [|o p IH]; intros es w es' vals vs Hv He Hr Hu.
  - cbn in He. injection He as <- <-. do 2 eexists. split; [reflexivity|constructor].
  - destruct o as [f ss|x|x|h]; cbn [map by_value eager] in He; cbn [vrun vexec vvars vworld].
    + pose proof (vdeps_know es vs ss Hv) as Hd. destruct (spec_deps _ _ es _) as [us|]; [|discriminate].
      destruct Hd as (ds & -> & Hds).
      destruct (IH (es ++ [EApp f us]) w es' vals (vs ++ [VCore f None 0 [] ds])) as (s & outs & -> & Ho); auto.
      { apply know_add; [exact Hv|reflexivity|]. constructor; [exact Hds|discriminate]. }
      do 2 eexists. split; [reflexivity|exact Ho].
    + destruct (nth_error es x) as [e|] eqn:E; [|discriminate]. pose proof Hv as [Hlen Hv'].
      assert (x < length es) by (apply nth_error_Some; congruence).
      destruct (nth_error vs x) as [l|] eqn:El; [|apply nth_error_None in El; lia].
      destruct (Hv' _ _ _ E El) as [Hc Hkn].
      destruct (IH (es ++ [e]) w es' vals (vs ++ [l])) as (s & outs & -> & Ho); auto.
      { apply know_add; [exact Hv|exact Hc|]. eapply knows_later; [|apply later_refl|exact Hkn]. lia. }
      do 2 eexists. split; [reflexivity|exact Ho].
    + destruct (nth_error es x) as [e|] eqn:E; [|discriminate]. pose proof Hv as [Hlen Hv'].
      assert (x < length es) by (apply nth_error_Some; congruence).
      destruct (nth_error vs x) as [l|] eqn:El; [|apply nth_error_None in El; lia].
      destruct (Hv' _ _ _ E El) as [Hc Hkn].
      destruct (eager pf rd (map by_value p) es w) as [[es1 vals1]|] eqn:Ee; [|discriminate]. injection He as <- <-.
      destruct (eager_grows pf rd _ _ _ _ _ Ee) as [more Hmore].
      assert (Hre : regular pf rd e /\ unnested pf rd e).
      { rewrite Hmore in Hr, Hu. apply Forall_app in Hr as [Hr _]. apply Forall_app in Hu as [Hu _].
        rewrite Forall_forall in Hr, Hu. apply nth_error_In in E. auto. }
      destruct (step_right (length vs) l es e x vs w Hv Hkn)
        as (r & l' & vs' & lg & -> & Hv1 & Hl' & Hla & Hev & Hun & Hco & Hres); [lia|lia|apply Hre|apply Hre|].
      assert (Hev1 : evolves (look vs' l) (look vs' l')).
      { destruct l; try discriminate. destruct l'; try (cbn in Hco; discriminate). exact Hev. }
      destruct (know_update es vs' x e l l' Hv1 E) as [Hv2 _]; auto; [rewrite Hun; auto|congruence|].
      destruct (IH es w es1 vals1 (update x l' vs') Hv2 Ee Hr Hu) as (s & outs & -> & Ho).
      do 2 eexists. split; [reflexivity|]. cbn. constructor; [|exact Ho].
      destruct Hres as [[-> _]|[Ht ->]]; [left|right; auto]. apply api_result_visible.
    + destruct (IH es (h w) es' vals vs Hv He Hr Hu) as (s & outs & -> & Ho).
      do 2 eexists. split; [reflexivity|exact Ho].
Qed.
End Values.

Lemma versions_right pf rd : pure_user U pf rd -> sound_eq U -> forall p w es vals,
  eager pf rd (map by_value p) [] w = Some (es, vals) -> Forall (regular pf rd) es -> Forall (unnested pf rd) es ->
  exists s outs, vrun U p (mkVState [] w) = Some (s, outs) /\ results outs = map Ok vals.
Proof.
  intros [Hsem Hdsem] Hsound p w es vals He Hr Hu.
  destruct (vrun_right pf rd False) with (p := p) (es := @nil expr) (w := w) (es' := es) (vals := vals) (vs := @nil vz)
    as (s & outs & Hx & Ho); auto.
  - split; [reflexivity|]. intros [|x]; discriminate.
  - do 2 eexists. split; [exact Hx|]. clear Hx He. revert Ho. generalize (results outs). intros l Ho.
    induction Ho as [|r v rs vs [->|[[] _]] Ho IH]; [reflexivity|]. cbn. now rewrite IH.
Qed.

Lemma versions_right_or_throws pf rd : pure_or_throw U pf rd -> sound_eq U -> forall p w es vals,
  eager pf rd (map by_value p) [] w = Some (es, vals) -> Forall (regular pf rd) es -> Forall (unnested pf rd) es ->
  exists s outs, vrun U p (mkVState [] w) = Some (s, outs) /\
    Forall2 (fun r v => r = Exc \/ r = Ok v) (results outs) vals.
Proof.
  intros [Hsem Hdsem] Hsound p w es vals He Hr Hu.
  destruct (vrun_right pf rd True) with (p := p) (es := @nil expr) (w := w) (es' := es) (vals := vals) (vs := @nil vz)
    as (s & outs & Hx & Ho); auto.
  - intros f args w0. destruct (Hsem f args w0); auto.
  - intros d w0. destruct (Hdsem d w0); auto.
  - split; [reflexivity|]. intros [|x]; discriminate.
  - do 2 eexists. split; [exact Hx|]. clear Hx He. revert Ho. generalize (results outs). intros l Ho.
    induction Ho as [|r v rs vs [->|[_ ->]] Ho IH]; constructor; auto.
Qed.

(** ** Without references and exceptions *)
Notation lz := (lz A fid did).
Definition ver (v : vz) : nat := snd (look [] v).

Inductive alike : lz -> vz -> Prop :=
| al_value v : alike (LValue v false) (VValue v)
| al_fun d c n : alike (LCore (FnSample d) c [LValue (VAtom (int0 U)) true]) (VFun d c n)
| al_core f c n s ls ds :
    Forall2 alike ls ds -> (c <> None -> s = map ver ds) ->
    alike (LCore (FnUser f) c ls) (VCore f c n s ds).

Definition bumped (ch : bool) (n : nat) : nat := if ch then S n else n.

Definition same_step (l : lz) : Prop := forall v n vs w r l' w' lg,
  alike l v -> step U l w = (r, l', w', lg) ->
  r = Exc \/ exists x ch v', r = Ok (x, ch) /\ alike l' v' /\ ver v' = bumped ch (ver v) /\
    vstep U n v vs w = Some (Ok (x, ver v'), v', vs, w', lg).

Lemma steps_alike ls : Forall same_step ls -> forall ds n vs w r ls' w' lg,
  Forall2 alike ls ds -> steps U ls w = (r, ls', w', lg) ->
  r = Exc \/ exists rs ds', r = Ok rs /\ Forall2 alike ls' ds' /\ map ver ds' = map (fun p => bumped (snd (fst p)) (snd p)) (combine rs (map ver ds)) /\
    length rs = length ds /\
    vsteps n ds vs w = Some (Ok (combine (map fst rs) (map ver ds')), ds', vs, w', lg).
Proof.
  induction 1 as [|l ls Hl Hls IH]; intros ds n vs w r ls' w' lg Ha Hs.
  - inversion Ha; subst. rewrite steps_nil in Hs. injection Hs as <- <- <- <-. right. exists [], []. repeat split; constructor.
  - inversion Ha as [|? d ? ds1 Hd Hds]; subst. rewrite steps_cons in Hs.
    destruct (step U l w) as [[[r1 l1] w1] lg1] eqn:E1.
    destruct (Hl d n vs _ _ _ _ _ Hd E1) as [->|(x & ch & d' & -> & Hd' & Hver & Hv)].
    + injection Hs as <- <- <- <-. now left.
    + destruct (steps U ls w1) as [[[rs ls1] w2] lg2] eqn:E2. injection Hs as <- <- <- <-.
      destruct (IH ds1 n vs _ _ _ _ _ Hds E2) as [->|(rs' & ds' & -> & Hds' & Hvers & Hlen & Hvs)]; [now left|].
      right. exists ((x, ch) :: rs'), (d' :: ds'). split; [reflexivity|]. split; [now constructor|].
      split; [cbn; now rewrite Hver, Hvers|]. split; [cbn; now rewrite Hlen|]. rewrite vsteps_cons, Hv, Hvs. reflexivity.
Qed.

Lemma bumped_same (rs : list (value * bool)) : forall ns, length rs = length ns ->
  (map (fun p => bumped (snd (fst p)) (snd p)) (combine rs ns) = ns <-> existsb snd rs = false).
Proof.
  induction rs as [|[x ch] rs IH]; intros [|n ns] Hlen; try discriminate; cbn; [tauto|].
  injection Hlen as Hlen. specialize (IH ns Hlen). destruct ch; cbn; split; intros H; try discriminate.
  - injection H as H _. lia.
  - injection H as H. now apply IH.
  - f_equal. now apply IH.
Qed.

Lemma next_version_eq c n v :
  next_version U c n v = (bumped (opt_ne (aeq U) c v) n, match c with None => [] | Some c => [EvCmp c v] end).
Proof. reflexivity. Qed.

Lemma map_fst_combine {X Y} (xs : list X) : forall ys : list Y, length xs = length ys -> map fst (combine xs ys) = xs.
Proof. induction xs as [|x xs IH]; intros [|y ys] H; try discriminate; cbn; [reflexivity|]. rewrite IH; auto. Qed.
Lemma map_snd_combine {X Y} (xs : list X) : forall ys : list Y, length xs = length ys -> map snd (combine xs ys) = ys.
Proof. induction xs as [|x xs IH]; intros [|y ys] H; try discriminate; cbn; [reflexivity|]. rewrite IH; auto. Qed.

Lemma step_alike l : same_step l.
Proof.
  induction l as [u uch|g cache ls IH] using lz_ind'; intros v n vs w r l' w' lg Ha Hs.
  - inversion Ha; subst. rewrite step_value in Hs. injection Hs as <- <- <- <-. right.
    do 3 eexists. split; [reflexivity|]. split; [constructor|]. split; [reflexivity|]. rewrite vstep_eq. reflexivity.
  - inversion Ha as [|d c m|f c m s ls' ds Hds Hseen]; subst.
    + rewrite step_core, steps_cons, step_value, steps_nil, core_eq in Hs. cbn [existsb snd orb] in Hs. rewrite orb_true_r in Hs.
      rewrite vstep_eq. cbn [call_fn] in Hs. destruct (dsem U d w) as [[x|] w1]; injection Hs as <- <- <- <-; [right|now left].
      rewrite next_version_eq. do 3 eexists. split; [reflexivity|]. split; [apply al_fun with (n := bumped (opt_ne (aeq U) cache x) m)|].
      split; reflexivity.
    + rewrite step_core in Hs. destruct (steps U ls w) as [[[rs ls1] w1] lg1] eqn:Es.
      destruct (steps_alike ls IH ds n vs _ _ _ _ _ Hds Es) as [->|(rs' & ds' & -> & Hds' & Hvers & Hlen & Hvs)].
      { injection Hs as <- <- <- <-. now left. }
      assert (Hlen' : length ds' = length ds).
      { pose proof (f_equal (@length nat) Hvers) as H. rewrite !map_length, combine_length, map_length in H. lia. }
      rewrite vstep_eq, Hvs. cbv zeta.
      rewrite map_fst_combine, map_snd_combine by (rewrite !map_length; lia).
      rewrite core_eq in Hs.
      assert (Hcond : negb (is_some cache) || negb (same_versions (map ver ds') s) = negb (is_some cache) || existsb snd rs').
      { destruct cache as [c|]; [|reflexivity]. cbn [is_some negb orb]. rewrite (Hseen ltac:(discriminate)), Hvers.
        destruct (existsb snd rs') eqn:Ex.
        - apply negb_true_iff. destruct (same_versions _ _) eqn:Ev; [|reflexivity]. apply same_versions_spec in Ev.
          apply bumped_same in Ev; [congruence|rewrite map_length; lia].
        - apply negb_false_iff. apply same_versions_spec. apply bumped_same; [rewrite map_length; lia|exact Ex]. }
      rewrite Hcond. destruct (negb (is_some cache) || existsb snd rs') eqn:Ec.
      * cbn [call_fn] in Hs. destruct (sem U f _ w1) as [o w2]. destruct (regularized o) as [x|].
        -- injection Hs as <- <- <- <-. right. rewrite next_version_eq. do 3 eexists. split; [reflexivity|].
           split; [apply al_core with (n := bumped (opt_ne (aeq U) cache x) m) (s := map ver ds'); [exact Hds'|reflexivity]|].
           split; [reflexivity|]. reflexivity.
        -- injection Hs as <- <- <- <-. now left.
      * destruct cache as [c|]; [|discriminate]. injection Hs as <- <- <- <-. right. do 3 eexists. split; [reflexivity|].
        split; [apply al_core with (n := m) (s := s); [exact Hds'|]|split; [reflexivity|now rewrite app_nil_r]].
        intros Hc. rewrite (Hseen Hc), Hvers. symmetry. apply bumped_same; [rewrite map_length; lia|].
        now apply orb_false_iff in Ec as [_ Ec].
Qed.

Lemma deps_alike ls vs ss : Forall2 alike ls vs ->
  match deps_of ls ss with
  | Some os => exists ds, vdeps_of vs (map SDep ss) = Some ds /\ Forall2 alike (map (ensure_lazy U) os) ds
  | None => True
  end.
Proof.
  intros H. induction ss as [|s ss IH]; cbn; [exists []; auto|].
  destruct s as [x|d|v]; cbn in *.
  - destruct (nth_error ls x) as [l|] eqn:E; cbn; [|exact I].
    destruct (Forall2_nth_error _ _ _ _ _ H E) as (u & -> & Hu); cbn.
    destruct (deps_of ls ss) as [os|]; [|exact I]. destruct IH as (ds & -> & Hds). eexists. split; [reflexivity|now constructor].
  - destruct (deps_of ls ss) as [os|]; [|exact I]. destruct IH as (ds & -> & Hds). eexists. split; [reflexivity|].
    constructor; [constructor|exact Hds].
  - destruct (deps_of ls ss) as [os|]; [|exact I]. destruct IH as (ds & -> & Hds). eexists. split; [reflexivity|].
    constructor; [constructor|exact Hds].
Qed.

Lemma run_alike p : forall ls vs w s outs,
  Forall2 alike ls vs -> run U p (mkState ls w) = Some (s, outs) -> Forall (fun out => fst out <> Some Exc) outs ->
  exists s2, vrun U (map no_refs p) (mkVState vs w) = Some (s2, outs).
Proof.
  induction p as [|o p IH]; intros ls vs w s outs Ha Hr Hno.
  - cbn in Hr. injection Hr as <- <-. eexists. reflexivity.
  - cbn [run] in Hr. cbn [map vrun]. destruct (exec U o (mkState ls w)) as [[s1 out]|] eqn:Ex; [|discriminate].
    destruct (run U p s1) as [[s2 outs']|] eqn:Er; [|discriminate]. injection Hr as <- <-.
    inversion Hno as [|? ? Hno1 Hno2]; subst.
    destruct o as [f ss|x|x|h]; cbn [exec vars world] in Ex; cbn [no_refs vexec vvars vworld].
    + pose proof (deps_alike ls vs ss Ha) as Hd. destruct (deps_of ls ss) as [os|]; [|discriminate].
      destruct Hd as (ds & -> & Hds). injection Ex as <- <-.
      destruct (IH _ (vs ++ [VCore f None 0 [] ds]) _ _ _ (Forall2_app Ha (Forall2_cons _ _ (al_core f None 0 [] _ _ Hds ltac:(congruence)) (Forall2_nil _))) Er Hno2) as [s3 ->].
      eexists. reflexivity.
    + destruct (nth_error ls x) as [l|] eqn:E; [|discriminate].
      destruct (Forall2_nth_error _ _ _ _ _ Ha E) as (u & -> & Hu). injection Ex as <- <-.
      destruct (IH _ (vs ++ [u]) _ _ _ (Forall2_app Ha (Forall2_cons _ _ Hu (Forall2_nil _))) Er Hno2) as [s3 ->].
      eexists. reflexivity.
    + destruct (nth_error ls x) as [l|] eqn:E; [|discriminate].
      destruct (Forall2_nth_error _ _ _ _ _ Ha E) as (u & -> & Hu).
      destruct (step U l w) as [[[r l'] w'] lg] eqn:Est. injection Ex as <- <-.
      destruct (step_alike l u (length vs) vs _ _ _ _ _ Hu Est) as [->|(v & ch & u' & -> & Hu' & _ & ->)].
      { exfalso. now apply Hno1. }
      destruct (IH _ (update x u' vs) _ _ _ (LazyProofs.Forall2_update _ _ _ x _ _ Ha Hu') Er Hno2) as [s3 ->].
      eexists. reflexivity.
    + injection Ex as <- <-. destruct (IH _ vs _ _ _ Ha Er Hno2) as [s3 ->]. eexists. reflexivity.
Qed.

Lemma versions_same p w s outs :
  run U p (mkState [] w) = Some (s, outs) -> Forall (fun out => fst out <> Some Exc) outs ->
  exists s2, vrun U (map no_refs p) (mkVState [] w) = Some (s2, outs).
Proof. intros Hr Hno. eapply run_alike; eauto. Qed.
End Version.
