(** Sharing lazy functions through plain functions that call them (C71). *)
From Coq Require Import List Bool Arith Lia.
From Verif Require Import Value TupleAlg TupleAlgProofs LazyModel LazySpec LazyProofs DocSpec NestedModel NestedSpec.
Import ListNotations.

Lemma update_length {X} (x : X) l : forall n, length (update n x l) = length l.
Proof. induction l as [|y l IH]; intros [|n]; cbn; auto. Qed.

Lemma nth_update_same {X} (x : X) l : forall n, n < length l -> nth_error (update n x l) n = Some x.
Proof. induction l as [|y l IH]; intros [|n] H; cbn in *; try lia; auto. apply IH. lia. Qed.

Lemma nth_update_other {X} (x : X) l : forall n m, n <> m -> nth_error (update n x l) m = nth_error l m.
Proof. induction l as [|y l IH]; intros [|n] [|m] H; cbn; auto; try lia. Qed.

Lemma update_at {X} (y x : X) a b : update (length a) y (a ++ x :: b) = a ++ y :: b.
Proof. induction a; cbn; congruence. Qed.

Lemma NoDup_app_l {X} (l l' : list X) : NoDup (l ++ l') -> NoDup l.
Proof.
  induction l as [|f l IH]; intros H; [constructor|]. cbn [app] in H.
  rewrite NoDup_cons_iff in H. destruct H as [Hn H]. constructor; [|auto]. intros Hi. apply Hn. apply in_or_app. now left.
Qed.

Section Sharing.
Context {A W fid did : Type}.
Notation value := (val A).
Notation event := (event A fid did).
Notation script := (script A W).
Notation nvar := (nvar A fid did).
Notation ndep := (ndep A did).
Notation ndepspec := (ndepspec A did).
Notation nop := (nop A W fid did).
Notation def := (@def A fid did).
Variable U : nuser A W fid did.
Variable pf : fid -> list value -> option value.
Hypothesis Hbody : forall f args, body U f args = Return (pf f args).

Notation values := (values (plain U) pf).
Notation dep_value := (dep_value (plain U)).
Notation args_of := (args_of (plain U)).

(** ** Values *)

Lemma answer_more (s : script) n : gentle n s -> forall env more w, n <= length env ->
  answer (env ++ more) w s = answer env w s.
Proof.
  induction 1 as [o|k Hk IH|x k Hx Hk IH]; intros env more w Hn; cbn [answer]; auto.
  rewrite app_nth1 by lia. auto.
Qed.

Definition dep_ok (i : nat) (s : ndepspec) : Prop :=
  match s with PValue _ => True | PFun d => gentle i (plain U d) | PRef _ => False end.

Lemma dep_value_more i s env more w : dep_ok i s -> i <= length env ->
  dep_value (env ++ more) w s = dep_value env w s.
Proof. destruct s as [v|d|y]; cbn; intros H Hi; auto; [|easy]. now rewrite (answer_more _ _ H) by exact Hi. Qed.

Lemma args_more i (d : def) env more w : Forall (dep_ok i) (snd d) -> i <= length env ->
  args_of (env ++ more) w d = args_of env w d.
Proof.
  intros H Hi. unfold NestedSpec.args_of. apply map_ext_in. intros s Hs. rewrite Forall_forall in H.
  eapply dep_value_more; eauto.
Qed.

Lemma values_snoc (ds : list def) (d : def) w :
  values (ds ++ [d]) w = values ds w ++ [fval pf (fst d) (args_of (values ds w) w d)].
Proof. unfold NestedSpec.values. now rewrite fold_left_app. Qed.

Lemma values_length (ds : list def) w : length (values ds w) = length ds.
Proof.
  induction ds as [|d ds IH] using rev_ind; [reflexivity|]. rewrite values_snoc, !app_length, IH. reflexivity.
Qed.

Lemma values_app (ds more : list def) w : exists vs, values (ds ++ more) w = values ds w ++ vs.
Proof.
  induction more as [|d more (vs & IH)] using rev_ind.
  - exists []. now rewrite !app_nil_r.
  - rewrite app_assoc, values_snoc, IH. rewrite <- app_assoc. eauto.
Qed.

(** The conditions on the definitions. *)
Definition good (ds : list def) (i : nat) (d : def) : Prop :=
  Forall (dep_ok i) (snd d) /\
  forall w, (match args_of (values ds w) w d with [v] => as_tuple v = None | _ => True end) /\
    Forall (fun s => match s with PFun _ => nested_opt (dep_value (values ds w) w s) = false | _ => True end) (snd d).
Definition all_good (ds : list def) : Prop := forall i d, nth_error ds i = Some d -> good ds i d.

Lemma good_prefix (ds more : list def) : all_good (ds ++ more) -> all_good ds.
Proof.
  intros H i d Hi.
  assert (Hl : i < length ds) by (apply nth_error_Some; congruence).
  destruct (H i d) as [H1 H2]; [now rewrite nth_error_app1|]. split; [exact H1|].
  intros w. destruct (H2 w) as [H3 H4]. destruct (values_app ds more w) as (vs & E). rewrite E in H3, H4.
  rewrite (args_more i) in H3 by (auto; rewrite values_length; lia). split; [exact H3|].
  rewrite Forall_forall in H1, H4 |- *. intros s Hs. specialize (H4 s Hs). destruct s as [v|g|y]; auto.
  rewrite (dep_value_more i) in H4; [exact H4| |rewrite values_length; lia]. now apply H1.
Qed.

Lemma values_nth (ds : list def) i (d : def) w : nth_error ds i = Some d -> Forall (dep_ok i) (snd d) ->
  nth i (values ds w) VVoid = fval pf (fst d) (args_of (values ds w) w d).
Proof.
  intros Hi Hd. apply nth_error_split in Hi. destruct Hi as (l1 & l2 & -> & <-).
  assert (E : exists vs, values (l1 ++ d :: l2) w = values (l1 ++ [d]) w ++ vs).
  { destruct (values_app (l1 ++ [d]) l2 w) as (vs & E). exists vs. rewrite <- E, <- app_assoc. reflexivity. }
  destruct E as (vs & E). rewrite E, values_snoc, <- app_assoc.
  rewrite app_nth2 by (rewrite values_length; lia). rewrite values_length, Nat.sub_diag. cbn [nth app].
  now rewrite (args_more (length l1)) by (auto; rewrite values_length; lia).
Qed.

(** ** States *)

Definition spec_of (d : ndep) : ndepspec :=
  match d with NValue v => PValue v | NFun d _ => PFun d | NRef x => PRef x end.
Definition held (d : ndep) (c : value) : Prop :=
  match d with NValue v => c = v | NFun _ o => o = Some c | NRef _ => False end.
Definition shape (ds : list def) (vs : list nvar) : Prop :=
  Forall2 (fun (d : def) (v : nvar) => nfn v = fst d /\ map spec_of (ndeps v) = snd d) ds vs.
Definition caches_ok (v : nvar) : Prop :=
  match ncache v with
  | None => True
  | Some c => exists cs, Forall2 held (ndeps v) cs /\ c = fval pf (nfn v) cs
  end.
Definition sane (k : nat) (vs : list nvar) : Prop :=
  forall y v, y < k -> nth_error vs y = Some v -> caches_ok v.

Lemma held_fun ds : forall cs cs', Forall2 held ds cs -> Forall2 held ds cs' -> cs = cs'.
Proof.
  induction ds as [|d ds IH]; intros cs cs' H1 H2; inversion H1; inversion H2; subst; auto.
  f_equal; [|now apply IH]. destruct d; cbn [held] in *; try easy; congruence.
Qed.

Lemma shape_nth ds vs x v : shape ds vs -> nth_error vs x = Some v ->
  exists d, nth_error ds x = Some d /\ nfn v = fst d /\ map spec_of (ndeps v) = snd d.
Proof.
  intros H. revert x. induction H as [|d v' ds vs H1 H IH]; intros [|x] E; cbn in *; try discriminate.
  - injection E as <-. eauto.
  - auto.
Qed.

Lemma shape_nth' ds vs x d : shape ds vs -> nth_error ds x = Some d -> exists v, nth_error vs x = Some v.
Proof.
  intros H E. apply Forall2_length in H. destruct (nth_error vs x) eqn:F; eauto.
  apply nth_error_None in F. assert (x < length ds) by (apply nth_error_Some; congruence). lia.
Qed.

Lemma shape_update ds vs x v v' : shape ds vs -> nth_error vs x = Some v ->
  nfn v' = nfn v -> map spec_of (ndeps v') = map spec_of (ndeps v) -> shape ds (update x v' vs).
Proof.
  intros H. revert x. induction H as [|d u ds vs H1 H IH]; intros [|x] E E1 E2; cbn in *; try discriminate.
  - injection E as <-. constructor; [|exact H]. rewrite E1, E2. exact H1.
  - constructor; [exact H1|]. apply IH; auto.
Qed.

(** ** Calls of functions so far *)
Definition calls := list (fid * list value).
Definition last_args (H : calls) (f : fid) (a : list value) : Prop :=
  exists l1 l2, H = l1 ++ (f, a) :: l2 /\ forall b, ~ In (f, b) l2.
Definition hist (k : nat) (H : calls) (vs : list nvar) : Prop :=
  forall y v, y < k -> nth_error vs y = Some v ->
  match ncache v with
  | None => forall a, ~ In (nfn v, a) H
  | Some _ => forall cs, Forall2 held (ndeps v) cs -> last_args H (nfn v) cs
  end.

Lemma last_more H f a H' : last_args H f a -> (forall b, ~ In (f, b) H') -> last_args (H ++ H') f a.
Proof.
  intros (l1 & l2 & -> & Hn) H2. exists l1, (l2 ++ H'). split; [now rewrite <- app_assoc|].
  intros b Hb. apply in_app_or in Hb. destruct Hb as [Hb|Hb]; [now apply (Hn b)|now apply (H2 b)].
Qed.

Lemma last_unique H f a b : last_args H f a -> last_args H f b -> a = b.
Proof.
  intros (l1 & l2 & -> & H1) (k1 & k2 & E & H2). revert k1 E.
  induction l1 as [|z l1 IH]; intros [|y k1] E; cbn [app] in E.
  - now injection E.
  - injection E as <- ->. exfalso. apply (H1 b). apply in_or_app. right. now left.
  - injection E as -> <-. exfalso. apply (H2 a). apply in_or_app. right. now left.
  - injection E as _ E. now apply (IH k1).
Qed.

Lemma last_snoc (H : calls) f a : last_args (H ++ [(f, a)]) f a.
Proof. exists H, []. split; auto. Qed.

Lemma no_repeats_snoc (H : calls) f a : no_repeats H ->
  (forall b, last_args H f b -> b <> a) -> no_repeats (H ++ [(f, a)]).
Proof.
  intros Hn Hl g a1 a2 l1 l2 l3 E Hf.
  destruct l3 as [|z l3 _] using rev_ind.
  - replace (l1 ++ (g, a1) :: l2 ++ [(g, a2)]) with ((l1 ++ (g, a1) :: l2) ++ [(g, a2)]) in E
      by (rewrite <- app_assoc; reflexivity).
    apply app_inj_tail in E. destruct E as [-> E]. injection E as <- <-. apply Hl. exists l1, l2. auto.
  - replace (l1 ++ (g, a1) :: l2 ++ (g, a2) :: l3 ++ [z]) with ((l1 ++ (g, a1) :: l2 ++ (g, a2) :: l3) ++ [z]) in E.
    2: { rewrite <- app_assoc. cbn [app]. rewrite <- app_assoc. reflexivity. }
    apply app_inj_tail in E. destruct E as [-> _]. now apply (Hn g a1 a2 l1 l2 l3).
Qed.

Lemma fc_app (l l' : list event) : function_calls (l ++ l') = function_calls l ++ function_calls l'.
Proof. unfold function_calls. apply flat_map_app. Qed.

Hypothesis Hsound : forall a b, naeq U a b = true -> a = b.

(** ** One call *)
Section Call.
Variable ds : list def.
Hypothesis Hgood : all_good ds.
Variable w : W.
Notation env := (values ds w).

(** With an exact [==] and without empty optionals, and with different functions. *)
Definition exact : Prop :=
  (forall a, naeq U a a = true) /\ NoDup (map fst ds) /\
  (forall w' i d, nth_error ds i = Some d ->
     Forall (fun s => match s with PFun _ => has_nullopt (dep_value (values ds w') w' s) = false | _ => True end) (snd d)).

(** What a call does to the history; it concerns the first [k] variables. *)
Definition logs (k : nat) (vs vs' : list nvar) (lg : list event) : Prop :=
  Forall (fun fa => exists y d, y < k /\ nth_error ds y = Some d /\ fst fa = fst d /\ snd fa = args_of env w d)
         (function_calls lg) /\
  (exact -> forall H, hist k H vs -> no_repeats H ->
     hist k (H ++ function_calls lg) vs' /\ no_repeats (H ++ function_calls lg)).

Definition kept (k : nat) (vs vs' : list nvar) : Prop := forall j, k <= j -> nth_error vs' j = nth_error vs j.

Lemma logs_refl k vs lg : function_calls lg = [] -> logs k vs vs lg.
Proof. intros E. split; rewrite E; [constructor|]. intros _ H Hh Hn. now rewrite app_nil_r. Qed.

Lemma logs_trans k vs vs1 vs2 l1 l2 : logs k vs vs1 l1 -> logs k vs1 vs2 l2 -> logs k vs vs2 (l1 ++ l2).
Proof.
  intros [H1 H2] [H3 H4]. split; rewrite fc_app.
  - apply Forall_app. auto.
  - intros He H Hh Hn. destruct (H2 He H Hh Hn) as [Hh1 Hn1]. rewrite app_assoc. now apply H4.
Qed.

Lemma kept_trans k vs vs1 vs2 : kept k vs vs1 -> kept k vs1 vs2 -> kept k vs vs2.
Proof. intros H1 H2 j Hj. now rewrite H2, H1. Qed.

(** Other variables' histories are not concerned. *)
Lemma logs_more k k' vs vs' lg : shape ds vs -> kept k vs vs' -> k <= k' -> logs k vs vs' lg -> logs k' vs vs' lg.
Proof.
  intros Hs Hk Hle [H1 H2]. split.
  - eapply Forall_impl; [|exact H1]. intros fa (y & d & Hy & Hd). exists y, d. split; [lia|exact Hd].
  - intros He H Hh Hn. destruct (H2 He H) as [Hh' Hn']; [intros y v Hy; apply Hh; lia|exact Hn|]. split; [|exact Hn'].
    intros y v Hy Hv. destruct (Nat.lt_ge_cases y k) as [Hyk|Hyk]; [now apply (Hh' y)|].
    rewrite Hk in Hv by exact Hyk. pose proof (Hh y v Hy Hv) as Hb.
    assert (Hout : forall b, ~ In (nfn v, b) (function_calls lg)).
    { intros b Hin. rewrite Forall_forall in H1. destruct (H1 _ Hin) as (z & d & Hz & Hd & Ef & _). cbn [fst] in Ef.
      destruct (shape_nth ds vs y v Hs Hv) as (d' & Hd' & Ef' & _).
      destruct He as (_ & Hnd & _). rewrite NoDup_nth_error in Hnd.
      assert (z = y); [|lia]. 
      assert (Hz' : z < length ds) by (apply nth_error_Some; congruence).
      apply Hnd; [rewrite map_length; exact Hz'|].
      etransitivity; [exact (map_nth_error fst z ds Hd)|]. etransitivity; [|symmetry; exact (map_nth_error fst y ds Hd')]. congruence. }
    destruct (ncache v).
    + intros cs Hcs. apply last_more; auto.
    + intros a Hin. apply in_app_or in Hin. destruct Hin as [Hin|Hin]; [now apply (Hb a)|now apply (Hout a)].
Qed.

Definition call_ok (call : nat -> list nvar -> W -> outcome (value * bool)) (x : nat) : Prop :=
  forall vs, shape ds vs -> sane (S x) vs ->
  exists ch vs' lg, call x vs w = Some (Ok (nth x env VVoid, ch), vs', w, lg) /\
    shape ds vs' /\ sane (S x) vs' /\ kept (S x) vs vs' /\ logs (S x) vs vs' lg.

Lemma sane_kept k k' vs vs' : kept k vs vs' -> sane k vs' -> sane k' vs -> sane k' vs'.
Proof.
  intros Hk Hs Hs' y v Hy Hv. destruct (Nat.lt_ge_cases y k) as [H|H]; [now apply (Hs y)|].
  rewrite Hk in Hv by exact H. now apply (Hs' y).
Qed.

Lemma script_ok call i (s : script) : gentle i s -> i <= length ds -> (forall x, x < i -> call_ok call x) ->
  forall vs, shape ds vs -> sane i vs ->
  exists vs' lg, run_script call s vs w = Some (Ok (match answer env w s with Some v => v | None => VVoid end), vs', w, lg) /\
    shape ds vs' /\ sane i vs' /\ kept i vs vs' /\ logs i vs vs' lg.
Proof.
  intros Hg Hi Hc. induction Hg as [o|k Hk IH|x k Hx Hk IH]; intros vs Hs Hn; cbn [run_script answer].
  - exists vs, []. split; [reflexivity|]. split; [exact Hs|]. split; [exact Hn|].
    split; [easy|]. now apply logs_refl.
  - now apply IH.
  - destruct (Hc x Hx vs Hs) as (ch & vs1 & l1 & E & Hs1 & Hn1 & Hk1 & Hl1); [intros y v Hy; apply Hn; lia|].
    rewrite E. assert (Hn1' : sane i vs1) by (eapply sane_kept; eassumption).
    assert (Ea : api_result (Ok (nth x env VVoid, ch)) = Ok (visible (nth x env VVoid))) by (now destruct (nth x env VVoid)).
    rewrite Ea. destruct (IH (visible (nth x env VVoid)) vs1 Hs1 Hn1') as (vs2 & l2 & E2 & Hs2 & Hn2 & Hk2 & Hl2).
    rewrite E2. exists vs2, (l1 ++ l2). split; [reflexivity|]. split; [exact Hs2|]. split; [exact Hn2|].
    assert (Hki : kept i vs vs1) by (intros j Hj; apply Hk1; lia).
    split; [eapply kept_trans; eassumption|].
    eapply logs_trans; [|exact Hl2]. eapply logs_more; [exact Hs|exact Hk1|lia|exact Hl1].
Qed.

Lemma compare_false o (v : value) : nested_opt v = false -> fst (compare (fid := fid) (did := did) U o v) = false ->
  forall c, o = Some c -> c = v.
Proof.
  intros Hv E c ->. cbn in E. apply opt_ne_unnested in E; [|exact Hv]. eapply veq_sound; eassumption.
Qed.

Lemma compare_true o (v : value) : (forall a, naeq U a a = true) -> has_nullopt v = false ->
  fst (compare (fid := fid) (did := did) U o v) = true -> o <> Some v.
Proof.
  intros Hr Hv E ->. cbn [compare fst] in E. rewrite opt_ne_nonnull in E by exact Hv. rewrite veq_refl in E by exact Hr. discriminate.
Qed.

Lemma deps_ok call x d : (forall y, y < x -> call_ok call y) -> nth_error ds x = Some d ->
  forall rest pre vs v, shape ds vs -> sane x vs -> nth_error vs x = Some v -> ndeps v = pre ++ rest ->
  exists rs vs' lg rest',
    call_deps U call x (length pre) rest vs w = Some (Ok rs, vs', w, lg) /\
    shape ds vs' /\ sane x vs' /\ kept (S x) vs vs' /\ logs x vs vs' lg /\
    nth_error vs' x = Some (mkVar (nfn v) (ncache v) (pre ++ rest')) /\
    Forall2 held rest' (map fst rs) /\ map fst rs = map (dep_value env w) (map spec_of rest) /\
    (existsb snd rs = false -> forall cs, Forall2 held rest cs -> cs = map fst rs) /\
    (exact -> existsb snd rs = true -> forall cs, Forall2 held rest cs -> cs <> map fst rs).
Proof.
  intros Hc Hd. destruct (Hgood x d Hd) as [Hok Hw].
  assert (Hx : x < length ds) by (apply nth_error_Some; congruence).
  induction rest as [|r rest IH]; intros pre vs v Hs Hn Hv Epre.
  { exists [], vs, [], []. split; [reflexivity|]. split; [exact Hs|]. split; [exact Hn|].
    split; [easy|]. split; [now apply logs_refl|]. split; [rewrite <- Epre; now destruct v|].
    split; [constructor|]. split; [reflexivity|]. split; [|discriminate].
    intros _ cs H. now inversion H. }
  destruct (shape_nth ds vs x v Hs Hv) as (d' & Hd' & Ef & Es). assert (d' = d) by congruence. subst d'.
  assert (Hin : In (spec_of r) (snd d)).
  { rewrite <- Es, Epre, map_app. apply in_or_app. right. now left. }
  assert (Hr : dep_ok x (spec_of r)) by (rewrite Forall_forall in Hok; now apply Hok).
  destruct r as [u|g o|y]; cbn [spec_of dep_ok] in Hr; [| |easy].
  - cbn [call_deps call_dep].
    destruct (IH (pre ++ [NValue u]) vs v Hs Hn Hv) as (rs & vs' & lg & rest' & E & H1 & H2 & H3 & H4 & H5 & H6 & H7 & H8 & H9);
      [rewrite <- app_assoc; exact Epre|].
    replace (length (pre ++ [NValue u])) with (S (length pre)) in E by (rewrite app_length; cbn; lia). rewrite E.
    exists ((u, false) :: rs), vs', lg, (NValue u :: rest'). split; [reflexivity|]. split; [exact H1|]. split; [exact H2|].
    split; [exact H3|]. split; [exact H4|]. split; [rewrite H5, <- app_assoc; reflexivity|].
    split; [constructor; [reflexivity|exact H6]|]. split; [cbn [map fst spec_of NestedSpec.dep_value]; now rewrite H7|].
    cbn [existsb snd orb map fst]. split.
    + intros Ee cs Hcs. inversion Hcs as [|? c ? cs' Hu Hcs']; subst. cbn [held] in Hu. subst c. f_equal. auto.
    + intros Hex Ee cs Hcs. inversion Hcs as [|? c ? cs' Hu Hcs']; subst. intros Eq. injection Eq as _ Eq. now apply (H9 Hex Ee cs').
  - destruct (script_ok call x (plain U g) Hr) with (vs := vs) as (vs1 & l1 & E1 & Hs1 & Hn1 & Hk1 & Hl1); [lia|exact Hc|exact Hs|exact Hn|].
    cbn [call_deps call_dep]. rewrite E1.
    set (u := match answer env w (plain U g) with Some v => v | None => VVoid end) in *.
    assert (Hv1 : nth_error vs1 x = Some v) by (rewrite Hk1; auto).
    assert (Eo : dep_cache vs1 x (length pre) = o).
    { unfold dep_cache. rewrite Hv1, Epre, nth_error_app2, Nat.sub_diag by lia. reflexivity. }
    rewrite Eo. destruct (compare U o u) as [ch lc] eqn:Ecmp.
    assert (Esd : set_dep_cache x (length pre) u vs1 = update x (mkVar (nfn v) (ncache v) ((pre ++ [NFun g (Some u)]) ++ rest)) vs1).
    { unfold set_dep_cache. rewrite Hv1, Epre, nth_error_app2, Nat.sub_diag by lia. cbn [nth_error].
      rewrite update_at, <- app_assoc. reflexivity. }
    rewrite Esd. set (v2 := mkVar (nfn v) (ncache v) ((pre ++ [NFun g (Some u)]) ++ rest)) in *.
    set (vs2 := update x v2 vs1).
    assert (Hl : x < length vs1) by (apply nth_error_Some; congruence).
    assert (Hv2 : nth_error vs2 x = Some v2) by (now apply nth_update_same).
    assert (Hs2 : shape ds vs2).
    { eapply shape_update; [exact Hs1|exact Hv1|reflexivity|]. cbn [v2 ndeps]. rewrite Epre, <- app_assoc, !map_app. reflexivity. }
    assert (Hlow : forall y, y < x -> nth_error vs2 y = nth_error vs1 y) by (intros y Hy; apply nth_update_other; lia).
    assert (Hn2 : sane x vs2) by (intros y z Hy; rewrite Hlow by exact Hy; now apply Hn1).
    destruct (IH (pre ++ [NFun g (Some u)]) vs2 v2 Hs2 Hn2 Hv2 eq_refl) as (rs & vs' & lg & rest' & E & H1 & H2 & H3 & H4 & H5 & H6 & H7 & H8 & H9).
    replace (length (pre ++ [NFun g (Some u)])) with (S (length pre)) in E by (rewrite app_length; cbn; lia). rewrite E.
    assert (Hlc : function_calls lc = []).
    { unfold compare in Ecmp. injection Ecmp as _ <-. now destruct o. }
    exists ((u, ch) :: rs), vs', ((EvSample g :: l1 ++ lc) ++ lg), (NFun g (Some u) :: rest').
    split; [reflexivity|]. split; [exact H1|]. split; [exact H2|].
    split.
    { intros j Hj. rewrite H3 by exact Hj. unfold vs2. rewrite nth_update_other by lia. apply Hk1. lia. }
    split.
    { eapply logs_trans; [|exact H4]. destruct Hl1 as [Ha Hb].
      assert (Efc : function_calls (EvSample g :: l1 ++ lc) = function_calls l1).
      { change (function_calls (EvSample g :: l1 ++ lc)) with (function_calls (l1 ++ lc)). now rewrite fc_app, Hlc, app_nil_r. }
      split; rewrite Efc; [exact Ha|]. intros Hex H Hh Hnr. destruct (Hb Hex H Hh Hnr) as [Hh' Hnr']. split; [|exact Hnr'].
      intros y z Hy Hz. rewrite Hlow in Hz by exact Hy. now apply (Hh' y). }
    split; [rewrite H5, <- app_assoc; reflexivity|].
    split; [constructor; [reflexivity|exact H6]|]. split; [cbn [map fst spec_of NestedSpec.dep_value]; now rewrite H7|].
    cbn [existsb snd map fst].
    assert (Hu : dep_value env w (PFun g) = u) by reflexivity.
    split.
    + intros Ee cs Hcs. apply orb_false_iff in Ee. destruct Ee as [-> Ee].
      inversion Hcs as [|? c ? cs' Ho Hcs']; subst. cbn [held] in Ho. f_equal; [|auto].
      eapply compare_false; [|rewrite Ecmp; reflexivity|exact Ho].
      destruct (Hw w) as [_ Hnst]. rewrite Forall_forall in Hnst. exact (Hnst _ Hin).
    + intros Hex Ee cs Hcs. inversion Hcs as [|? c ? cs' Ho Hcs']; subst. cbn [held] in Ho.
      intros Eq. injection Eq as Eq1 Eq2. apply orb_true_iff in Ee. destruct Ee as [->|Ee].
      * destruct Hex as (Hr1 & _ & Hr2). apply (compare_true (Some c) u Hr1); [|rewrite <- Ho, Ecmp; reflexivity|congruence].
        specialize (Hr2 w x d Hd). rewrite Forall_forall in Hr2. exact (Hr2 _ Hin).
      * now apply (H9 Hex Ee cs').
Qed.

Lemma read_ok x (v : nvar) vs : nth_error vs x = Some v ->
  forall rest' pre rest rs, ndeps v = pre ++ rest' -> map spec_of rest = map spec_of rest' ->
  Forall2 held rest' (map fst rs) ->
  read_deps vs x (length pre) rest rs = map fst rs.
Proof.
  intros Hv. induction rest' as [|r' rest' IH]; intros pre rest rs Epre Es Hh; destruct rest as [|r rest]; try discriminate;
    destruct rs as [|c rs]; inversion Hh as [|? ? ? ? Hc Hh']; subst; auto.
  cbn [map] in Es. injection Es as Er Es. cbn [read_deps map]. f_equal.
  - destruct r' as [u|g o|y]; destruct r as [u0|g0 o0|y0]; try discriminate; cbn [read_dep held] in *; auto; [|easy].
    unfold dep_cache. rewrite Hv, Epre, nth_error_app2, Nat.sub_diag by lia. cbn [nth_error]. now rewrite Hc.
  - specialize (IH (pre ++ [r']) rest rs). rewrite app_length in IH. cbn [length] in IH.
    replace (length pre + 1) with (S (length pre)) in IH by lia. apply IH; auto. now rewrite <- app_assoc.
Qed.

Lemma ctad_regular (l : list value) : match l with [v] => as_tuple v = None | _ => True end ->
  ctad_tuple as_tuple l = l.
Proof. destruct l as [|v [|u l]]; intros H; cbn [ctad_tuple]; auto. now rewrite H. Qed.

Lemma ncall_ok n : forall x, x < n -> x < length ds -> call_ok (ncall U n) x.
Proof.
  induction n as [|n IHn]; intros x Hxn Hx vs Hs Hn; [lia|].
  assert (Hd : exists d, nth_error ds x = Some d).
  { destruct (nth_error ds x) eqn:E; eauto. apply nth_error_None in E. lia. }
  destruct Hd as (d & Hd). destruct (shape_nth' ds vs x d Hs Hd) as (v & Hv).
  destruct (shape_nth ds vs x v Hs Hv) as (d' & Hd' & Ef & Es). assert (d' = d) by congruence. subst d'. clear Hd'.
  destruct (Hgood x d Hd) as [Hok Hw].
  assert (Hc : forall y, y < x -> call_ok (ncall U n) y) by (intros y Hy; apply IHn; lia).
  assert (Hnx : sane x vs) by (intros y z Hy; apply Hn; lia).
  destruct (deps_ok (ncall U n) x d Hc Hd (ndeps v) [] vs v Hs Hnx Hv eq_refl)
    as (rs & vs1 & l1 & rest' & E1 & Hs1 & Hn1 & Hk1 & Hl1 & Hv1 & Hh1 & Er & Hsame & Hdiff).
  cbn [app length] in *. cbn [ncall]. rewrite Hv, E1.
  assert (Ec : cache_of vs1 x = ncache v) by (unfold cache_of; now rewrite Hv1).
  assert (Eargs : map fst rs = args_of env w d) by (rewrite Er, Es; reflexivity).
  assert (Hlen : x < length vs1) by (apply nth_error_Some; congruence).
  rewrite Ec, Hbody. cbn [run_script].
  assert (Eread : read_deps vs1 x 0 (ndeps v) rs = map fst rs).
  { apply (read_ok x _ vs1 Hv1 rest' [] (ndeps v) rs); [reflexivity| |exact Hh1].
    destruct (shape_nth ds vs1 x _ Hs1 Hv1) as (d' & Hd' & _ & Es'). cbn [ndeps] in Es'. congruence. }
  assert (Ector : ctad_tuple as_tuple (map fst rs) = args_of env w d).
  { rewrite Eargs. apply ctad_regular. apply Hw. }
  assert (Eval : match pf (nfn v) (args_of env w d) with Some v0 => v0 | None => VVoid end = nth x env VVoid).
  { rewrite Ef. symmetry. apply (values_nth ds x d w Hd Hok). }
  pose proof (Hn x v (Nat.lt_succ_diag_r x) Hv) as Hcv. unfold caches_ok in Hcv.
  destruct (negb (is_some (ncache v)) || existsb snd rs) eqn:Ech.
  - rewrite Eread, Ector, Eval. destruct (compare U (cache_of vs1 x) (nth x env VVoid)) as [ch lc] eqn:Ecmp.
    rewrite Ec in Ecmp.
    set (v2 := mkVar (nfn v) (Some (nth x env VVoid)) rest').
    assert (Eset : set_cache x (nth x env VVoid) vs1 = update x v2 vs1) by (unfold set_cache; now rewrite Hv1).
    rewrite Eset. eexists ch, _, _. split; [reflexivity|].
    assert (Hv2 : nth_error (update x v2 vs1) x = Some v2) by (now apply nth_update_same).
    split; [eapply shape_update; [exact Hs1|exact Hv1|reflexivity|reflexivity]|].
    split.
    { intros y z Hy Hz. destruct (Nat.eq_dec y x) as [->|Hyx].
      - rewrite Hv2 in Hz. injection Hz as <-. exists (map fst rs). split; [exact Hh1|]. cbn [nfn v2].
        rewrite <- Eval, Eargs. reflexivity.
      - rewrite nth_update_other in Hz by auto. apply (Hn1 y z); [lia|exact Hz]. }
    split; [intros j Hj; rewrite nth_update_other by lia; now apply Hk1|].
    assert (Hlc : function_calls lc = []).
    { unfold compare in Ecmp. injection Ecmp as _ <-. now destruct (ncache v). }
    assert (Efc : function_calls (l1 ++ EvCall (nfn v) (args_of env w d) :: [] ++ lc) =
                  function_calls l1 ++ [(nfn v, args_of env w d)]).
    { rewrite fc_app. cbn [app]. f_equal. cbn [function_calls flat_map]. unfold function_calls in Hlc. now rewrite Hlc. }
    destruct Hl1 as [Ha Hb]. split; rewrite Efc.
    + apply Forall_app. split; [|constructor; [|constructor]].
      * eapply Forall_impl; [|exact Ha]. intros fa (y & e & Hy & He). exists y, e. split; [lia|exact He].
      * exists x, d. cbn [fst snd]. split; [lia|]. split; [exact Hd|]. split; [exact Ef|reflexivity].
    + intros Hex H Hh Hnr.
      destruct (Hb Hex H) as [Hh1' Hnr1]; [intros y z Hy; apply Hh; lia|exact Hnr|].
      assert (Hfresh : forall b, ~ In (nfn v, b) (function_calls l1)).
      { intros b Hin. rewrite Forall_forall in Ha. destruct (Ha _ Hin) as (z & e & Hz & He & Ef' & _). cbn [fst] in Ef'.
        destruct Hex as (_ & Hnd & _). rewrite NoDup_nth_error in Hnd.
        assert (Hz' : z < length ds) by lia.
        assert (z = x); [|lia]. apply Hnd; [rewrite map_length; exact Hz'|].
        etransitivity; [exact (map_nth_error fst z ds He)|]. etransitivity; [|symmetry; exact (map_nth_error fst x ds Hd)]. congruence. }
      pose proof (Hh x v (Nat.lt_succ_diag_r x) Hv) as Hhx.
      split.
      * intros y z Hy Hz. destruct (Nat.eq_dec y x) as [->|Hyx].
        -- rewrite Hv2 in Hz. injection Hz as <-. cbn [v2 ncache nfn ndeps]. intros cs Hcs.
           assert (cs = args_of env w d) as -> by (rewrite <- Eargs; eapply held_fun; eassumption).
           rewrite app_assoc. apply last_snoc.
        -- rewrite nth_update_other in Hz by auto. assert (Hyx' : y < x) by lia. specialize (Hh1' y z Hyx' Hz).
           assert (Hne : forall b, ~ In (nfn z, b) [(nfn v, args_of env w d)]).
           { intros b [Hin|[]]. injection Hin as Hin _. destruct (shape_nth ds vs1 y z Hs1 Hz) as (e & He & Efe & _).
             destruct Hex as (_ & Hnd & _). rewrite NoDup_nth_error in Hnd.
             assert (Hy' : y < length ds) by lia.
             assert (y = x); [|lia]. apply Hnd; [rewrite map_length; exact Hy'|].
             etransitivity; [exact (map_nth_error fst y ds He)|]. etransitivity; [|symmetry; exact (map_nth_error fst x ds Hd)]. congruence. }
           rewrite app_assoc. destruct (ncache z).
           ++ intros cs Hcs. apply last_more; auto.
           ++ intros a Hin. apply in_app_or in Hin. destruct Hin as [Hin|Hin]; [now apply (Hh1' a)|now apply (Hne a)].
      * rewrite app_assoc. apply no_repeats_snoc; [exact Hnr1|]. intros b (m1 & m2 & Em & Hm).
        destruct (ncache v) as [c|].
        -- cbn [is_some negb orb] in Ech. destruct Hcv as (cs & Hcs & _).
           pose proof (Hdiff Hex Ech cs Hcs) as Hne. specialize (Hhx cs Hcs).
           assert (Hl : last_args (H ++ function_calls l1) (nfn v) cs) by (now apply last_more).
           assert (b = cs); [|subst b; congruence].
           eapply last_unique; [exists m1, m2; split; [exact Em|exact Hm]|exact Hl].
        -- exfalso. assert (Hin : In (nfn v, b) (H ++ function_calls l1)) by (rewrite Em; apply in_or_app; right; now left).
           apply in_app_or in Hin. destruct Hin as [Hin|Hin]; [now apply (Hhx b)|now apply (Hfresh b)].
  - apply orb_false_iff in Ech. destruct Ech as [Ech Eno]. destruct (ncache v) as [c|] eqn:Ecache; [|discriminate].
    destruct Hcv as (cs & Hcs & Ecs). pose proof (Hsame Eno cs Hcs) as Hcs'.
    assert (Ecv : c = nth x env VVoid) by (rewrite Ecs, Hcs', Eargs; exact Eval).
    exists false, vs1, l1. split; [now rewrite Ecv|]. split; [exact Hs1|].
    split.
    { intros y z Hy Hz. destruct (Nat.eq_dec y x) as [->|Hyx]; [|apply (Hn1 y z); [lia|exact Hz]].
      rewrite Hv1 in Hz. injection Hz as <-. exists (map fst rs). cbn [ndeps nfn]. split; [exact Hh1|]. congruence. }
    split; [exact Hk1|].
    destruct Hl1 as [Ha Hb]. split.
    + eapply Forall_impl; [|exact Ha]. intros fa (y & e & Hy & He). exists y, e. split; [lia|exact He].
    + intros Hex H Hh Hnr.
      destruct (Hb Hex H) as [Hh1' Hnr1]; [intros y z Hy; apply Hh; lia|exact Hnr|]. split; [|exact Hnr1].
      intros y z Hy Hz. destruct (Nat.eq_dec y x) as [->|Hyx]; [|apply (Hh1' y z); [lia|exact Hz]].
      rewrite Hv1 in Hz. injection Hz as <-. cbn [ncache ndeps nfn]. intros cs' Hcs''.
      assert (cs' = cs) as -> by (rewrite Hcs'; eapply held_fun; eassumption).
      pose proof (Hh x v (Nat.lt_succ_diag_r x) Hv) as Hhx. rewrite Ecache in Hhx. apply last_more; [now apply Hhx|].
      intros b Hin. rewrite Forall_forall in Ha. destruct (Ha _ Hin) as (q & e & Hq & He & Ef' & _). cbn [fst] in Ef'.
      destruct Hex as (_ & Hnd & _). rewrite NoDup_nth_error in Hnd.
      assert (Hq' : q < length ds) by lia.
      assert (q = x); [|lia]. apply Hnd; [rewrite map_length; exact Hq'|].
      etransitivity; [exact (map_nth_error fst q ds He)|]. etransitivity; [|symmetry; exact (map_nth_error fst x ds Hd)]. congruence.
Qed.
End Call.

(** ** Programs *)
Lemma eager_grows p : forall (ds0 : list def) w ds vals,
  neager (plain U) pf p ds0 w = Some (ds, vals) -> exists more, ds = ds0 ++ more.
Proof.
  induction p as [|o p IH]; intros ds0 w ds vals E; cbn [neager] in E.
  - injection E as <- _. exists []. now rewrite app_nil_r.
  - destruct o as [f ss|x|x|h].
    + apply IH in E. destruct E as (more & ->). rewrite <- app_assoc. eauto.
    + destruct (nth_error ds0 x) as [d|]; [|discriminate]. apply IH in E. destruct E as (more & ->).
      rewrite <- app_assoc. eauto.
    + destruct (nth_error (values ds0 w) x) as [v|]; [|discriminate].
      destruct (neager (plain U) pf p ds0 w) as [[ds1 vals1]|] eqn:E1; [|discriminate]. injection E as <- _. eauto.
    + eauto.
Qed.

Lemma exact_prefix (ds more : list def) : all_good (ds ++ more) -> exact (ds ++ more) -> exact ds.
Proof.
  intros Hg (H1 & H2 & H3). split; [exact H1|]. split.
  - apply (NoDup_app_l _ (map fst more)). rewrite <- map_app. exact H2.
  - intros w i d Hi. assert (Hl : i < length ds) by (apply nth_error_Some; congruence).
    assert (Hi' : nth_error (ds ++ more) i = Some d) by (now rewrite nth_error_app1).
    specialize (H3 w i d Hi'). destruct (Hg i d Hi') as [Hok _]. destruct (values_app ds more w) as (vs & E). rewrite E in H3.
    rewrite Forall_forall in H3, Hok |- *. intros s Hs. specialize (H3 s Hs). destruct s as [v|g|y]; auto.
    rewrite (dep_value_more i) in H3; [exact H3|now apply Hok|rewrite values_length; lia].
Qed.

Lemma no_repeats_tail (l l' : calls) : no_repeats (l ++ l') -> no_repeats l'.
Proof.
  intros H f a1 a2 l1 l2 l3 -> Hn. apply (H f a1 a2 (l ++ l1) l2 l3); [|exact Hn]. now rewrite <- app_assoc.
Qed.

Lemma once_each (ds : list def) (w : W) (l : calls) : NoDup (map fst ds) ->
  Forall (fun fa => exists y d, nth_error ds y = Some d /\ fst fa = fst d /\ snd fa = args_of (values ds w) w d) l ->
  no_repeats l -> NoDup (map fst l).
Proof.
  intros Hnd Hf. induction Hf as [|[f a] l (y & d & Hy & Ef & Ea) Hf IH]; intros Hn; [constructor|]. cbn [map fst snd] in *.
  assert (Hl : NoDup (map fst l)) by (apply IH; apply (no_repeats_tail [(f, a)] l); exact Hn).
  constructor; [|exact Hl]. intros Hi. apply in_map_iff in Hi. destruct Hi as ([g b] & Eg & Hi). cbn [fst] in Eg. subst g.
  apply in_split in Hi. destruct Hi as (l1 & l2 & ->).
  apply (Hn f a b [] l1 l2 eq_refl).
  - intros c Hc. rewrite map_app in Hl. cbn [map fst] in Hl. apply NoDup_remove_2 in Hl. apply Hl. apply in_or_app. left.
    apply in_map_iff. exists (f, c). auto.
  - rewrite Forall_forall in Hf. destruct (Hf (f, b)) as (z & e & Hz & Ef' & Eb); [apply in_or_app; right; now left|].
    cbn [fst snd] in *. assert (z = y).
    { rewrite NoDup_nth_error in Hnd. assert (Hz' : z < length ds) by (apply nth_error_Some; congruence).
      apply Hnd; [rewrite map_length; exact Hz'|].
      etransitivity; [exact (map_nth_error fst z ds Hz)|]. etransitivity; [|symmetry; exact (map_nth_error fst y ds Hy)]. congruence. }
    subst z. congruence.
Qed.

Theorem sharing_runs n p : forall (ds0 : list def) vs w ds vals,
  neager (plain U) pf p ds0 w = Some (ds, vals) -> all_good ds -> length ds <= n ->
  shape ds0 vs -> sane (length ds0) vs ->
  exists vs' w' outs, nrun U n p vs w = Some (vs', w', outs) /\ results outs = map Ok vals /\
    (exact ds -> forall H, hist (length ds0) H vs -> no_repeats H -> Forall (fun fa => In (fst fa) (map fst ds0)) H ->
       no_repeats (H ++ function_calls (concat (map snd outs))) /\
       Forall (fun o => NoDup (map fst (function_calls (snd o)))) outs).
Proof.
  induction p as [|o p IH]; intros ds0 vs w ds vals E Hg Hn Hs Hc; cbn [neager] in E.
  { injection E as <- <-. exists vs, w, []. split; [reflexivity|]. split; [reflexivity|].
    intros _ H _ Hr _. cbn. rewrite app_nil_r. auto. }
  assert (Hadd : forall (d : def) (v : nvar), nfn v = fst d -> map spec_of (ndeps v) = snd d -> caches_ok v ->
            shape (ds0 ++ [d]) (vs ++ [v]) /\ sane (length (ds0 ++ [d])) (vs ++ [v])).
  { intros d v E1 E2 Hv. split; [apply Forall2_app; [exact Hs|]; constructor; [auto|constructor]|].
    intros y z Hy Hz. pose proof Hs as Hl; apply Forall2_length in Hl. rewrite app_length in Hy. cbn [length] in Hy.
    destruct (Nat.eq_dec y (length ds0)) as [->|Hyl].
    - rewrite nth_error_app2, Hl, Nat.sub_diag in Hz by lia. now injection Hz as <-.
    - rewrite nth_error_app1 in Hz by lia. apply (Hc y z); [lia|exact Hz]. }
  assert (Hhadd : forall (d : def) (v : nvar), nfn v = fst d -> ncache v = None -> NoDup (map fst (ds0 ++ [d])) ->
            forall H, hist (length ds0) H vs -> Forall (fun fa => In (fst fa) (map fst ds0)) H ->
            hist (length (ds0 ++ [d])) H (vs ++ [v])).
  { intros d v E1 E2 Hnd H Hh Hf y z Hy Hz. pose proof Hs as Hl; apply Forall2_length in Hl. rewrite app_length in Hy. cbn [length] in Hy.
    destruct (Nat.eq_dec y (length ds0)) as [->|Hyl].
    - rewrite nth_error_app2, Hl, Nat.sub_diag in Hz by lia. injection Hz as <-. rewrite E2. intros a Hi.
      rewrite Forall_forall in Hf. specialize (Hf _ Hi). cbn [fst] in Hf. rewrite map_app in Hnd. cbn [map] in Hnd.
      apply NoDup_remove_2 in Hnd. rewrite app_nil_r in Hnd. apply Hnd. rewrite E1 in Hf. exact Hf.
    - rewrite nth_error_app1 in Hz by lia. apply (Hh y z); [lia|exact Hz]. }
  destruct o as [f ss|x|x|h]; cbn [nrun nexec].
  - destruct (Hadd (f, ss) (new_var f ss)) as [Hs' Hc']; [reflexivity| |exact I|].
    { cbn [new_var ndeps snd]. rewrite map_map. clear. induction ss as [|s ss IH]; [reflexivity|]. cbn [map]. rewrite IH. now destruct s. }
    destruct (IH _ _ _ _ _ E Hg Hn Hs' Hc') as (vs' & w' & outs & E' & Er & Hx). rewrite E'.
    exists vs', w', ((None, []) :: outs). split; [reflexivity|]. split; [exact Er|].
    intros Hex H Hh Hr Hf. destruct (eager_grows _ _ _ _ _ E) as (more & Eds).
    destruct (Hx Hex H) as [H1 H2].
    + apply Hhadd; auto. rewrite Eds in Hg, Hex. now destruct (exact_prefix _ _ Hg Hex) as (_ & Hnd & _).
    + exact Hr.
    + eapply Forall_impl; [|exact Hf]. intros fa Hfa. rewrite map_app. apply in_or_app. now left.
    + split; [exact H1|]. constructor; [constructor|exact H2].
  - destruct (nth_error ds0 x) as [d|] eqn:Hd; [|discriminate]. destruct (shape_nth' _ _ _ _ Hs Hd) as (v & Hv). rewrite Hv.
    destruct (shape_nth _ _ _ _ Hs Hv) as (d' & Hd' & Ef & Es). assert (d' = d) by congruence. subst d'.
    assert (Hxl : x < length ds0) by (apply nth_error_Some; congruence).
    destruct (Hadd d v Ef Es (Hc x v Hxl Hv)) as [Hs' Hc'].
    destruct (IH _ _ _ _ _ E Hg Hn Hs' Hc') as (vs' & w' & outs & E' & Er & Hx). rewrite E'.
    exists vs', w', ((None, []) :: outs). split; [reflexivity|]. split; [exact Er|].
    intros Hex. exfalso. destruct (eager_grows _ _ _ _ _ E) as (more & Eds). rewrite Eds in Hg, Hex.
    destruct (exact_prefix _ _ Hg Hex) as (_ & Hnd & _). rewrite map_app in Hnd. cbn [map] in Hnd.
    apply NoDup_remove_2 in Hnd. rewrite app_nil_r in Hnd. apply Hnd. apply in_map. eapply nth_error_In; exact Hd.
  - destruct (nth_error (values ds0 w) x) as [v|] eqn:Hvx; [|discriminate].
    destruct (neager (plain U) pf p ds0 w) as [[ds1 vals1]|] eqn:E1; [|discriminate]. injection E as <- <-.
    assert (Hxl : x < length ds0).
    { rewrite <- (values_length ds0 w). apply nth_error_Some. intros E0. discriminate (eq_trans (eq_sym Hvx) E0). }
    destruct (eager_grows _ _ _ _ _ E1) as (more & Eds).
    assert (Hg0 : all_good ds0) by (rewrite Eds in Hg; now apply good_prefix in Hg).
    assert (Hxn : x < n) by (rewrite Eds, app_length in Hn; lia).
    destruct (ncall_ok ds0 Hg0 w n x Hxn Hxl vs Hs) as (ch & vs1 & lg & Ec & Hs1 & Hc1 & Hk1 & Hl1).
    { intros y z Hy. apply Hc. lia. }
    assert (Hc1' : sane (length ds0) vs1) by (eapply sane_kept; eassumption).
    rewrite Ec. destruct (IH _ _ _ _ _ E1 Hg Hn Hs1 Hc1') as (vs' & w' & outs & E' & Er & Hx). rewrite E'.
    assert (Ev : nth x (values ds0 w) VVoid = v) by (now apply nth_error_nth).
    rewrite Ev. eexists vs', w', _. split; [reflexivity|].
    split; [cbn [results flat_map fst app]; unfold results in Er; rewrite Er; now destruct v|].
    intros Hex H Hh Hr Hf. pose proof Hex as Hex0. rewrite Eds in Hg, Hex0. apply exact_prefix in Hex0; [|exact Hg].
    assert (Hl : logs ds0 w (length ds0) vs vs1 lg) by (eapply logs_more; [exact Hs|exact Hk1|exact Hxl|exact Hl1]).
    destruct Hl as [Ha Hb]. destruct (Hb Hex0 H Hh Hr) as [Hh1 Hr1].
    destruct (Hx Hex (H ++ function_calls lg) Hh1 Hr1) as [H1 H2].
    { apply Forall_app. split; [exact Hf|]. eapply Forall_impl; [|exact Ha]. intros fa (y & d & Hy & Hd & Ef & _).
      rewrite Ef. apply in_map. eapply nth_error_In; exact Hd. }
    cbn [map snd concat]. rewrite fc_app, app_assoc. split; [exact H1|]. constructor; [|exact H2]. cbn [snd].
    apply (once_each ds0 w); [apply Hex0| |eapply no_repeats_tail; exact Hr1].
    eapply Forall_impl; [|exact Ha]. intros fa (y & d & _ & Hd). eauto.
  - destruct (IH _ _ _ _ _ E Hg Hn Hs Hc) as (vs' & w' & outs & E' & Er & Hx). rewrite E'.
    exists vs', w', ((None, []) :: outs). split; [reflexivity|]. split; [exact Er|].
    intros Hex H Hh Hr Hf. destruct (Hx Hex H Hh Hr Hf) as [H1 H2]. split; [exact H1|]. constructor; [constructor|exact H2].
Qed.
(** From nothing. *)
Section Whole.
Variables (n : nat) (p : list nop) (w : W) (ds : list def) (vals : list (option value)).
Hypothesis He : neager (plain U) pf p [] w = Some (ds, vals).
Hypothesis Hn : length ds <= n.
Hypothesis Hsh : shared_by_functions (plain U) ds.
Hypothesis Hone : on_arguments (fun args => match args with [v] => as_tuple v = None | _ => True end) (plain U) pf ds.
Hypothesis Hopt : on_arguments (Forall (fun v => nested_opt v = false)) (plain U) pf ds.

Lemma spelled_good : all_good ds.
Proof.
  intros i [f ss] Hi. split; [exact (Hsh _ _ _ Hi)|]. intros w'. split; [exact (Hone w' _ _ Hi)|].
  specialize (Hopt w' _ _ Hi). cbn beta in Hopt. unfold NestedSpec.args_of in Hopt. rewrite Forall_map in Hopt.
  eapply Forall_impl; [|exact Hopt]. intros [v|d|y]; auto.
Qed.

Theorem sharing_right : exists vs' w' outs, nrun U n p [] w = Some (vs', w', outs) /\ results outs = map Ok vals.
Proof.
  destruct (sharing_runs n p [] [] w ds vals He spelled_good Hn) as (vs' & w' & outs & E & Hr & _).
  - constructor.
  - intros y v Hy. cbn in Hy. lia.
  - eauto.
Qed.

Theorem sharing_minimal : (forall a, naeq U a a = true) -> NoDup (map fst ds) ->
  on_arguments (Forall (fun v => has_nullopt v = false)) (plain U) pf ds ->
  forall vs' w' outs, nrun U n p [] w = Some (vs', w', outs) ->
  no_repeats (function_calls (concat (map snd outs))) /\
  Forall (fun o => NoDup (map fst (function_calls (snd o)))) outs.
Proof.
  intros Hr Hd Hnull vs1 w1 outs1 E1.
  destruct (sharing_runs n p [] [] w ds vals He spelled_good Hn) as (vs' & w' & outs & E & _ & H).
  - constructor.
  - intros y v Hy. cbn in Hy. lia.
  - rewrite E in E1. injection E1 as <- <- <-. refine (H _ [] _ _ _).
    + split; [exact Hr|]. split; [exact Hd|]. intros w2 i [f ss] Hi. specialize (Hnull w2 _ _ Hi). cbn beta in Hnull.
      unfold NestedSpec.args_of in Hnull. rewrite Forall_map in Hnull. eapply Forall_impl; [|exact Hnull]. intros [v|d|y]; auto.
    + intros y v Hy. cbn in Hy. lia.
    + intros f a1 a2 l1 l2 l3 El. destruct l1; discriminate.
    + constructor.
Qed.
End Whole.

End Sharing.
