(** Functions without arguments that call each other are called by need (C72). *)
From Coq Require Import List Bool Arith Lia.
From Verif Require Import Value TupleAlg LazyModel LazySpec LazyProofs DocSpec NestedModel NestedSpec NestedThms NestedCalls.
Import ListNotations.

Lemma NoDup_both {X} (l l' : list X) : NoDup l -> NoDup l' -> (forall x, In x l -> ~ In x l') -> NoDup (l ++ l').
Proof.
  induction 1 as [|x l Hx Hl IH]; intros Hl' Hd; cbn [app]; [exact Hl'|]. constructor.
  - rewrite in_app_iff. intros [H|H]; [auto|]. apply (Hd x); cbn; auto.
  - apply IH; auto. intros y Hy. apply Hd. now right.
Qed.

Section Need.
Context {A W fid did : Type}.
Notation value := (val A).
Notation event := (event A fid did).
Notation script := (script A W).
Notation nvar := (nvar A fid did).
Notation caller := (nat -> list nvar -> W -> option (res (value * bool) * list nvar * W * list event)).
Variable U : nuser A W fid did.
Notation needs := (needs (body U)).

Lemma needs_snoc fs f w : needs (fs ++ [f]) w =
  needs fs w ++ [match answer (needs fs w) w (body U f []) with Some v => v | None => VVoid end].
Proof. unfold NestedSpec.needs. now rewrite fold_left_app. Qed.

Lemma needs_length fs w : length (needs fs w) = length fs.
Proof. induction fs as [|f fs IH] using rev_ind; [reflexivity|]. rewrite needs_snoc, !app_length, IH. reflexivity. Qed.

Lemma needs_app fs more w : exists vs, needs (fs ++ more) w = needs fs w ++ vs.
Proof.
  induction more as [|d more (vs & IH)] using rev_ind.
  - exists []. now rewrite !app_nil_r.
  - rewrite app_assoc, needs_snoc, IH. rewrite <- app_assoc. eauto.
Qed.

Lemma needs_nth fs i f w : nth_error fs i = Some f -> gentle i (body U f []) ->
  nth i (needs fs w) VVoid = match answer (needs fs w) w (body U f []) with Some v => v | None => VVoid end.
Proof.
  intros Hi Hg. apply nth_error_split in Hi. destruct Hi as (l1 & l2 & -> & <-).
  assert (E : exists vs, needs (l1 ++ f :: l2) w = needs (l1 ++ [f]) w ++ vs).
  { destruct (needs_app (l1 ++ [f]) l2 w) as (vs & E). exists vs. rewrite <- E, <- app_assoc. reflexivity. }
  destruct E as (vs & E). rewrite E, needs_snoc, <- app_assoc.
  rewrite app_nth2 by (rewrite needs_length; lia). rewrite needs_length, Nat.sub_diag. cbn [nth app].
  rewrite (answer_more _ _ Hg) by (rewrite needs_length; lia). reflexivity.
Qed.

Section Fixed.
Variables (fs : list fid) (w : W).
Hypothesis Hfs : NoDup fs.
Hypothesis Hg : forall i f, nth_error fs i = Some f -> gentle i (body U f []).
Notation env := (needs fs w).
Notation asks := (asks env w).
Notation reaches := (reaches (body U) fs w).

Definition set (vs : list nvar) (y : nat) : Prop := cache_of vs y <> None.

(** States: no dependencies; caches hold the values; what was computed was asked for. *)
Definition inv (vs : list nvar) : Prop :=
  map nfn vs = fs /\ (forall y v, nth_error vs y = Some v -> ndeps v = []) /\
  (forall y c, cache_of vs y = Some c -> c = nth y env VVoid) /\
  (forall y f z, set vs y -> nth_error fs y = Some f -> asks (body U f []) z -> set vs z).

(** A step: new caches are those of [P]; the functions called are those with new caches. *)
Definition step (k : nat) (P : nat -> Prop) (vs vs' : list nvar) (lg : list event) : Prop :=
  NoDup (map fst (function_calls lg)) /\
  (forall f, In f (map fst (function_calls lg)) <-> exists y, nth_error fs y = Some f /\ ~ set vs y /\ set vs' y) /\
  (forall y, set vs y -> set vs' y) /\
  (forall y, set vs' y -> set vs y \/ (y < k /\ P y)).

Lemma set_dec vs y : set vs y \/ ~ set vs y.
Proof. unfold set. destruct (cache_of vs y); [left|right]; congruence. Qed.

Lemma fs_inj f x y : nth_error fs x = Some f -> nth_error fs y = Some f -> x = y.
Proof. intros Hx Hy. apply (proj1 (NoDup_nth_error fs) Hfs); [apply nth_error_Some; congruence|congruence]. Qed.

Lemma step_refl k (P : nat -> Prop) vs : step k P vs vs [].
Proof. split; [constructor|]. split; [|split]; auto. intros f. cbn. split; [easy|]. now intros (y & _ & H1 & H2). Qed.

Lemma step_trans k (P : nat -> Prop) vs vs1 vs2 l1 l2 : step k P vs vs1 l1 -> step k P vs1 vs2 l2 -> step k P vs vs2 (l1 ++ l2).
Proof.
  intros (H1 & H2 & H3 & H4) (G1 & G2 & G3 & G4). unfold step. rewrite fc_app, map_app. split; [|split; [|split]].
  - apply NoDup_both; auto. intros f Hf Hf'. apply H2 in Hf. apply G2 in Hf'. destruct Hf as (y & Ey & _ & Hy).
    destruct Hf' as (z & Ez & Hz & _). now rewrite (fs_inj f y z Ey Ez) in Hy.
  - intros f. rewrite in_app_iff, H2, G2. split.
    + intros [(y & Ey & Hn & Hy)|(y & Ey & Hn & Hy)]; exists y; (split; [exact Ey|]); split; auto.
    + intros (y & Ey & Hn & Hy). destruct (set_dec vs1 y) as [Hs|Hs]; [left|right]; eauto.
  - auto.
  - intros y Hy. destruct (G4 y Hy) as [Hy1|]; auto.
Qed.

Lemma step_weaken k k' (P Q : nat -> Prop) vs vs' lg : k <= k' -> (forall y, P y -> Q y) -> step k P vs vs' lg -> step k' Q vs vs' lg.
Proof.
  intros Hk HPQ (H1 & H2 & H3 & H4). split; [exact H1|]. split; [exact H2|]. split; [exact H3|].
  intros y Hy. destruct (H4 y Hy) as [|[Hl Hp]]; [auto|]. right. split; [lia|auto].
Qed.

Definition call_good (call : caller) (x : nat) : Prop :=
  forall vs, inv vs -> exists ch vs' lg, call x vs w = Some (Ok (nth x env VVoid, ch), vs', w, lg) /\ inv vs' /\
    set vs' x /\ step (S x) (reaches x) vs vs' lg.

Lemma script_good call i (s : script) : gentle i s -> (forall x, x < i -> call_good call x) ->
  forall vs, inv vs -> exists vs' lg,
    run_script call s vs w = Some (Ok (match answer env w s with Some v => v | None => VVoid end), vs', w, lg) /\
    inv vs' /\ (forall z, asks s z -> set vs' z) /\ step i (fun y => exists z, asks s z /\ reaches z y) vs vs' lg.
Proof.
  intros Hs Hc. induction Hs as [o|k Hk IH|x k Hx Hk IH]; intros vs Hi; cbn [run_script answer NestedSpec.asks].
  - exists vs, []. split; [reflexivity|]. split; [exact Hi|]. split; [easy|]. apply step_refl.
  - apply IH. exact Hi.
  - destruct (Hc x Hx vs Hi) as (ch & vs1 & l1 & E1 & Hi1 & Hset & Hst1). rewrite E1.
    assert (Ea : api_result (Ok (nth x env VVoid, ch)) = Ok (visible (nth x env VVoid))) by (now destruct (nth x env VVoid)).
    rewrite Ea.
    destruct (IH (visible (nth x env VVoid)) vs1 Hi1) as (vs2 & l2 & E2 & Hi2 & Hset2 & Hst2).
    rewrite E2. exists vs2, (l1 ++ l2). split; [reflexivity|]. split; [exact Hi2|]. split.
    + intros z [->|Hz]; [|auto]. now apply Hst2.
    + eapply step_trans.
      * eapply step_weaken; [| |exact Hst1]; [lia|]. intros y Hy. exists x. auto.
      * eapply step_weaken; [| |exact Hst2]; [lia|]. intros y (z & Hz & Hy). eauto.
Qed.

Lemma ncall_good n : forall x, x < n -> x < length fs -> call_good (ncall U n) x.
Proof.
  induction n as [|n IH]; intros x Hn Hx vs Hi; [lia|].
  destruct (nth_error fs x) as [f|] eqn:Hf; [|apply nth_error_None in Hf; lia].
  pose proof Hi as (Hfn & Hdeps & Hval & Hcl).
  assert (Hv : exists v, nth_error vs x = Some v /\ nfn v = f).
  { rewrite <- Hfn, nth_error_map in Hf. destruct (nth_error vs x) as [v|]; [|discriminate]. injection Hf as <-. eauto. }
  destruct Hv as (v & Hv & Hvf). cbn [ncall]. rewrite Hv, (Hdeps _ _ Hv). cbn [call_deps existsb].
  rewrite orb_false_r. destruct (cache_of vs x) as [c|] eqn:Hc; cbn [is_some negb].
  { rewrite (Hval _ _ Hc). exists false, vs, []. split; [reflexivity|]. split; [exact Hi|].
    split; [unfold set; congruence|]. apply step_refl. }
  assert (Hcl' : forall y, y < x -> call_good (ncall U n) y) by (intros y Hy; apply IH; lia).
  cbn [read_deps ctad_tuple map]. rewrite Hvf.
  destruct (script_good (ncall U n) x _ (Hg _ _ Hf) Hcl' vs Hi) as (vs1 & l1 & E1 & Hi1 & Hset1 & Hst1).
  rewrite E1. rewrite <- (needs_nth fs x f w Hf (Hg _ _ Hf)).
  pose proof Hi1 as (Hfn1 & Hdeps1 & Hval1 & Hcl1). pose proof Hst1 as (S1 & S2 & S3 & S4).
  assert (Hns : ~ set vs x) by (unfold set; congruence).
  assert (Hc1 : cache_of vs1 x = None).
  { destruct (cache_of vs1 x) eqn:Ec; auto. exfalso. destruct (S4 x) as [?|[? _]]; [unfold set; congruence|auto|lia]. }
  rewrite Hc1. unfold compare. cbn [app].
  assert (Hv1 : exists v1, nth_error vs1 x = Some v1).
  { rewrite <- Hfn1, nth_error_map in Hf. destruct (nth_error vs1 x); [eauto|discriminate]. }
  destruct Hv1 as (v1 & Hv1). assert (Hl1 : x < length vs1) by (apply nth_error_Some; congruence).
  unfold set_cache. rewrite Hv1. set (v2 := mkVar (nfn v1) (Some (nth x env VVoid)) (ndeps v1)).
  assert (Hcs : forall y, cache_of (update x v2 vs1) y = if Nat.eqb y x then Some (nth x env VVoid) else cache_of vs1 y).
  { intros y. unfold cache_of. destruct (Nat.eqb_spec y x) as [->|Hne].
    - now rewrite nth_update_same by exact Hl1.
    - now rewrite nth_update_other by auto. }
  assert (Hsets : forall y, set (update x v2 vs1) y <-> y = x \/ set vs1 y).
  { intros y. unfold set. rewrite Hcs. destruct (Nat.eqb_spec y x) as [->|Hne]; [split; [auto|congruence]|].
    split; [auto|]. now intros [|]. }
  do 3 eexists. split; [reflexivity|]. split; [|split; [apply Hsets; auto|]].
  - split; [|split; [|split]].
    + rewrite map_update. unfold v2. cbn [nfn]. rewrite update_id; [exact Hfn1|]. now rewrite nth_error_map, Hv1.
    + intros y z Hz. destruct (Nat.eq_dec x y) as [->|Hne].
      * rewrite nth_update_same in Hz by exact Hl1. injection Hz as <-. exact (Hdeps1 _ _ Hv1).
      * rewrite nth_update_other in Hz by exact Hne. exact (Hdeps1 _ _ Hz).
    + intros y c. rewrite Hcs. destruct (Nat.eqb_spec y x) as [->|Hne]; [congruence|apply Hval1].
    + intros y g z Hy Eg Hz. apply Hsets. apply Hsets in Hy. right. destruct Hy as [->|Hy]; [|eauto].
      rewrite Hf in Eg. injection Eg as <-. auto.
  - rewrite app_nil_r. split; [|split; [|split]].
    + cbn [function_calls map fst]. constructor; [|exact S1]. intros Hin. apply S2 in Hin. destruct Hin as (y & Ey & _ & Hy).
      rewrite (fs_inj f y x Ey Hf) in Hy. apply Hy. exact Hc1.
    + intros g. split.
      * intros [<-|Hin]; [exists x; rewrite Hsets; auto|]. apply S2 in Hin. destruct Hin as (y & Ey & Hy & Hy').
        exists y; rewrite Hsets; auto.
      * intros (y & Ey & Hy & Hy'). apply Hsets in Hy'. destruct Hy' as [->|Hy']; [left; cbn; congruence|].
        right. apply S2. eauto.
    + intros y Hy. apply Hsets. auto.
    + intros y Hy. apply Hsets in Hy. destruct Hy as [->|Hy]; [right; split; [lia|constructor]|].
      destruct (S4 y Hy) as [|[Hlt (z & Hz & Hr)]]; [auto|]. right. split; [lia|]. eapply reach_step; eassumption.
Qed.

Lemma calls_good n xs : Forall (fun x => x < length fs) xs -> length fs <= n -> forall vs, inv vs ->
  exists vs' outs, nrun U n (map PCall xs) vs w = Some (vs', w, outs) /\ inv vs' /\
    results outs = map (fun x => Ok (visible (nth x env VVoid))) xs /\ (forall x, In x xs -> set vs' x) /\
    step (length fs) (fun y => exists x, In x xs /\ reaches x y) vs vs' (concat (map snd outs)).
Proof.
  intros Hxs Hn. induction Hxs as [|x xs Hx Hxs IH]; intros vs Hi; cbn [map nrun].
  - exists vs, []. split; [reflexivity|]. split; [exact Hi|]. split; [reflexivity|]. split; [easy|]. apply step_refl.
  - cbn [nexec]. destruct (ncall_good n x ltac:(lia) Hx vs Hi) as (ch & vs1 & l1 & E1 & Hi1 & Hs1 & Hst1). rewrite E1.
    destruct (IH vs1 Hi1) as (vs2 & outs & E2 & Hi2 & Hr2 & Hs2 & Hst2). rewrite E2.
    do 2 eexists. split; [reflexivity|]. split; [exact Hi2|]. cbn [results]. split; [|split].
    + rewrite <- Hr2. unfold results. cbn [map flat_map fst snd app]. f_equal.
      destruct (nth x env VVoid); reflexivity.
    + intros y [<-|Hy]; [|auto]. now apply Hst2.
    + cbn [map snd concat]. eapply step_trans.
      * eapply step_weaken; [| |exact Hst1]; [lia|]. intros y Hy. exists x. cbn. auto.
      * eapply step_weaken; [| |exact Hst2]; [lia|]. intros y (z & Hz & Hy). exists z. cbn. auto.
Qed.

Lemma news_run n gs : forall vs w0, nrun U n (map (fun f => PNew f []) gs) vs w0 =
  Some (vs ++ map (fun f => new_var f []) gs, w0, map (fun _ => (None, [])) gs).
Proof.
  induction gs as [|g gs IH]; intros vs w0; cbn [map nrun nexec]; [now rewrite app_nil_r|]. rewrite IH, <- app_assoc. reflexivity.
Qed.

Theorem by_need n xs : Forall (fun x => x < length fs) xs -> length fs <= n ->
  exists vs outs, nrun U n (map (fun f => PNew f []) fs ++ map PCall xs) [] w = Some (vs, w, outs) /\
    results outs = map (fun x => Ok (visible (nth x env VVoid))) xs /\
    NoDup (map fst (function_calls (concat (map snd outs)))) /\
    forall f, In f (map fst (function_calls (concat (map snd outs)))) <->
              exists x y, In x xs /\ reaches x y /\ nth_error fs y = Some f.
Proof.
  intros Hxs Hn. rewrite nrun_app, news_run. cbn [app].
  assert (Hnone : forall y, cache_of (map (fun f => @new_var A fid did f []) fs) y = None).
  { intros y. unfold cache_of. rewrite nth_error_map. now destruct (nth_error fs y). }
  destruct (calls_good n xs Hxs Hn (map (fun f => new_var f []) fs)) as (vs & outs & E & Hi & Hr & Hs & Hst).
  { split; [|split; [|split]].
    - rewrite map_map. cbn. apply map_id.
    - intros y v Hv. rewrite nth_error_map in Hv. destruct (nth_error fs y); [|discriminate]. now injection Hv as <-.
    - intros y c. rewrite Hnone. discriminate.
    - intros y f z Hy. now apply Hy in Hnone. }
  rewrite E. do 2 eexists. split; [reflexivity|].
  assert (Ec : concat (map snd (map (fun _ : fid => (None, []) : output A fid did) fs ++ outs)) = concat (map snd outs)).
  { rewrite map_app, concat_app. replace (concat _) with (@nil event); [reflexivity|]. clear. induction fs; auto. }
  match goal with |- context [concat ?t] => change (concat t) with
    (concat (map snd (map (fun _ : fid => (None, []) : output A fid did) fs ++ outs))) end.
  rewrite Ec. split; [|split; [apply Hst|]].
  - rewrite <- Hr. clear. unfold results. rewrite flat_map_app. replace (flat_map _ (map _ fs)) with (@nil (res (option value))); [reflexivity|].
    induction fs; auto.
  - destruct Hst as (_ & S2 & S3 & S4). intros f. rewrite S2. split.
    + intros (y & Ey & Hn1 & Hy). destruct (S4 y Hy) as [|[_ (x & Hx & Hxy)]]; [easy|]. eauto.
    + intros (x & y & Hx & Hxy & Ey). exists y. split; [exact Ey|]. split; [unfold set; rewrite Hnone; congruence|].
      clear Ey. apply Hs in Hx. revert Hx. induction Hxy as [|x y z g Eg Ha Hyz IH]; auto. intros Hx. apply IH.
      destruct Hi as (_ & _ & _ & Hcl). eauto.
Qed.
End Fixed.
End Need.
