(** Proofs for [RewiredRefSpec.v], first part: where the variables are, and what calls do
    to them. *)
From Coq Require Import List Bool Arith Lia.
From Verif Require Import Value Machine MachineSpec MachineLib Composed MachineThms BindSpec Programs
  RewiredSpec Rewired RefPrograms RewiredRefSpec.
From Verif Require LazyModel LazyGeneral SharedModel SharedProofs HistoryThms ShareThms.
Import ListNotations.

(** ** Replacing parts of different objects *)
Section Store.
Context {A F S : Type}.
Notation obj := (obj A F S).
Notation cell := (bool * obj)%type.
Implicit Type sto : list cell.

Lemma update_comm {X} i j (a b : X) l : i <> j -> update i a (update j b l) = update j b (update i a l).
Proof.
  revert i j. induction l as [|x l IH]; intros [|i] [|j] H; cbn; try reflexivity; try congruence.
  f_equal. apply IH. congruence.
Qed.

Lemma nth_is {X} i (l : list X) d : nth i l d = match nth_error l i with Some x => x | None => d end.
Proof. revert i. induction l as [|x l IH]; intros [|i]; cbn; auto. Qed.

Lemma mset_comm sto r r' (a b : obj) : fst r <> fst r' ->
  mset (mset sto r a) r' b = mset (mset sto r' b) r a.
Proof.
  intros H. unfold mset at 1 3. rewrite !nth_mset by congruence. unfold mset.
  destruct (nth_error sto (fst r)) as [[b1 x1]|], (nth_error sto (fst r')) as [[b2 x2]|]; try reflexivity.
  apply update_comm. congruence.
Qed.

Lemma mset_again sto r x (a b : obj) : holds sto r x -> mset (mset sto r a) r b = mset sto r b.
Proof. intros H. rewrite <- (ext_nil r) at 2. exact (mset_mset sto r x a [] b H). Qed.

End Store.

Section Refs.
Context {A W F S : Type}.
Notation value := (val A).
Notation obj := (obj A F S).
Notation cell := (bool * obj)%type.
Notation fn := (F * option S)%type.
Notation slz := (SharedModel.slz A fn fn).
Variable U : muser A W F S.
Implicit Type sto : list cell.
Implicit Type vs : list slz.
Notation KU := (kept_user U).

(** ** The variables in the store *)
Section Where.
Variable rs : list ref.
Hypothesis distinct : NoDup (map fst rs).

Definition at_var (i : nat) : ref := nth i rs (0, []).
Definition val_of vs (i : nat) : obj := skept rs (nth i vs (SharedModel.SRef 0)).

(** The first [k] variables. *)
Definition outside (k : nat) (r : ref) : Prop := forall i, i < k -> fst r <> fst (at_var i).
Definition stored (k : nat) vs sto : Prop :=
  k <= length rs /\ forall i, i < k -> holds sto (at_var i) (val_of vs i).
Fixpoint set_vars (k : nat) vs sto : list cell :=
  match k with
  | 0 => sto
  | Datatypes.S k' => mset (set_vars k' vs sto) (at_var k') (val_of vs k')
  end.

Lemma var_outside i k : k <= i -> i < length rs -> outside k (at_var i).
Proof.
  intros Hk Hi j Hj E. unfold at_var in E.
  assert (E' : nth i (map fst rs) 0 = nth j (map fst rs) 0).
  { change 0 with (fst (0, @nil nat)). now rewrite !map_nth. }
  assert (i = j); [|lia]. unfold ref in *. apply (proj1 (NoDup_nth (map fst rs) 0) distinct); [rewrite map_length; lia| |exact E'].
  rewrite map_length. lia.
Qed.

Lemma outside_ext k r q : outside k r -> outside k (ext r q).
Proof. intros H. exact H. Qed.

Lemma outside_less k k' r : outside k r -> k' <= k -> outside k' r.
Proof. intros H Hk i Hi. apply H. lia. Qed.

Lemma stored_less k k' vs sto : stored k vs sto -> k' <= k -> stored k' vs sto.
Proof. intros [H1 H2] Hk. split; [lia|]. intros i Hi. apply H2. lia. Qed.

Lemma stored_app k vs sto l : stored k vs sto -> stored k vs (sto ++ l).
Proof. intros [H1 H2]. split; [exact H1|]. intros i Hi. apply holds_app. auto. Qed.

Lemma outside_new k vs sto r : stored k vs sto -> length sto <= fst r -> outside k r.
Proof. intros [_ H] Hl i Hi E. specialize (H i Hi). apply holds_lt in H. lia. Qed.

Lemma set_vars_length k vs sto : length (set_vars k vs sto) = length sto.
Proof. induction k; cbn [set_vars]; [reflexivity|]. now rewrite mset_length. Qed.

Lemma set_vars_mset k vs sto r o : outside k r -> mset (set_vars k vs sto) r o = set_vars k vs (mset sto r o).
Proof.
  induction k as [|k IH]; intros H; [reflexivity|]. cbn [set_vars].
  rewrite mset_comm by (intros E; apply (H k); [lia|auto]). rewrite IH; [reflexivity|].
  eapply outside_less; [exact H|lia].
Qed.

Lemma holds_set_vars k vs sto r o : outside k r -> holds sto r o -> holds (set_vars k vs sto) r o.
Proof.
  induction k as [|k IH]; intros H Hr; [exact Hr|]. cbn [set_vars].
  apply holds_mset_other; [apply (H k); lia|]. apply IH; [|exact Hr]. eapply outside_less; [exact H|lia].
Qed.

Lemma set_vars_app k vs vs' sto l : stored k vs sto -> set_vars k vs' (sto ++ l) = set_vars k vs' sto ++ l.
Proof.
  induction k as [|k IH]; intros H; [reflexivity|]. cbn [set_vars].
  rewrite IH by (eapply stored_less; [exact H|lia]). apply mset_app.
  rewrite set_vars_length. destruct H as [_ H]. eapply holds_lt. apply (H k). lia.
Qed.

Lemma set_vars_same k vs sto : stored k vs sto -> set_vars k vs sto = sto.
Proof.
  induction k as [|k IH]; intros H; [reflexivity|]. cbn [set_vars].
  rewrite IH by (eapply stored_less; [exact H|lia]). apply mset_same. destruct H as [_ H]. apply H. lia.
Qed.

Lemma set_vars_set k vs v1 v2 sto : stored k vs sto -> set_vars k v2 (set_vars k v1 sto) = set_vars k v2 sto.
Proof.
  induction k as [|k IH]; intros H; [reflexivity|]. cbn [set_vars].
  assert (Ho : outside k (at_var k)) by (apply var_outside; [lia|destruct H; lia]).
  rewrite <- set_vars_mset by exact Ho. rewrite IH by (eapply stored_less; [exact H|lia]).
  eapply mset_again. apply holds_set_vars; [exact Ho|]. destruct H as [_ H]. apply H. lia.
Qed.

Lemma stored_set k vs v1 sto : stored k vs sto -> stored k v1 (set_vars k v1 sto).
Proof.
  induction k as [|k IH]; intros H; [split; [apply H|lia]|].
  assert (Ho : outside k (at_var k)) by (apply var_outside; [lia|destruct H; lia]).
  destruct (IH ltac:(eapply stored_less; [exact H|lia])) as [_ IHh].
  destruct H as [Hk H]. split; [exact Hk|]. cbn [set_vars]. intros i Hi.
  destruct (Nat.eq_dec i k) as [->|Hne].
  - eapply holds_mset. apply holds_set_vars; [exact Ho|]. apply (H k). lia.
  - apply holds_mset_other; [|apply IHh; lia]. intros E. apply (Ho i); [lia|]. congruence.
Qed.

Lemma stored_mset k vs sto r o : outside k r -> stored k vs sto -> stored k vs (mset sto r o).
Proof.
  intros Ho [Hk H]. split; [exact Hk|]. intros i Hi. apply holds_mset_other; [|auto].
  intros E. apply (Ho i Hi). congruence.
Qed.

Lemma set_vars_eq k v1 v2 sto : (forall i, i < k -> nth_error v1 i = nth_error v2 i) ->
  set_vars k v1 sto = set_vars k v2 sto.
Proof.
  induction k as [|k IH]; intros H; [reflexivity|]. cbn [set_vars].
  rewrite IH by (intros; apply H; lia). f_equal. unfold val_of. f_equal.
  rewrite !nth_is. now rewrite (H k (Nat.lt_succ_diag_r k)).
Qed.

Lemma nth_of vs i l : nth_error vs i = Some l -> val_of vs i = skept rs l.
Proof. intros H. unfold val_of. f_equal. now apply nth_error_nth. Qed.

(** Setting the variables below [x], and [x]; the others have not changed. *)
Lemma set_vars_level x k vs v1 l' sto :
  x < k -> stored k vs sto -> length v1 = length vs -> x < length v1 ->
  (forall i, x <= i -> nth_error v1 i = nth_error vs i) ->
  set_vars k (update x l' v1) sto = mset (set_vars x v1 sto) (at_var x) (skept rs l').
Proof.
  intros Hx H Hlen Hx1 Hfr. induction k as [|k IH]; [lia|].
  destruct (Nat.eq_dec x k) as [->|Hne].
  - cbn [set_vars]. f_equal.
    + apply set_vars_eq. intros i Hi. apply nth_update_neq. lia.
    + apply nth_of. now apply nth_update_eq.
  - cbn [set_vars]. rewrite IH; [|lia|eapply stored_less; [exact H|lia]].
    assert (Hk : k < length rs) by (destruct H; lia).
    apply mset_same. apply holds_mset_other.
    { assert (Ho : outside k (at_var k)) by (apply var_outside; lia). apply Ho. lia. }
    apply holds_set_vars; [apply var_outside; lia|].
    replace (val_of (update x l' v1) k) with (val_of vs k); [destruct H as [_ H]; apply H; lia|].
    unfold val_of. f_equal. rewrite !nth_is, nth_update_neq by lia. now rewrite Hfr by lia.
Qed.

End Where.
(** ** What calls do to the variables *)

(** Fuel that a call of variable [i] needs. *)
Definition bound (i : nat) : nat := 18 + 11 * i.

(** Lazy functions that refer to variables below [k], over functions that calls do not
    change; calls need at most fuel [n]. *)
Inductive fits (k : nat) : nat -> slz -> Prop :=
| fits_value n v ch : 3 <= n -> fits k n (SharedModel.SValue v ch)
| fits_user n j p c ds :
    4 <= j -> 10 + j <= n -> wrapped_ok U (fst p) (snd p) -> Forall (fits k j) ds ->
    fits k n (SharedModel.SCore (LazyModel.FnUser p) c ds)
| fits_sample n p c :
    7 <= n -> plain_ok U (fst p) (snd p) ->
    fits k n (SharedModel.SCore (LazyModel.FnSample p) c [SharedModel.SValue (VAtom (uint0 U)) true])
| fits_ref n x : x < k -> 1 + bound x <= n -> fits k n (SharedModel.SRef x).

Lemma fits_more k k' n n' l : fits k n l -> k <= k' -> n <= n' -> fits k' n' l.
Proof.
  revert n n'. induction l as [v ch|g c ds IH|x] using HistoryThms.slz_ind'; intros n n' H Hk Hn;
    inversion H as [|? j p ? ? Hj Hjn Hp Hds| |]; subst; try (constructor; auto; lia).
  apply fits_user with (j := j); auto; try lia.
  clear - IH Hds Hk. induction Hds as [|d ds Hd Hds IHd]; [constructor|]. inversion IH; subst. constructor; eauto.
Qed.

Definition is_user (l : slz) : Prop :=
  match l with SharedModel.SCore (LazyModel.FnUser _) _ _ => True | _ => False end.
Definition vars_fit vs : Prop := forall i l, nth_error vs i = Some l -> is_user l /\ fits i (bound i) l.

(** The same kind of object; a result that is there stays there. *)
Definition same_kind (l l' : slz) : Prop :=
  match l, l' with
  | SharedModel.SValue v ch, SharedModel.SValue v' ch' => v = v' /\ ch = ch'
  | SharedModel.SCore g c ds, SharedModel.SCore g' c' ds' =>
      g = g' /\ length ds = length ds' /\ (c <> None -> c' <> None)
  | SharedModel.SRef x, SharedModel.SRef x' => x = x'
  | _, _ => False
  end.

Lemma same_kind_refl l : same_kind l l.
Proof. destruct l; cbn; auto. Qed.

Lemma same_kind_trans l1 l2 l3 : same_kind l1 l2 -> same_kind l2 l3 -> same_kind l1 l3.
Proof.
  destruct l1, l2, l3; cbn; intros H1 H2; try contradiction; try tauto.
  - destruct H1, H2. split; congruence.
  - destruct H1 as (? & ? & ?), H2 as (? & ? & ?). repeat split; try congruence; auto.
  - congruence.
Qed.

(** Variables at [k] and above have not changed, the others are of the same kind. *)
Definition vars_keep (k : nat) vs vs' : Prop :=
  length vs' = length vs /\ vars_fit vs' /\
  (forall i, k <= i -> nth_error vs' i = nth_error vs i) /\
  (forall i l, nth_error vs i = Some l -> exists l', nth_error vs' i = Some l' /\ same_kind l l').

Lemma vars_keep_refl k vs : vars_fit vs -> vars_keep k vs vs.
Proof. intros H. split; [|split; [|split]]; auto. intros i l E. exists l. split; [exact E|apply same_kind_refl]. Qed.

Lemma vars_keep_trans k v1 v2 v3 : vars_keep k v1 v2 -> vars_keep k v2 v3 -> vars_keep k v1 v3.
Proof.
  intros (L1 & F1 & K1 & S1) (L2 & F2 & K2 & S2). split; [congruence|]. split; [exact F2|]. split.
  - intros i Hi. rewrite K2, K1; auto.
  - intros i l E. destruct (S1 i l E) as (l2 & E2 & H2). destruct (S2 i l2 E2) as (l3 & E3 & H3).
    exists l3. split; [exact E3|]. eapply same_kind_trans; eassumption.
Qed.

Lemma core_engaged g c xs w r c' w' lg :
  LazyModel.core KU g c xs w = (r, c', w', lg) -> c <> None -> c' <> None.
Proof.
  rewrite LazyGeneral.core_eq. intros E Hc.
  destruct (negb (LazyModel.is_some c) || existsb snd xs).
  - destruct (LazyModel.call_fn KU g _ w) as [[[v|] w1] l1]; injection E as <- <- <- <-; congruence.
  - destruct c; injection E as <- <- <- <-; congruence.
Qed.

Definition step_keeps (q : nat) (l : slz) : Prop :=
  forall k n vs w r l' vs' w' lg, vars_fit vs -> fits k n l ->
    SharedModel.sstep KU q l vs w = Some (r, l', vs', w', lg) ->
    fits k n l' /\ same_kind l l' /\ vars_keep k vs vs' /\ r <> LazyModel.UB.

Lemma steps_keep q ls : Forall (step_keeps q) ls ->
  forall k n vs w r ls' vs' w' lg, vars_fit vs -> Forall (fits k n) ls ->
    SharedModel.ssteps_with (SharedModel.sstep KU q) ls vs w = Some (r, ls', vs', w', lg) ->
    Forall (fits k n) ls' /\ Forall2 same_kind ls ls' /\ vars_keep k vs vs' /\ r <> LazyModel.UB.
Proof.
  induction 1 as [|l ls Hl Hls IH]; intros k n vs w r ls' vs' w' lg Hv Hf Hs.
  - cbn in Hs. injection Hs as <- <- <- <- <-. split; [constructor|]. split; [constructor|].
    split; [now apply vars_keep_refl|congruence].
  - inversion Hf as [|? ? Hf1 Hf2]; subst. rewrite SharedProofs.ssteps_cons in Hs.
    destruct (SharedModel.sstep KU q l vs w) as [[[[[r1 l1] vs1] w1] lg1]|] eqn:E1; [|discriminate].
    destruct (Hl _ _ _ _ _ _ _ _ _ Hv Hf1 E1) as (Hl1 & Hk1 & Hv1 & Hr1).
    assert (Hsame : Forall2 same_kind ls ls).
    { clear. induction ls; constructor; auto using same_kind_refl. }
    destruct r1 as [x1| |]; [| |congruence].
    + destruct (SharedModel.ssteps_with (SharedModel.sstep KU q) ls vs1 w1) as [[[[[r2 ls2] vs2] w2] lg2]|] eqn:E2; [|discriminate].
      destruct (IH _ _ _ _ _ _ _ _ _ (proj1 (proj2 Hv1)) Hf2 E2) as (Hl2 & Hk2 & Hv2 & Hr2).
      injection Hs as <- <- <- <- <-. split; [now constructor|]. split; [now constructor|].
      split; [eapply vars_keep_trans; eassumption|]. destruct r2; congruence.
    + injection Hs as <- <- <- <- <-. split; [now constructor|]. split; [now constructor|]. split; [exact Hv1|congruence].
Qed.

Lemma core_defined g c xs w : fst (fst (fst (LazyModel.core KU g c xs w))) <> LazyModel.UB.
Proof.
  rewrite LazyGeneral.core_eq. destruct c as [c|]; cbn [LazyModel.is_some negb orb].
  - destruct (existsb snd xs); [|cbn; congruence].
    destruct (LazyModel.call_fn KU g _ w) as [[[v|] w1] l1]; cbn; congruence.
  - destruct (LazyModel.call_fn KU g _ w) as [[[v|] w1] l1]; cbn; congruence.
Qed.

Lemma update_keeps k x l0 l1 vs vs1 :
  x < k -> nth_error vs x = Some l0 -> vars_keep x vs vs1 -> same_kind l0 l1 -> is_user l0 -> fits x (bound x) l1 ->
  vars_keep k vs (update x l1 vs1).
Proof.
  intros Hx E (L & Fv & K & Sk) Hs Hu Hf. split; [|split; [|split]].
  - now rewrite update_length.
  - intros i l Hi. destruct (Nat.eq_dec x i) as [->|Hne].
    + rewrite nth_update_eq in Hi by (rewrite L; apply nth_error_Some; congruence). injection Hi as <-.
      split; [|exact Hf]. destruct l0 as [|[p|p] c0 ds0|], l1 as [|g1 c1 ds1|]; cbn in Hs, Hu; try contradiction.
      destruct Hs as [<- _]. exact I.
    + rewrite nth_update_neq in Hi by congruence. now apply Fv.
  - intros i Hi. rewrite nth_update_neq by lia. apply K. lia.
  - intros i l Hi. destruct (Nat.eq_dec x i) as [->|Hne].
    + exists l1. rewrite nth_update_eq by (rewrite L; apply nth_error_Some; congruence). split; [reflexivity|].
      rewrite E in Hi. injection Hi as <-. exact Hs.
    + rewrite nth_update_neq by congruence. now apply Sk.
Qed.

Lemma sstep_keeps q : forall l, step_keeps q l.
Proof.
  induction q as [q IHq] using lt_wf_ind. intros l.
  induction l as [v ch|g cache deps IH|x] using HistoryThms.slz_ind'; intros k n vs w r l' vs' w' lg Hv Hf Hs;
    rewrite SharedProofs.sstep_eq in Hs.
  - injection Hs as <- <- <- <- <-. split; [exact Hf|]. split; [apply same_kind_refl|].
    split; [now apply vars_keep_refl|congruence].
  - destruct (SharedModel.ssteps_with (SharedModel.sstep KU q) deps vs w) as [[[[[q1 ls1] vs1] w1] lg1]|] eqn:E; [|discriminate].
    assert (Hd : exists j, Forall (fits k j) deps /\
              forall c' ds', Forall (fits k j) ds' -> Forall2 same_kind deps ds' -> fits k n (SharedModel.SCore g c' ds')).
    { inversion Hf as [|? j p ? ? Hj Hjn Hp Hds|? p ? Hn Hp|]; subst.
      - exists j. split; [exact Hds|]. intros. econstructor; eauto.
      - exists 3. split; [repeat constructor|]. intros c' ds' _ H2.
        inversion H2 as [|? y ? ys Hy Hys]; subst. inversion Hys; subst. destruct y; try contradiction.
        destruct Hy as [<- <-]. constructor; auto. }
    destruct Hd as (j & Hd & Hnew).
    destruct (steps_keep q deps IH k j _ _ _ _ _ _ _ Hv Hd E) as (Hls & Hk & Hv1 & Hr).
    assert (Hlen : length deps = length ls1) by (eapply F2_length; exact Hk).
    destruct q1 as [xs| |]; [| |congruence].
    + cbv zeta in Hs. destruct (LazyModel.core KU g cache _ w1) as [[[r2 c'] w2] l2] eqn:Ec.
      injection Hs as <- <- <- <- <-. split; [now apply Hnew|].
      split; [split; [reflexivity|split; [exact Hlen|eapply core_engaged; exact Ec]]|].
      split; [exact Hv1|].
      pose proof (core_defined g cache (SharedModel.read_refs vs1 ls1 (ctad_tuple (fun _ => None) xs)) w1) as Hd2.
      now rewrite Ec in Hd2.
    + injection Hs as <- <- <- <- <-. split; [now apply Hnew|]. split; [cbn; auto|]. split; [exact Hv1|congruence].
  - destruct q as [|q]; [discriminate|]. inversion Hf as [| | |? ? Hx Hn]; subst.
    destruct (nth_error vs x) as [l0|] eqn:El; [|discriminate].
    destruct (SharedModel.sstep KU q l0 vs w) as [[[[[r1 l1] vs1] w1] lg1]|] eqn:E; [|discriminate].
    injection Hs as <- <- <- <- <-.
    destruct (Hv _ _ El) as [Hu Hfx].
    destruct (IHq q (Nat.lt_succ_diag_r q) l0 _ _ _ _ _ _ _ _ _ Hv Hfx E) as (Hf1 & Hk1 & Hv1 & Hr1).
    split; [exact Hf|]. split; [reflexivity|]. split; [|exact Hr1].
    eapply update_keeps; eassumption.
Qed.

End Refs.
