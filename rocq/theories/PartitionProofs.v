(** Lemmas about Partition.v. *)
From Coq Require Import List Bool Permutation.
From Verif Require Import Partition.
Import ListNotations.

Section P.
Context {T : Type}.
Implicit Types (l : list T) (p : Predicate T).

Lemma concat_app (a b : list (list T)) : concat (a ++ b) = concat a ++ concat b.
Proof. induction a as [|x a IH]; cbn; auto. unfold plus. now rewrite IH, app_assoc. Qed.

Lemma concat_filter l p :
  concat (map (fun t => filter_if1 t p) l) = filter (call_predicate p) l.
Proof.
  induction l as [|t l IH]; cbn; auto. unfold plus. rewrite IH.
  unfold filter_if1. now destruct (call_predicate p t).
Qed.

Lemma filter_if_filter l p : filter_if l p = filter (call_predicate p) l.
Proof.
  destruct l as [|t [|u l]]; cbn [filter_if].
  - reflexivity.
  - unfold filter_if1; cbn. now destruct (call_predicate p t).
  - apply concat_filter.
Qed.

Lemma call_negate p t : call_predicate (negate p) t = negb (call_predicate p t).
Proof. unfold call_predicate; cbn. destruct (is_negated p); cbn; auto. now rewrite negb_involutive. Qed.

Lemma negate_negate p : negate (negate p) = p.
Proof. destruct p; unfold negate; cbn. now rewrite negb_involutive. Qed.

Lemma partition_filters l p :
  partition l p = filter (call_predicate p) l ++ filter (fun t => negb (call_predicate p t)) l.
Proof.
  unfold partition. rewrite concat_app, !concat_filter. f_equal.
  apply filter_ext. intros t; apply call_negate.
Qed.

Lemma filters_permutation (f : T -> bool) l :
  Permutation (filter f l ++ filter (fun t => negb (f t)) l) l.
Proof.
  induction l as [|t l IH]; cbn; auto. destruct (f t); cbn.
  - now constructor.
  - symmetry. apply Permutation_cons_app. now symmetry.
Qed.

Lemma partition_permutation l p : Permutation (partition l p) l.
Proof. rewrite partition_filters. apply filters_permutation. Qed.

Lemma partition_t_filters (tr : T -> bool) l :
  partition_t tr l = filter tr l ++ filter (fun t => negb (tr t)) l.
Proof. unfold partition_t. rewrite partition_filters. reflexivity. Qed.

(** [a] is a subsequence of [b]. *)
Inductive subsequence : list T -> list T -> Prop :=
| sub_nil : subsequence [] []
| sub_skip t a b : subsequence a b -> subsequence a (t :: b)
| sub_take t a b : subsequence a b -> subsequence (t :: a) (t :: b).

Lemma filter_subsequence f l : subsequence (filter f l) l.
Proof. induction l as [|t l IH]; cbn; [constructor|]. destruct (f t); now constructor. Qed.

(** Filtering is determined by: a subsequence, all elements satisfy [f], and
    no satisfying occurrence is dropped. *)
Lemma filter_keeps_all (f : T -> bool) l : length (filter f l) + length (filter (fun t => negb (f t)) l) = length l.
Proof. rewrite <- app_length. apply Permutation_length, filters_permutation. Qed.

End P.

Section O.
Context {T V : Type} (teq : forall x y : T, {x = y} + {x <> y}).
Implicit Types (fs : list (functor (T:=T) (V:=V))).

Lemma filter_none fs t :
  ~ In t (map fst fs) -> filter (fun a => if teq (fst a) t then true else false) fs = [].
Proof.
  induction fs as [|[u w] fs IH]; cbn; auto. intros H.
  destruct (teq u t); [subst; tauto|]. apply IH. tauto.
Qed.

Lemma get_unique fs t v :
  NoDup (map fst fs) -> In (t, v) fs -> get_by_type teq t fs = Some v.
Proof.
  unfold get_by_type. induction fs as [|[u w] fs IH]; cbn; [tauto|].
  intros Hn Hin. inversion Hn; subst.
  destruct Hin as [E|Hin].
  - injection E as -> ->. destruct (teq t t); [|congruence].
    rewrite filter_none by auto. reflexivity.
  - destruct (teq u t) as [->|].
    + exfalso. apply H1. now apply (in_map fst) in Hin.
    + now apply IH.
Qed.

Lemma get_repeated fs t :
  In t (map fst fs) -> (forall v, get_by_type teq t fs = Some v -> count_occ teq (map fst fs) t = 1).
Proof.
  intros _ v. unfold get_by_type.
  assert (H : length (filter (fun a => if teq (fst a) t then true else false) fs)
              = count_occ teq (map fst fs) t).
  { induction fs as [|[u w] fs IH]; cbn; auto. destruct (teq u t); cbn; auto. }
  destruct (filter (fun a => if teq (fst a) t then true else false) fs) as [|a [|b l]];
    try discriminate. intros _. now rewrite <- H.
Qed.

Lemma init_subset fs bs :
  NoDup (map fst fs) -> (forall b, In b bs -> In b fs) ->
  init_bases teq (map fst bs) fs = Some bs.
Proof.
  intros Hn. induction bs as [|[t v] bs IH]; cbn; auto. intros Hin.
  rewrite (get_unique fs t v) by (auto). rewrite IH by auto. reflexivity.
Qed.

Lemma partition_map (e : T -> bool) fs :
  partition_t e (map fst fs)
  = map fst (filter (fun b => e (fst b)) fs ++ filter (fun b => negb (e (fst b))) fs).
Proof.
  unfold partition_t. rewrite partition_filters, map_app. unfold predicate, call_predicate; cbn.
  f_equal.
  - induction fs as [|[t v] fs IH]; cbn; auto. destruct (e t); cbn; now rewrite IH.
  - induction fs as [|[t v] fs IH]; cbn; auto. destruct (e t); cbn; now rewrite IH.
Qed.

Lemma overload_msvc_ok (e : T -> bool) fs :
  NoDup (map fst fs) ->
  overload_msvc teq e fs
  = Some (filter (fun b => e (fst b)) fs ++ filter (fun b => negb (e (fst b))) fs).
Proof.
  intros Hn.
  assert (H : init_bases teq (partition_t e (map fst fs)) fs
              = Some (filter (fun b => e (fst b)) fs ++ filter (fun b => negb (e (fst b))) fs)).
  { rewrite partition_map. apply init_subset; auto.
    intros b Hb. apply in_app_or in Hb as [Hb|Hb]; apply filter_In in Hb; tauto. }
  destruct fs; [reflexivity|exact H].
Qed.

Lemma init_some gs fs bs :
  init_bases teq gs fs = Some bs -> forall g, In g gs -> exists v, get_by_type teq g fs = Some v.
Proof.
  revert bs; induction gs as [|g gs IH]; cbn; intros bs H x Hx; [tauto|].
  destruct (get_by_type teq g fs) as [v|] eqn:E; try discriminate.
  destruct (init_bases teq gs fs) as [l|] eqn:E'; try discriminate.
  destruct Hx as [<-|Hx]; eauto.
Qed.

Lemma overload_msvc_dup (e : T -> bool) fs :
  ~ NoDup (map fst fs) -> overload_msvc teq e fs = None.
Proof.
  intros Hn. destruct (overload_msvc teq e fs) as [bs|] eqn:E; auto. exfalso. apply Hn.
  apply (NoDup_count_occ' teq). intros t Ht.
  assert (E' : init_bases teq (partition_t e (map fst fs)) fs = Some bs).
  { destruct fs; [contradiction|exact E]. }
  destruct (init_some _ _ _ E' t) as [v Hv].
  - unfold partition_t. eapply Permutation_in; [symmetry; apply partition_permutation|exact Ht].
  - eapply get_repeated; eauto.
Qed.

Lemma distinct_types_spec (ts : list T) : distinct_types teq ts = true <-> NoDup ts.
Proof.
  induction ts as [|t ts IH]; cbn; [split; [constructor|auto]|].
  rewrite andb_true_iff, IH. destruct (in_dec teq t ts) as [H|H]; split.
  - intros [? _]; discriminate.
  - intros Hn; inversion Hn; subst; contradiction.
  - intros [_ Hn]; now constructor.
  - intros Hn; inversion Hn; subst; auto.
Qed.

Lemma overload_std_spec fs :
  (NoDup (map fst fs) -> overload_std teq fs = Some fs) /\
  (~ NoDup (map fst fs) -> overload_std teq fs = None).
Proof.
  unfold overload_std. pose proof (distinct_types_spec (map fst fs)) as H.
  destruct (distinct_types teq (map fst fs)); split; intros Hn; auto.
  - exfalso. apply Hn. now apply H.
  - apply H in Hn. discriminate.
Qed.

(** ** Overload resolution *)

Definition is_best (viable : T -> bool) (better : T -> T -> bool) fs b : Prop :=
  In b fs /\ viable (fst b) = true /\
  forall c, In c fs -> viable (fst c) = true -> fst c <> fst b -> better (fst b) (fst c) = true.

Lemma best_of_is_best viable better fs b :
  best_of teq viable better fs = Some b -> is_best viable better fs b.
Proof.
  unfold best_of. intros H. apply find_some in H as [Hin Hall].
  apply filter_In in Hin as [Hin Hv]. rewrite forallb_forall in Hall.
  repeat split; auto. intros c Hc Hvc Hne.
  specialize (Hall c). destruct (teq (fst b) (fst c)) as [E|]; [congruence|].
  apply Hall. now apply filter_In.
Qed.

Lemma best_of_none viable better fs b :
  best_of teq viable better fs = None -> ~ is_best viable better fs b.
Proof.
  unfold best_of. intros H (Hin & Hv & Hall).
  assert (Hb : In b (filter (fun b => viable (fst b)) fs)) by now apply filter_In.
  pose proof (find_none _ _ H b Hb) as Hf. cbn in Hf.
  apply not_true_iff_false in Hf. apply Hf. apply forallb_forall.
  intros c Hc. apply filter_In in Hc as [Hc Hvc].
  destruct (teq (fst b) (fst c)); auto.
Qed.

Lemma is_best_unique viable better fs b c :
  NoDup (map fst fs) ->
  (forall x y, better x y = true -> better y x = false) ->
  is_best viable better fs b -> is_best viable better fs c -> b = c.
Proof.
  intros Hn Ha (Hb & Hvb & Hbb) (Hc & Hvc & Hcc).
  destruct (teq (fst b) (fst c)) as [E|N].
  - destruct b as [t v], c as [u w]; cbn in *; subst u. f_equal.
    pose proof (get_unique fs t v Hn Hb) as E1. pose proof (get_unique fs t w Hn Hc) as E2. congruence.
  - assert (H1 := Hbb c Hc Hvc (fun h => N (eq_sym h))).
    assert (H2 := Hcc b Hb Hvb N). apply Ha in H1. congruence.
Qed.

Lemma best_of_permutation viable better fs gs :
  NoDup (map fst fs) ->
  (forall x y, better x y = true -> better y x = false) ->
  Permutation fs gs ->
  best_of teq viable better fs = best_of teq viable better gs.
Proof.
  intros Hn Ha Hp.
  assert (Hg : NoDup (map fst gs)) by (eapply Permutation_NoDup; [apply Permutation_map, Hp|auto]).
  assert (Hi : forall b, is_best viable better fs b <-> is_best viable better gs b).
  { intros b; unfold is_best; split; intros (H1 & H2 & H3); repeat split; auto;
      try (eapply Permutation_in; [|eassumption]; auto; now symmetry);
      intros c Hc; apply H3; eapply Permutation_in; try eassumption; auto; now symmetry. }
  destruct (best_of teq viable better fs) as [b|] eqn:E1;
  destruct (best_of teq viable better gs) as [c|] eqn:E2; auto.
  - f_equal. eapply (is_best_unique viable better gs); eauto.
    + now apply Hi, best_of_is_best.
    + now apply best_of_is_best.
  - exfalso. apply (best_of_none _ _ _ b E2). apply Hi. now apply best_of_is_best.
  - exfalso. apply (best_of_none _ _ _ c E1). apply Hi. now apply best_of_is_best.
Qed.

Lemma same_resolution (e : T -> bool) viable better fs bs :
  (forall x y, better x y = true -> better y x = false) ->
  overload_msvc teq e fs = Some bs ->
  overload_std teq fs = Some fs /\
  best_of teq viable better bs = best_of teq viable better fs.
Proof.
  intros Ha H.
  assert (Hn : NoDup (map fst fs)).
  { destruct (distinct_types teq (map fst fs)) eqn:E; [now apply distinct_types_spec|].
    assert (~ NoDup (map fst fs)) as Hd by (intros Hd; apply distinct_types_spec in Hd; congruence).
    rewrite (overload_msvc_dup e fs Hd) in H. discriminate. }
  split; [now apply (proj1 (overload_std_spec fs))|].
  rewrite overload_msvc_ok in H by auto. injection H as <-.
  symmetry. apply best_of_permutation; auto.
  symmetry. apply (filters_permutation (fun b => e (fst b))).
Qed.

End O.
