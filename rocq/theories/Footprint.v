(** How much memory lazy functions and overloads take (C60, C61).

    The specification [dep_cost], [dep_bytes] and the proofs about
    [Layout.user_lazy_lay] and [Layout.overload_lay]. *)
From Coq Require Import List Bool Arith Lia Permutation.
From Verif Require Import Partition PartitionProofs Layout LayoutProofs.
Import ListNotations.

Definition sum (ns : list nat) : nat := fold_right Nat.add 0 ns.

(** The bytes a part takes: none if its class is empty. *)
Definition bytes (t : lay) : nat := if lempty t then 0 else lsize t.

(** The parts stored for a dependency: a lazy function itself, a value itself, and
    for a plain function its cache, itself and an [int]. *)
Definition dep_parts (int : lay) (d : dep_lay) : list lay :=
  match d with
  | DepLazy l => [l]
  | DepPlain cache g => [cache; g; int]
  | DepValue v => [v]
  end.

(** The same, as one type. *)
Definition dep_cost (reuse : bool) (int : lay) (d : dep_lay) : lay :=
  match d with
  | DepLazy l => l
  | DepPlain cache g =>
      plain_struct reuse [cache; plain_struct reuse (filter (fun t => negb (lempty t)) [g; int])]
  | DepValue v => v
  end.

(** A real cache: not an empty class. *)
Definition real_dep (d : dep_lay) : Prop :=
  match d with
  | DepLazy l => proper_lay l
  | DepPlain cache g => proper_lay cache /\ lempty cache = false /\ proper_lay g
  | DepValue v => proper_lay v
  end.

Section A.
Variable reuse sorts : bool.
Notation class_lay := (class_lay reuse).
Notation closure := (closure reuse).
Notation overload_lay := (overload_lay reuse sorts).
Notation compressed_tuple_lay := (compressed_tuple_lay reuse sorts).
Notation bind_tuple_lay := (bind_tuple_lay reuse sorts).
Notation as_stored := (as_stored reuse).

Lemma as_stored_empty t : lempty (as_stored t) = lempty t.
Proof. unfold LayoutProofs.as_stored. destruct (lempty t) eqn:E; auto. Qed.

Lemma as_stored_proper t : proper_lay t -> proper_lay (as_stored t).
Proof. intros H. unfold LayoutProofs.as_stored. destruct (lempty t); auto. apply class_proper. Qed.

Lemma filter_as_stored ts : filter solid (map as_stored ts) = filter solid ts.
Proof.
  induction ts as [|t ts IH]; auto. cbn [map filter].
  change (solid (as_stored t)) with (negb (lempty (as_stored t))).
  change (solid t) with (negb (lempty t)). rewrite as_stored_empty, IH.
  unfold LayoutProofs.as_stored. now destruct (lempty t).
Qed.

Lemma same_lays_refl ts : Forall2 same_lay ts ts.
Proof. induction ts; constructor; auto. apply same_refl. Qed.

Lemma struct_empty ts : lempty (plain_struct reuse (filter solid ts)) = forallb lempty ts.
Proof.
  unfold plain_struct, Layout.class_lay; cbn [lempty].
  induction ts as [|t ts IH]; auto. cbn [filter forallb].
  change (solid t) with (negb (lempty t)). destruct (lempty t); auto.
Qed.

(** A binder around a captureless lambda is its tuple. *)
Lemma bind_lambda_same t :
  proper_lay t -> same_lay (bind_tuple_lay (closure []) t) (as_stored t).
Proof.
  intros H. eapply same_trans.
  { apply bind_tuple_same; auto. apply class_proper. }
  unfold LayoutProofs.as_stored. cbn. unfold solid. destruct (lempty t) eqn:E; cbn [negb].
  - apply same_refl.
  - now apply same_struct1.
Qed.

Lemma as_stored_same s t : same_lay s t -> same_lay (as_stored s) (as_stored t).
Proof.
  intros H. unfold LayoutProofs.as_stored. pose proof H as (E & _). rewrite E.
  destruct (lempty t); auto. apply same_refl.
Qed.

Lemma as_stored_idem t : as_stored (as_stored t) = as_stored t.
Proof.
  unfold LayoutProofs.as_stored at 1. rewrite as_stored_empty.
  unfold LayoutProofs.as_stored. now destruct (lempty t).
Qed.

Lemma lazy_value_same v :
  proper_lay v -> same_lay (lazy_value_lay reuse sorts v) (as_stored v).
Proof.
  intros H. unfold lazy_value_lay. eapply same_trans.
  { apply bind_lambda_same. apply class_proper. }
  rewrite <- (as_stored_idem v). apply as_stored_same.
  eapply same_trans.
  { apply compressed_tuple_same. repeat constructor; try apply H; apply class_proper. }
  unfold LayoutProofs.as_stored. cbn. unfold solid. destruct (lempty v) eqn:E; cbn [negb].
  - apply same_refl.
  - now apply same_struct1.
Qed.

(** The struct around the lambda with the cache. *)
Lemma core_same cache f deps :
  proper_lay cache -> lempty cache = false -> proper_lay f -> Forall proper_lay deps ->
  same_lay (lazy_core_lay reuse sorts cache f deps)
    (plain_struct reuse
       (cache :: (if forallb lempty (f :: deps) then []
                  else [plain_struct reuse (filter solid (f :: deps))]))).
Proof.
  intros Hc Hce Hf Hd. unfold lazy_core_lay. eapply same_trans.
  { apply bind_tuple_same; apply class_proper. }
  eapply same_trans.
  { apply (struct_same _ _ [cache; plain_struct reuse (filter solid (f :: deps))]).
    repeat apply Forall2_cons; auto.
    - now apply same_struct1.
    - apply compressed_tuple_same. now constructor. }
  assert (E : lempty (plain_struct reuse (filter solid (f :: deps))) = forallb lempty (f :: deps)).
  { apply struct_empty. }
  revert E. generalize (plain_struct reuse (filter solid (f :: deps))); intros st E.
  cbn [filter]. unfold solid. rewrite Hce, E. cbn [negb].
  destruct (forallb lempty (f :: deps)); apply same_refl.
Qed.

Lemma real_dep_proper int d :
  real_dep d -> proper_lay (ensure_lazy_lay reuse sorts int d).
Proof. destruct d; cbn; intros H; auto; apply class_proper. Qed.

Lemma dep_same int d :
  proper_lay int -> lempty int = false -> real_dep d ->
  same_lay (as_stored (ensure_lazy_lay reuse sorts int d)) (as_stored (dep_cost reuse int d)).
Proof.
  intros Hi Hie Hd. destruct d as [l|cache g|v]; cbn [ensure_lazy_lay dep_cost real_dep] in *.
  - apply same_refl.
  - destruct Hd as (Hc & Hce & Hg). apply as_stored_same. eapply same_trans.
    { apply core_same; auto; [apply class_proper|].
      constructor; auto. apply class_proper. }
    pose proof (bind_one_same reuse sorts g Hg) as Hb.
    pose proof (lazy_value_same int Hi) as Hv.
    assert (En : forall f, forallb lempty [f; lazy_value_lay reuse sorts int] = false).
    { intros f. cbn [forallb]. destruct Hv as (-> & _). rewrite as_stored_empty, Hie.
      cbn. now rewrite andb_false_r. }
    rewrite En.
    assert (Hs : same_lay
       (plain_struct reuse (filter solid [bind_tuple_lay (closure []) (compressed_tuple_lay [g]);
                                          lazy_value_lay reuse sorts int]))
       (plain_struct reuse (filter solid [g; int]))).
    { eapply same_trans; [apply struct_same; repeat apply Forall2_cons; eauto|].
      change [as_stored g; as_stored int] with (map as_stored [g; int]).
      rewrite filter_as_stored. apply same_refl. }
    assert (Hf : forall a b, lempty a = false -> lempty b = false -> filter solid [a; b] = [a; b]).
    { intros a b Ha Hb'. cbn. unfold solid. now rewrite Ha, Hb'. }
    assert (Hx : lempty (plain_struct reuse (filter solid [g; int])) = false).
    { cbn. unfold solid. rewrite Hie. now destruct (lempty g). }
    change (fun t => negb (lempty t)) with solid.
    rewrite <- (Hf cache (plain_struct reuse (filter solid [g; int]))) by auto.
    rewrite <- (Hf cache) by (auto; destruct Hs as (-> & _); auto).
    apply struct_same. repeat apply Forall2_cons; auto. apply same_refl.
  - rewrite <- (as_stored_idem v). apply as_stored_same. now apply lazy_value_same.
Qed.

Lemma deps_empty int deps :
  proper_lay int -> lempty int = false -> Forall real_dep deps ->
  Forall2 same_lay (map as_stored (map (ensure_lazy_lay reuse sorts int) deps))
                   (map as_stored (map (dep_cost reuse int) deps)).
Proof.
  intros Hi Hie H. induction H as [|d deps Hd _ IH]; cbn; constructor; auto.
  now apply dep_same.
Qed.

Lemma forallb_same ls ms : Forall2 same_lay ls ms -> forallb lempty ls = forallb lempty ms.
Proof. induction 1 as [|l m ls ms (E & _) _ IH]; cbn; auto. now rewrite E, IH. Qed.

Lemma forallb_stored ts : forallb lempty (map as_stored ts) = forallb lempty ts.
Proof. induction ts as [|t ts IH]; cbn [map forallb]; auto. now rewrite as_stored_empty, IH. Qed.

Lemma footprint int cache f deps :
  proper_lay int -> lempty int = false -> proper_lay cache -> lempty cache = false ->
  proper_lay f -> Forall real_dep deps ->
  lsize (user_lazy_lay reuse sorts int cache f deps)
  = lsize (plain_struct reuse
             (cache :: (if forallb lempty (f :: map (dep_cost reuse int) deps) then []
                        else [plain_struct reuse
                                (filter (fun t => negb (lempty t))
                                        (f :: map (dep_cost reuse int) deps))]))).
Proof.
  intros Hi Hie Hc Hce Hf Hd. unfold user_lazy_lay.
  assert (Hp : Forall proper_lay (map (ensure_lazy_lay reuse sorts int) deps)).
  { apply Forall_map. eapply Forall_impl; [|exact Hd]. intros d. apply real_dep_proper. }
  rewrite lazy_size by auto.
  change (fun t => negb (lempty t)) with solid.
  set (us := map (ensure_lazy_lay reuse sorts int) deps) in *.
  set (ws := map (dep_cost reuse int) deps).
  assert (H2 : Forall2 same_lay (map as_stored (f :: us)) (map as_stored (f :: ws))).
  { cbn [map]. constructor; [apply same_refl|]. now apply deps_empty. }
  pose proof (forallb_same _ _ H2) as E. rewrite !forallb_stored in E. rewrite E.
  pose proof (struct_same reuse _ _ H2) as S. rewrite !filter_as_stored in S.
  destruct (forallb lempty (f :: ws)) eqn:Ee; auto.
  assert (Hx : lempty (plain_struct reuse (filter solid (f :: ws))) = false).
  { now rewrite struct_empty. }
  assert (Hg : forall a b, lempty a = false -> lempty b = false -> [a; b] = filter solid [a; b]).
  { intros a b Ha Hb'. cbn. unfold solid. now rewrite Ha, Hb'. }
  rewrite (Hg cache (plain_struct reuse (filter solid (f :: ws)))) by auto.
  rewrite (Hg cache (plain_struct reuse (filter solid (f :: us))))
    by (auto; destruct S as (-> & _); auto).
  apply struct_same. repeat apply Forall2_cons; auto. apply same_refl.
Qed.

(** ** Sums of sizes *)

Lemma sum_app a b : sum (a ++ b) = sum a + sum b.
Proof. induction a; cbn; [auto|]. unfold sum in *; lia. Qed.

Lemma offset_at_least ts off :
  Forall proper_lay ts -> off + sum (map lsize ts) <= fold_left member_offset ts off.
Proof.
  intros H; revert off; induction H as [|t ts (_ & Ha & _) _ IH]; intros off; cbn; [lia|].
  specialize (IH (member_offset off t)). unfold member_offset at 1 in IH.
  pose proof (align_up_ge off (lalign t) Ha). unfold sum in *; lia.
Qed.

Lemma struct_at_least ts :
  Forall proper_lay ts -> sum (map lsize ts) <= lsize (plain_struct reuse ts).
Proof.
  intros H. unfold plain_struct, Layout.class_lay; cbn [lsize fold_left].
  pose proof (offset_at_least ts 0 H). pose proof (max_align_pos (map lalign ts)).
  pose proof (align_up_ge (Nat.max 1 (fold_left member_offset ts 0))
                (fold_right Nat.max 1 (map lalign ts)) ltac:(lia)).
  cbn [app]. lia.
Qed.

Lemma sum_bytes ts : sum (map lsize (filter solid ts)) = sum (map bytes ts).
Proof.
  induction ts as [|t ts IH]; auto. cbn [filter map]. unfold bytes at 1.
  change (solid t) with (negb (lempty t)).
  destruct (lempty t); cbn [negb map sum fold_right]; auto.
Qed.

Lemma filter_proper ts : Forall proper_lay ts -> Forall proper_lay (filter solid ts).
Proof.
  intros H. apply Forall_forall. intros t Ht. apply filter_In in Ht as [Ht _].
  rewrite Forall_forall in H. auto.
Qed.

Lemma dep_cost_proper int d : real_dep d -> proper_lay (dep_cost reuse int d).
Proof. destruct d; cbn [dep_cost real_dep]; intros H; auto; apply class_proper. Qed.

Lemma dep_cost_at_least int d :
  proper_lay int -> real_dep d ->
  sum (map bytes (dep_parts int d)) <= bytes (dep_cost reuse int d).
Proof.
  intros Hi Hd. destruct d as [l|cache g|v]; cbn [dep_parts dep_cost]; try (cbn; lia).
  destruct Hd as (Hc & Hce & Hg).
  set (st := plain_struct reuse (filter _ [g; int])).
  assert (Hst : sum (map bytes [g; int]) <= lsize st).
  { rewrite <- sum_bytes. apply struct_at_least. apply filter_proper. auto. }
  pose proof (struct_at_least [cache; st]) as H.
  cbn [map sum fold_right] in *. unfold bytes in *. rewrite Hce.
  change (lempty (plain_struct reuse [cache; st])) with false. cbv iota.
  refine (Nat.le_trans _ _ _ _ (H _)); [lia|].
  repeat apply Forall_cons; auto; apply class_proper.
Qed.

Lemma deps_at_least int deps :
  proper_lay int -> Forall real_dep deps ->
  sum (map bytes (flat_map (dep_parts int) deps)) <= sum (map bytes (map (dep_cost reuse int) deps)).
Proof.
  intros Hi H. induction H as [|d deps Hd _ IH]; cbn [flat_map map]; auto.
  rewrite map_app, sum_app. pose proof (dep_cost_at_least int d Hi Hd).
  cbn [sum fold_right]. unfold sum in *; lia.
Qed.

Lemma all_empty_bytes ts : forallb lempty ts = true -> sum (map bytes ts) = 0.
Proof.
  induction ts as [|t ts IH]; cbn; auto. intros H. apply andb_true_iff in H as [H1 H2].
  unfold bytes at 1. rewrite H1. apply IH, H2.
Qed.

(** No function is smaller than what it stores. *)
Lemma footprint_at_least int cache f deps :
  proper_lay int -> lempty int = false -> proper_lay cache -> lempty cache = false ->
  proper_lay f -> Forall real_dep deps ->
  sum (map bytes (cache :: f :: flat_map (dep_parts int) deps))
  <= lsize (user_lazy_lay reuse sorts int cache f deps).
Proof.
  intros Hi Hie Hc Hce Hf Hd. rewrite footprint by auto.
  pose proof (deps_at_least int deps Hi Hd) as Hsum.
  set (ws := map (dep_cost reuse int) deps) in *.
  assert (Hw : Forall proper_lay (f :: ws)).
  { constructor; auto. apply Forall_map. eapply Forall_impl; [|exact Hd]. intros d. apply dep_cost_proper. }
  assert (Hbc : bytes cache = lsize cache) by (unfold bytes; now rewrite Hce).
  cbn [map sum fold_right]. fold (sum (map bytes (flat_map (dep_parts int) deps))).
  destruct (forallb lempty (f :: ws)) eqn:E.
  - pose proof (all_empty_bytes _ E) as E0. cbn [map sum fold_right] in E0. fold (sum (map bytes ws)) in E0.
    pose proof (struct_at_least [cache] ltac:(auto)) as H. cbn [map sum fold_right] in H. lia.
  - change (fun t => negb (lempty t)) with solid.
    set (st := plain_struct reuse (filter solid (f :: ws))).
    assert (Hst : sum (map bytes (f :: ws)) <= lsize st).
    { rewrite <- sum_bytes. apply struct_at_least. now apply filter_proper. }
    pose proof (struct_at_least [cache; st]) as H. cbn [map sum fold_right] in *.
    fold (sum (map bytes ws)) in Hst.
    refine (Nat.le_trans _ _ _ _ (H _)); [lia|].
    repeat apply Forall_cons; auto; apply class_proper.
Qed.

(** Equal alignments leave no padding. *)
Lemma uniform_offset a ts off :
  0 < a -> Forall proper_lay ts -> Forall (fun t => lalign t = a) ts -> Nat.divide a off ->
  fold_left member_offset ts off = off + sum (map lsize ts) /\
  Nat.divide a (off + sum (map lsize ts)).
Proof.
  intros Ha H; revert off; induction H as [|t ts (_ & _ & Hd & _) _ IH]; intros off Hu Ho; cbn.
  - rewrite Nat.add_0_r. auto.
  - inversion Hu as [|? ? Ht Hu']; subst. unfold member_offset at 2.
    rewrite align_up_id by auto.
    destruct (IH (off + lsize t) Hu') as [E D].
    { now apply Nat.divide_add_r. }
    rewrite E. fold (sum (map lsize ts)). rewrite Nat.add_assoc. auto.
Qed.

Lemma uniform_align a ts :
  0 < a -> ts <> [] -> Forall (fun t => lalign t = a) ts ->
  fold_right Nat.max 1 (map lalign ts) = a.
Proof.
  intros Ha Hn H. destruct ts as [|t ts]; [congruence|]. clear Hn.
  inversion H as [|? ? Ht H']; subst. cbn.
  assert (E : fold_right Nat.max 1 (map lalign ts) <= lalign t).
  { clear H. induction H' as [|u us Hu _ IH]; cbn; lia. }
  lia.
Qed.

Lemma uniform_struct a ts :
  0 < a -> ts <> [] -> Forall proper_lay ts -> Forall (fun t => lalign t = a) ts ->
  lsize (plain_struct reuse ts) = sum (map lsize ts) /\ lalign (plain_struct reuse ts) = a.
Proof.
  intros Ha Hn Hp Hu. unfold plain_struct, Layout.class_lay; cbn [lsize lalign fold_left app].
  rewrite (uniform_align a) by auto. split; auto.
  destruct (uniform_offset a ts 0 Ha Hp Hu (Nat.divide_0_r a)) as [-> D].
  assert (1 <= sum (map lsize ts)).
  { destruct Hp as [|t ts (Hs & _) _]; [congruence|]. cbn. unfold sum; lia. }
  cbn [Nat.add] in *. rewrite Nat.max_r by auto. now apply align_up_id.
Qed.

Definition aligned (a : nat) (t : lay) : Prop := lempty t = true \/ lalign t = a.

Lemma filter_aligned a ts : Forall (aligned a) ts -> Forall (fun t => lalign t = a) (filter solid ts).
Proof.
  intros H. apply Forall_forall. intros t Ht. apply filter_In in Ht as [Ht Hs].
  rewrite Forall_forall in H. destruct (H t Ht) as [E|E]; auto.
  unfold solid in Hs. now rewrite E in Hs.
Qed.

Lemma dep_cost_uniform a int d :
  0 < a -> proper_lay int -> lempty int = false -> real_dep d ->
  Forall (aligned a) (dep_parts int d) ->
  bytes (dep_cost reuse int d) = sum (map bytes (dep_parts int d)) /\
  aligned a (dep_cost reuse int d).
Proof.
  intros Ha Hi Hie Hd Hu.
  destruct d as [l|cache g|v]; cbn [dep_parts dep_cost] in *;
    [inversion Hu; split; [cbn; lia|auto]| |inversion Hu; split; [cbn; lia|auto]].
  destruct Hd as (Hc & Hce & Hg). change (fun t => negb (lempty t)) with solid.
  set (st := plain_struct reuse (filter solid [g; int])).
  inversion Hu as [|? ? Hu1 Hu2]; subst.
  assert (Hst : lsize st = sum (map bytes [g; int]) /\ lalign st = a).
  { rewrite <- sum_bytes. apply uniform_struct; auto.
    - cbn. unfold solid. rewrite Hie. now destruct (lempty g).
    - apply filter_proper. auto.
    - now apply filter_aligned. }
  destruct Hst as [S1 S2].
  assert (Hca : lalign cache = a) by (destruct Hu1; congruence).
  destruct (uniform_struct a [cache; st]) as [E1 E2]; auto; [congruence| |].
  - repeat apply Forall_cons; auto; apply class_proper.
  - split; [|right; auto]. 
    assert (Hb : bytes (plain_struct reuse [cache; st]) = lsize (plain_struct reuse [cache; st]))
      by reflexivity.
    rewrite Hb, E1. cbn [map sum fold_right] in *. rewrite S1.
    assert (Hbc : bytes cache = lsize cache) by (unfold bytes; now rewrite Hce). lia.
Qed.

(** With equal alignments, exactly what it stores. *)
Lemma footprint_sum a int cache f deps :
  0 < a -> proper_lay int -> lempty int = false -> proper_lay cache -> lempty cache = false ->
  proper_lay f -> Forall real_dep deps ->
  Forall (fun t => lempty t = true \/ lalign t = a)
         (cache :: f :: flat_map (dep_parts int) deps) ->
  lsize (user_lazy_lay reuse sorts int cache f deps)
  = sum (map bytes (cache :: f :: flat_map (dep_parts int) deps)).
Proof.
  intros Ha Hi Hie Hc Hce Hf Hd Hu. rewrite footprint by auto.
  inversion Hu as [|? ? Hu1 Hu']; subst. inversion Hu' as [|? ? Hu2 Hu3]; subst. clear Hu Hu'.
  assert (Hdeps : sum (map bytes (map (dep_cost reuse int) deps))
                  = sum (map bytes (flat_map (dep_parts int) deps)) /\
                  Forall (aligned a) (map (dep_cost reuse int) deps)).
  { induction Hd as [|d deps Hd1 _ IH]; cbn [flat_map map]; [auto|].
    cbn [flat_map] in Hu3. apply Forall_app in Hu3 as [Hu3 Hu4].
    destruct (dep_cost_uniform a int d Ha Hi Hie Hd1 Hu3) as [E1 E2].
    destruct (IH Hu4) as [E3 E4]. split; [|constructor; auto].
    rewrite map_app, sum_app, <- E1, <- E3. reflexivity. }
  destruct Hdeps as [Hsum Hal].
  set (ws := map (dep_cost reuse int) deps) in *.
  assert (Hw : Forall proper_lay (f :: ws)).
  { constructor; auto. apply Forall_map. eapply Forall_impl; [|exact Hd]. intros d. apply dep_cost_proper. }
  assert (Hbc : bytes cache = lsize cache) by (unfold bytes; now rewrite Hce).
  assert (Hca : lalign cache = a) by (destruct Hu1; congruence).
  cbn [map sum fold_right]. fold (sum (map bytes (flat_map (dep_parts int) deps))).
  rewrite <- Hsum. destruct (forallb lempty (f :: ws)) eqn:E.
  - pose proof (all_empty_bytes _ E) as E0. cbn [map sum fold_right] in E0. fold (sum (map bytes ws)) in E0.
    destruct (uniform_struct a [cache]) as [-> _]; auto; [congruence|]. cbn [map sum fold_right]. lia.
  - change (fun t => negb (lempty t)) with solid.
    set (st := plain_struct reuse (filter solid (f :: ws))).
    assert (Hst : lsize st = sum (map bytes (f :: ws)) /\ lalign st = a).
    { rewrite <- sum_bytes. apply uniform_struct; auto.
      - intros En. revert E. rewrite <- (struct_empty (f :: ws)), En. discriminate.
      - now apply filter_proper.
      - apply filter_aligned. now constructor. }
    destruct Hst as [S1 S2].
    destruct (uniform_struct a [cache; st]) as [-> _]; auto; [congruence| |].
    + repeat apply Forall_cons; auto; apply class_proper.
    + cbn [map sum fold_right] in *. fold (sum (map bytes ws)) in S1. lia.
Qed.

(** ** Overloads *)

(** The non-empty bases in order, as bases of one class. *)
Lemma bases_offset_solid fs off :
  fold_left (base_offset reuse) fs off = fold_left (base_offset reuse) (filter solid fs) off.
Proof.
  revert off; induction fs as [|f fs IH]; intros off; cbn [fold_left filter]; auto.
  change (solid f) with (negb (lempty f)). destruct (lempty f) eqn:E; cbn [negb fold_left]; auto.
  rewrite IH. unfold base_offset at 2. now rewrite E.
Qed.

Lemma solid_partition fs : filter solid (partition_t lempty fs) = filter solid fs.
Proof.
  rewrite partition_t_filters, filter_app. change (fun t => negb (lempty t)) with solid.
  assert (E1 : filter solid (filter lempty fs) = []).
  { induction fs as [|t ts IH]; cbn; auto. destruct (lempty t) eqn:E; cbn; auto.
    unfold solid at 1. now rewrite E. }
  assert (E2 : filter solid (filter solid fs) = filter solid fs).
  { clear. induction fs as [|t ts IH]; cbn; auto.
    destruct (solid t) eqn:E; cbn; auto. now rewrite E, IH. }
  now rewrite E1, E2.
Qed.

(** Empty functions of alignment 1, as all closures without captures. *)
Definition light_if_empty (t : lay) : Prop := lempty t = true -> lalign t = 1.

Lemma max_align_solid fs :
  Forall light_if_empty fs ->
  fold_right Nat.max 1 (map lalign fs) = fold_right Nat.max 1 (map lalign (filter solid fs)).
Proof.
  induction 1 as [|f fs Hf _ IH]; cbn [map filter fold_right]; auto.
  change (solid f) with (negb (lempty f)). destruct (lempty f) eqn:E; cbn [negb map fold_right].
  - rewrite (Hf E), IH. pose proof (max_align_pos (map lalign (filter solid fs))). lia.
  - now rewrite IH.
Qed.

Lemma bases_solid fs :
  Forall light_if_empty fs ->
  lsize (class_lay fs []) = lsize (class_lay (filter solid fs) []) /\
  lalign (class_lay fs []) = lalign (class_lay (filter solid fs) []).
Proof.
  intros H. unfold Layout.class_lay; cbn [lsize lalign fold_left]. rewrite !app_nil_r.
  now rewrite bases_offset_solid, max_align_solid.
Qed.

Lemma light_partition fs :
  Forall light_if_empty fs -> Forall light_if_empty (partition_t lempty fs).
Proof.
  intros H. rewrite partition_t_filters. apply Forall_app.
  split; apply Forall_forall; intros t Ht; apply filter_In in Ht as [Ht _];
    rewrite Forall_forall in H; auto.
Qed.

(** Both versions: the non-empty functions in order, as bases. *)
Lemma overload_size fs :
  Forall light_if_empty fs ->
  lsize (overload_lay fs) = lsize (class_lay (filter solid fs) []) /\
  lalign (overload_lay fs) = lalign (class_lay (filter solid fs) []).
Proof.
  intros H. unfold Layout.overload_lay. destruct sorts; [|now apply bases_solid].
  destruct (derive reuse _ (class_rounded reuse (partition_t lempty fs) [])) as [-> ->].
  destruct (bases_solid _ (light_partition _ H)) as [-> ->]. now rewrite solid_partition.
Qed.

Lemma overload_empty_free fs gs e :
  Forall light_if_empty (fs ++ e :: gs) -> lempty e = true ->
  lsize (overload_lay (fs ++ e :: gs)) = lsize (overload_lay (fs ++ gs)).
Proof.
  intros H He.
  assert (H' : Forall light_if_empty (fs ++ gs)).
  { apply Forall_app in H as [H1 H2]. inversion H2; subst. now apply Forall_app. }
  rewrite (proj1 (overload_size _ H)), (proj1 (overload_size _ H')).
  rewrite !filter_app. cbn [filter]. replace (solid e) with false; auto.
  unfold solid. now rewrite He.
Qed.

Lemma overload_all_empty fs :
  Forall light_if_empty fs -> forallb lempty fs = true -> lsize (overload_lay fs) = 1.
Proof.
  intros H He. rewrite (proj1 (overload_size fs H)).
  replace (filter solid fs) with (@nil lay); [reflexivity|].
  clear H. induction fs as [|t ts IH]; cbn in *; auto.
  apply andb_true_iff in He as [H1 H2]. unfold solid at 1. rewrite H1. now apply IH.
Qed.

(** At least as big as all functions together, without their tail padding. *)
Lemma bases_offset_at_least fs off :
  Forall proper_lay fs -> Forall (fun t => lempty t = false) fs ->
  off + sum (map ldsize fs) <= fold_left (base_offset reuse) fs off.
Proof.
  intros H Hs; revert off; induction H as [|t ts (_ & Ha & _ & Hle) _ IH]; intros off; cbn; [lia|].
  inversion Hs as [|? ? He Hs']; subst.
  specialize (IH Hs' (base_offset reuse off t)). unfold base_offset at 1 in IH. rewrite He in IH.
  pose proof (align_up_ge off (lalign t) Ha). unfold sum in *. destruct reuse; lia.
Qed.

(** Functions without tail padding and with equal alignments: the sum. *)
Lemma uniform_bases a ts off :
  0 < a -> Forall proper_lay ts -> Forall (fun t => lempty t = false /\ lalign t = a /\ ldsize t = lsize t) ts ->
  Nat.divide a off ->
  fold_left (base_offset reuse) ts off = off + sum (map lsize ts) /\
  Nat.divide a (off + sum (map lsize ts)).
Proof.
  intros Ha H; revert off; induction H as [|t ts (_ & _ & Hd & _) _ IH]; intros off Hu Ho; cbn.
  - rewrite Nat.add_0_r. auto.
  - inversion Hu as [|? ? (He & Ht & Hds) Hu']; subst. unfold base_offset at 2. rewrite He, Hds.
    rewrite align_up_id by auto.
    destruct (IH (off + lsize t) Hu') as [E D].
    { now apply Nat.divide_add_r. }
    destruct reuse; rewrite E; fold (sum (map lsize ts)); rewrite Nat.add_assoc; auto.
Qed.

Lemma overload_sum a fs :
  0 < a -> Forall proper_lay fs -> forallb lempty fs = false ->
  Forall (fun t => if lempty t then lalign t = 1 else lalign t = a /\ ldsize t = lsize t) fs ->
  lsize (overload_lay fs) = sum (map bytes fs).
Proof.
  intros Ha Hp Hn Hu.
  assert (Hl : Forall light_if_empty fs).
  { eapply Forall_impl; [|exact Hu]. intros t Ht He. cbv beta in Ht. now rewrite He in Ht. }
  rewrite (proj1 (overload_size fs Hl)). rewrite <- sum_bytes.
  assert (Hs : Forall (fun t => lempty t = false /\ lalign t = a /\ ldsize t = lsize t) (filter solid fs)).
  { apply Forall_forall. intros t Ht. apply filter_In in Ht as [Ht He].
    rewrite Forall_forall in Hu. specialize (Hu t Ht). unfold solid in He.
    destruct (lempty t); [discriminate|auto]. }
  assert (Hne : filter solid fs <> []).
  { intros E. revert Hn. rewrite <- (struct_empty fs), E. discriminate. }
  pose proof (filter_proper fs Hp) as Hq. revert Hs Hne Hq. generalize (filter solid fs); intros ts Hs Hne Hq.
  unfold Layout.class_lay; cbn [lsize fold_left]. rewrite app_nil_r.
  assert (Hal : Forall (fun t => lalign t = a) ts).
  { eapply Forall_impl; [|exact Hs]. now intros t (_ & ? & _). }
  rewrite (uniform_align a) by auto.
  destruct (uniform_bases a ts 0 Ha Hq Hs (Nat.divide_0_r a)) as [-> D].
  assert (1 <= sum (map lsize ts)).
  { destruct Hq as [|t ts (H1 & _) _]; [congruence|]. cbn. unfold sum; lia. }
  cbn [Nat.add] in *. rewrite Nat.max_r by auto. now apply align_up_id.
Qed.
End A.

Lemma overload_versions reuse fs :
  Forall light_if_empty fs ->
  lsize (overload_lay reuse true fs) = lsize (overload_lay reuse false fs) /\
  lalign (overload_lay reuse true fs) = lalign (overload_lay reuse false fs) /\
  lempty (overload_lay reuse true fs) = lempty (overload_lay reuse false fs).
Proof.
  intros H. destruct (overload_size reuse true fs H) as [-> ->].
  destruct (overload_size reuse false fs H) as [-> ->]. now rewrite !overload_empty.
Qed.

(** ** Examples: the functions of the test "memory_footprint"
    (tests/lazy.test.cpp:190-230), an [int] of 4 bytes, references of 8 *)

Definition ex_opt reuse := optional_lay reuse ex_int.
Definition ex_ref := prim 8 8.

Lemma ex_C60_sizes reuse sorts :
  let lz := user_lazy_lay reuse sorts ex_int in
  let opt := ex_opt reuse in
  lsize opt = 8 /\
  lsize (lz (optional_void_lay reuse) ex_nothing []) = 1 /\
  lsize (lz opt ex_nothing []) = 8 /\
  lsize (lz opt (closure reuse [ex_int]) []) = 12 /\
  lsize (lz opt (closure reuse [ex_ref]) []) = 16 /\
  lsize (lz opt ex_nothing [DepValue ex_int]) = 12 /\
  lsize (lz (optional_lay reuse ex_nothing) ex_nothing [DepValue ex_nothing]) = 2 /\
  lsize (lz opt ex_nothing [DepPlain opt ex_nothing]) = 20 /\
  lsize (lz opt ex_nothing [DepPlain opt (closure reuse [ex_int])]) = 24 /\
  lsize (lz opt ex_nothing [DepPlain opt (closure reuse [ex_ref])]) = 32 /\
  lsize (lz opt ex_nothing [DepLazy (lz opt ex_nothing [])]) = 16.
Proof. destruct reuse, sorts; now repeat split. Qed.

Lemma ex_C60 reuse :
  proper_lay ex_int /\ proper_lay (ex_opt reuse) /\ lempty (ex_opt reuse) = false /\
  proper_lay ex_nothing /\
  Forall real_dep [DepPlain (ex_opt reuse) ex_nothing; DepValue ex_int; DepLazy ex_nothing] /\
  Forall (fun t => lempty t = true \/ lalign t = 4)
    (ex_opt reuse :: ex_nothing ::
     flat_map (dep_parts ex_int) [DepPlain (ex_opt reuse) ex_nothing; DepValue ex_int; DepLazy ex_nothing]).
Proof.
  assert (Hi : proper_lay ex_int) by (unfold proper_lay; cbn; repeat split; try lia; exists 1; reflexivity).
  assert (Hn : proper_lay ex_nothing) by (unfold proper_lay; cbn; repeat split; try lia; exists 1; reflexivity).
  assert (Ho : proper_lay (ex_opt reuse)) by apply class_proper.
  split; [auto|]. split; [auto|]. split; [auto|]. split; [auto|]. split.
  - repeat apply Forall_cons; cbn [real_dep]; auto.
  - cbn [flat_map dep_parts app]. repeat apply Forall_cons; cbn; auto.
Qed.

(** A captureless plain function as the only dependency. *)
Lemma plain_dep_costs_int :
  exists reuse sorts int cache f gcache g,
    proper_lay int /\ lempty int = false /\ proper_lay cache /\ lempty cache = false /\
    proper_lay f /\ real_dep (DepPlain gcache g) /\
    (forall t, In t [int; cache; f; gcache; g] -> lempty t = true \/ lalign t = 4) /\
    lsize (user_lazy_lay reuse sorts int cache f [DepPlain gcache g])
    <> bytes cache + bytes f + (bytes gcache + bytes g).
Proof.
  exists true, false, ex_int, (ex_opt true), ex_nothing, (ex_opt true), ex_nothing.
  destruct (ex_C60 true) as (Hi & Ho & Hoe & Hn & Hd & _).
  inversion Hd; subst.
  repeat split; auto; try apply Hi; try apply Ho; try apply Hn.
  - intros t Ht. cbn in Ht. decompose [or] Ht; subst; cbn; auto; contradiction.
  - vm_compute. discriminate.
Qed.

(** tests/overload.test.cpp:24-60 *)
Lemma ex_C61_sizes reuse sorts :
  let e := closure reuse [] in let x := closure reuse [ex_int] in
  let c := closure reuse [ex_char] in
  lsize (overload_lay reuse sorts [e; e]) = 1 /\
  lsize (overload_lay reuse sorts [e; x]) = 4 /\
  lsize (overload_lay reuse sorts [c; e]) = 1 /\
  lsize (overload_lay reuse sorts [e; x; e; x]) = 8 /\
  lsize (overload_lay reuse sorts [x; e; x; e]) = 8.
Proof. destruct reuse, sorts; now repeat split. Qed.

Lemma ex_C61 reuse :
  let e := closure reuse [] in let x := closure reuse [ex_int] in
  Forall proper_lay [e; x; e; x] /\ forallb lempty [e; x; e; x] = false /\
  Forall (fun t => if lempty t then lalign t = 1 else lalign t = 4 /\ ldsize t = lsize t) [e; x; e; x].
Proof.
  repeat split; auto.
  - repeat apply Forall_cons; auto; apply class_proper.
  - destruct reuse; repeat constructor.
Qed.

(** Itanium reuses the tail padding of one function for the next. *)
Lemma tail_padding_reused :
  exists fs, Forall proper_lay fs /\ Forall light_if_empty fs /\
    lsize (Layout.overload_lay true false fs) < sum (map bytes fs).
Proof.
  exists [closure true [ex_int; ex_char]; closure true [ex_char]]. repeat split.
  - repeat apply Forall_cons; auto; apply class_proper.
  - repeat apply Forall_cons; auto; intros H; discriminate.
  - vm_compute. lia.
Qed.

(** ** The cache *)

Lemma optional_size reuse t : proper_lay t ->
  lsize (optional_lay reuse t) = lsize t + lalign t /\ lalign (optional_lay reuse t) = lalign t /\
  lempty (optional_lay reuse t) = false /\ proper_lay (optional_lay reuse t).
Proof.
  intros (Hs & Ha & (k & Hk) & _).
  assert (H1 : align_up 0 (lalign t) = 0) by (now apply align_up_0).
  assert (H2 : align_up (lsize t) 1 = lsize t) by (apply align_up_id; [lia|apply Nat.divide_1_l]).
  assert (H3 : align_up (lsize t + 1) (lalign t) = lsize t + lalign t).
  { unfold align_up. replace (lsize t + 1 + lalign t - 1) with ((k + 1) * lalign t) by (rewrite Hk; lia).
    rewrite Nat.div_mul by lia. lia. }
  assert (H4 : Nat.max (lalign t) 1 = lalign t) by lia.
  split; [|split; [|split; [reflexivity|apply class_proper]]].
  - unfold optional_lay, class_lay, member_offset.
    cbn [fold_left app map fold_right lsize lalign prim]. rewrite H1. cbn [Nat.add]. rewrite H2.
    replace (Nat.max (lalign t) (Nat.max 1 1)) with (lalign t) by lia.
    replace (Nat.max 1 (lsize t + 1)) with (lsize t + 1) by lia. exact H3.
  - unfold optional_lay, class_lay. cbn [app map fold_right lalign prim]. lia.
Qed.

Theorem cache_size reuse t : proper_lay t ->
  lsize (optional_lay reuse t) = lsize t + lalign t /\ lalign (optional_lay reuse t) = lalign t /\
  lempty (optional_lay reuse t) = false /\ proper_lay (optional_lay reuse t) /\
  lsize (optional_void_lay reuse) = 1 /\ lempty (optional_void_lay reuse) = false.
Proof.
  intros H. destruct (optional_size reuse t H) as (H1 & H2 & H3 & H4).
  split; [exact H1|]. split; [exact H2|]. split; [exact H3|]. split; [exact H4|]. split; reflexivity.
Qed.
