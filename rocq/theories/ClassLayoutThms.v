(** Proofs about layouts with class identities (C79). *)
From Coq Require Import List Bool Arith Lia.
From Verif Require Import Layout LayoutProofs ClassLayout ClassLayoutSpec.
Import ListNotations.

(** ** Types *)
Section Induction.
  Variable P : cls -> Prop.
  Hypothesis Hs : forall s a, P (Scalar s a).
  Hypothesis Hc : forall k args bs ms, Forall P args -> Forall P bs -> Forall P ms -> P (Class k args bs ms).
  Fixpoint cls_ind' (c : cls) : P c :=
    let all := fix all (l : list cls) : Forall P l :=
      match l with [] => Forall_nil P | x :: l' => Forall_cons x (cls_ind' x) (all l') end in
    match c with
    | Scalar s a => Hs s a
    | Class k args bs ms => Hc k args bs ms (all args) (all bs) (all ms)
    end.
End Induction.

Lemma keqb_eq a b : keqb a b = true <-> a = b.
Proof.
  destruct a, b; cbn; try rewrite Nat.eqb_eq; split; intros H; try congruence; try discriminate; try reflexivity.
Qed.

Definition all_eqb := fix all (l m : list cls) {struct l} : bool :=
  match l, m with
  | [], [] => true
  | x :: l', y :: m' => ceqb x y && all l' m'
  | _, _ => false
  end.

Lemma all_eqb_eq l : Forall (fun a => forall b, ceqb a b = true <-> a = b) l ->
  forall m, all_eqb l m = true <-> l = m.
Proof.
  induction 1 as [|x l Hx _ IH]; intros [|y m]; cbn; try (split; [discriminate|discriminate]); [tauto|].
  rewrite andb_true_iff, Hx, IH. split; [intros [-> ->]; reflexivity|intros H; injection H as -> ->; auto].
Qed.

Lemma ceqb_eq a : forall b, ceqb a b = true <-> a = b.
Proof.
  induction a as [s x|k args bs ms Ha Hb Hm] using cls_ind'; intros [t y|k' args' bs' ms'].
  - cbn. rewrite andb_true_iff, !Nat.eqb_eq. split; [intros [-> ->]; reflexivity|intros H; injection H; auto].
  - split; discriminate.
  - split; discriminate.
  - change (ceqb (Class k args bs ms) (Class k' args' bs' ms')) with
      (keqb k k' && all_eqb args args' && all_eqb bs bs' && all_eqb ms ms').
    rewrite !andb_true_iff, keqb_eq, (all_eqb_eq _ Ha), (all_eqb_eq _ Hb), (all_eqb_eq _ Hm).
    split; [intros [[[-> ->] ->] ->]; reflexivity|intros H; injection H; auto].
Qed.

Lemma real_class k args bs ms : real (Class k args bs ms) <-> Forall real bs /\ Forall real ms.
Proof.
  assert (H : forall l, (fix all (l : list cls) : Prop := match l with [] => True | x :: l' => real x /\ all l' end) l
                        <-> Forall real l).
  { induction l as [|x l IH]; split; auto.
    - intros [H1 H2]. constructor; auto. now apply IH.
    - inversion 1; subst. split; auto. now apply IH. }
  cbn. rewrite !H. tauto.
Qed.

(** ** Searching *)
Lemma conflict_false o new old : conflict o new old = false <->
  forall x y, In x new -> In y old -> fst x = fst y -> o + snd x <> snd y.
Proof.
  unfold conflict. split.
  - intros H x y Hx Hy E Eo. apply not_true_iff_false in H. apply H.
    apply existsb_exists. exists x. split; [exact Hx|]. apply existsb_exists. exists y. split; [exact Hy|].
    apply andb_true_iff. split; [now apply ceqb_eq|now apply Nat.eqb_eq].
  - intros H. apply not_true_iff_false. intros Hc. apply existsb_exists in Hc as (x & Hx & Hc).
    apply existsb_exists in Hc as (y & Hy & Hc). apply andb_true_iff in Hc as [H1 H2].
    apply ceqb_eq in H1. apply Nat.eqb_eq in H2. now apply (H x y).
Qed.

Lemma conflict_high o new old : list_max (map snd old) < o -> conflict o new old = false.
Proof.
  intros H. apply conflict_false. intros x y _ Hy _ E.
  assert (Hm : Forall (fun k => k <= list_max (map snd old)) (map snd old)) by (apply list_max_le; lia).
  rewrite Forall_forall in Hm. assert (snd y <= list_max (map snd old)) by (apply Hm; now apply in_map). lia.
Qed.

Lemma search_ok fuel : forall o step new old, 0 < step -> list_max (map snd old) < o + fuel ->
  conflict (search fuel o step new old) new old = false /\ exists k, search fuel o step new old = o + k * step.
Proof.
  induction fuel as [|fuel IH]; intros o step new old Hs Hf; cbn [search].
  - split; [apply conflict_high; lia|]. exists 0. lia.
  - destruct (conflict o new old) eqn:E.
    + destruct (IH (o + step) step new old Hs) as [H1 [k Hk]]; [lia|]. split; [exact H1|].
      exists (S k). lia.
    + split; [exact E|]. exists 0. lia.
Qed.

Lemma search_stays fuel o step new old : conflict o new old = false -> search fuel o step new old = o.
Proof. intros H. destruct fuel; cbn; [reflexivity|]. now rewrite H. Qed.

Lemma next_offset_ok p d : 0 < falign d ->
  conflict (next_offset p d) (fcomps d) (pcomps p) = false /\
  pdsize p <= next_offset p d /\ Nat.divide (falign d) (next_offset p d).
Proof.
  intros Ha. unfold next_offset.
  destruct (search_ok (S (list_max (map snd (pcomps p)))) (align_up (pdsize p) (falign d)) (falign d)
              (fcomps d) (pcomps p) Ha) as [H1 [k Hk]]; [lia|].
  split; [exact H1|]. rewrite Hk. pose proof (align_up_ge (pdsize p) (falign d) Ha). split; [nia|].
  apply Nat.divide_add_r; [apply align_up_divide|]. now exists k.
Qed.

(** ** Which subobjects there are *)
Lemma shift_fst o cs : map fst (shift o cs) = map fst cs.
Proof. unfold shift. rewrite map_map. reflexivity. Qed.

Lemma bases_fst ds : forall p, map fst (pcomps (fold_left place_base ds p)) =
  map fst (pcomps p) ++ flat_map (fun d => map fst (fcomps d)) ds.
Proof.
  induction ds as [|d ds IH]; intros p; cbn; [now rewrite app_nil_r|].
  rewrite IH. cbn. now rewrite map_app, shift_fst, <- app_assoc.
Qed.
Lemma members_fst ds : forall p, map fst (pcomps (fold_left place_member ds p)) =
  map fst (pcomps p) ++ flat_map (fun d => map fst (fcomps d)) ds.
Proof.
  induction ds as [|d ds IH]; intros p; cbn; [now rewrite app_nil_r|].
  rewrite IH. cbn. now rewrite map_app, shift_fst, <- app_assoc.
Qed.

Lemma comps_empties c : map fst (fcomps (layout c)) = empties c.
Proof.
  induction c as [s a|k args bs ms _ Hb Hm] using cls_ind'; [reflexivity|].
  assert (H : forall l, Forall (fun c => map fst (fcomps (layout c)) = empties c) l ->
                        flat_map (fun d => map fst (fcomps d)) (map layout l) = flat_map empties l).
  { induction 1 as [|x l Hx _ IH]; cbn; congruence. }
  change (empties (Class k args bs ms)) with
    (flat_map empties bs ++ flat_map empties ms ++ (if is_empty (Class k args bs ms) then [Class k args bs ms] else [])).
  unfold is_empty. cbn [layout fcomps fempty].
  rewrite map_app, members_fst, bases_fst, (H _ Hb), (H _ Hm). cbn [nothing pcomps map app].
  rewrite <- app_assoc. f_equal. f_equal. now destruct (_ && _).
Qed.

Fixpoint weight (c : cls) : nat :=
  match c with
  | Scalar _ _ => 1
  | Class _ args bs ms => S (list_sum (map weight args) + list_sum (map weight bs) + list_sum (map weight ms))
  end.

Lemma in_weight x l : In x l -> weight x <= list_sum (map weight l).
Proof.
  induction l as [|y l IH]; [intros []|]. intros [->|H]; unfold list_sum in *; cbn [map fold_right]; [lia|].
  apply IH in H. lia.
Qed.

Lemma empties_weight c : forall x, In x (empties c) -> weight x <= weight c.
Proof.
  induction c as [s a|k args bs ms _ Hb Hm] using cls_ind'; intros x Hx; [destruct Hx|].
  change (empties (Class k args bs ms)) with
    (flat_map empties bs ++ flat_map empties ms ++ (if is_empty (Class k args bs ms) then [Class k args bs ms] else [])) in Hx.
  rewrite Forall_forall in Hb, Hm. cbn [weight].
  apply in_app_or in Hx as [Hx|Hx]; [|apply in_app_or in Hx as [Hx|Hx]].
  - apply in_flat_map in Hx as (y & Hy & Hx). apply (Hb y Hy) in Hx. apply in_weight in Hy. lia.
  - apply in_flat_map in Hx as (y & Hy & Hx). apply (Hm y Hy) in Hx. apply in_weight in Hy. lia.
  - destruct (is_empty _); [|destruct Hx]. destruct Hx as [<-|[]]. cbn. lia.
Qed.

(** ** Layouts are good *)
Definition slot : Type := nat * (nat * nat * nat).

Record ordered_slots (n m : nat) (l : list slot) : Prop := {
  slots_fit : Forall (fun x => let '(o, (a, _, s)) := x in Nat.divide a o /\ o + s <= n) l;
  slots_end : Forall (fun x => let '(o, (_, k, _)) := x in k = 0 \/ o + k <= m) l;
  slots_apart : forall i j o1 a1 n1 s1 o2 a2 n2 s2, i < j ->
     nth_error l i = Some (o1, (a1, n1, s1)) -> nth_error l j = Some (o2, (a2, n2, s2)) ->
     n1 = 0 \/ n2 = 0 \/ o1 + n1 <= o2 }.

Lemma slots_snoc n m l n' m' o a k s :
  ordered_slots n m l -> n <= n' -> m <= m' ->
  Nat.divide a o -> o + s <= n' -> (k = 0 \/ (m <= o /\ o + k <= m')) ->
  ordered_slots n' m' (l ++ [(o, (a, k, s))]).
Proof.
  intros [Hf He Ha] Hn Hm Hd Hs Hk. split.
  - apply Forall_app. split; [|constructor; [cbn; auto|constructor]].
    eapply Forall_impl; [|exact Hf]. intros [o1 [[a1 k1] s1]] [H1 H2]. split; auto. lia.
  - apply Forall_app. split; [|constructor; [cbn; lia|constructor]].
    eapply Forall_impl; [|exact He]. intros [o1 [[a1 k1] s1]] [H|H]; [now left|right; lia].
  - intros i j o1 a1 n1 s1 o2 a2 n2 s2 Hij H1 H2.
    destruct (Nat.lt_ge_cases j (length l)) as [Hj|Hj].
    + rewrite nth_error_app1 in H1 by lia. rewrite nth_error_app1 in H2 by lia. exact (Ha _ _ _ _ _ _ _ _ _ _ Hij H1 H2).
    + rewrite nth_error_app2 in H2 by lia. destruct (j - length l) as [|r] eqn:Er; cbn in H2.
      * injection H2 as <- <- <- <-. rewrite nth_error_app1 in H1 by lia.
        rewrite Forall_forall in He. apply nth_error_In in H1. specialize (He _ H1). cbn in He. lia.
      * destruct r; discriminate.
Qed.

Record good_part (p : partial_class) (sl : list (nat * nat * nat)) : Prop := {
  gp_len : length (poffs p) = length sl;
  gp_nodup : NoDup (pcomps p);
  gp_in : Forall (fun x => snd x < psize p) (pcomps p);
  gp_slots : ordered_slots (psize p) (pdsize p) (combine (poffs p) sl) }.

Lemma combine_snoc {X Y} (l : list X) (m : list Y) x y :
  length l = length m -> combine (l ++ [x]) (m ++ [y]) = combine l m ++ [(x, y)].
Proof.
  revert m. induction l as [|a l IH]; intros [|b m] H; cbn in *; try discriminate; auto.
  rewrite IH; auto.
Qed.

Lemma nodup_app {X} (l m : list X) : NoDup l -> NoDup m -> (forall x, In x l -> ~ In x m) -> NoDup (l ++ m).
Proof.
  induction 1 as [|x l Hx Hl IH]; intros Hm Hd; cbn; auto.
  constructor; [|apply IH; auto; intros y Hy; apply Hd; now right].
  intros H. apply in_app_or in H as [H|H]; [contradiction|]. now apply (Hd x (or_introl eq_refl)).
Qed.

Lemma shift_nodup o cs : NoDup cs -> NoDup (shift o cs).
Proof.
  intros H. unfold shift. induction H as [|x cs Hx H IH]; cbn; constructor; auto.
  intros Hin. apply in_map_iff in Hin as ([y n] & E & Hy). destruct x as [x m]. cbn in E.
  injection E as -> E. assert (n = m) by lia. subst. contradiction.
Qed.

Lemma place_good p sl d o n m' :
  good_part p sl -> NoDup (fcomps d) -> Forall (fun x => snd x < fsize d) (fcomps d) ->
  conflict o (fcomps d) (pcomps p) = false -> Nat.divide (falign d) o ->
  pdsize p <= m' -> (n = 0 \/ (pdsize p <= o /\ o + n <= m')) ->
  good_part (mkPart m' (Nat.max (psize p) (o + fsize d)) (Nat.max (palign p) (falign d))
               (pcomps p ++ shift o (fcomps d)) (poffs p ++ [o])) (sl ++ [(falign d, n, fsize d)]).
Proof.
  intros [Hl Hn Hi Hs] Hd Hdi Hc Ha Hm Hk. split; cbn [poffs pcomps psize pdsize].
  - rewrite !app_length, Hl. reflexivity.
  - apply nodup_app; auto using shift_nodup. intros [x k] Hx Hx2.
    unfold shift in Hx2. apply in_map_iff in Hx2 as ([y i] & E & Hy). cbn in E. injection E as -> <-.
    apply (proj1 (conflict_false _ _ _) Hc (x, i) (x, o + i)); auto.
  - apply Forall_app. split.
    + eapply Forall_impl; [|exact Hi]. cbn. intros; lia.
    + unfold shift. apply Forall_map. eapply Forall_impl; [|exact Hdi]. cbn. intros; lia.
  - rewrite combine_snoc by exact Hl. eapply slots_snoc; eauto; lia.
Qed.

Definition good_full (d : full) : Prop :=
  NoDup (fcomps d) /\ Forall (fun x => snd x < fsize d) (fcomps d) /\ 0 < falign d.

Definition base_slot (f : full) : nat * nat * nat := (falign f, (if fempty f then 0 else fdsize f), fsize f).
Definition member_slot (f : full) : nat * nat * nat := (falign f, fsize f, fsize f).

Lemma bases_good ds : Forall good_full ds -> forall p sl, good_part p sl ->
  good_part (fold_left place_base ds p) (sl ++ map base_slot ds).
Proof.
  induction 1 as [|d ds (Hn & Hi & Ha) _ IH]; intros p sl Hp; cbn [map fold_left]; [now rewrite app_nil_r|].
  replace (sl ++ base_slot d :: map base_slot ds) with ((sl ++ [base_slot d]) ++ map base_slot ds)
    by (now rewrite <- app_assoc).
  apply IH. unfold place_base, base_slot.
  destruct (next_offset_ok p d Ha) as (Hc & Hle & Hdiv).
  destruct (fempty d) eqn:Ee; cbn [andb].
  - destruct (conflict 0 (fcomps d) (pcomps p)) eqn:E0; cbn [negb].
    + apply place_good; auto.
    + apply place_good; auto. apply Nat.divide_0_r.
  - apply place_good; auto; lia.
Qed.

Lemma members_good ds : Forall good_full ds -> forall p sl, good_part p sl ->
  good_part (fold_left place_member ds p) (sl ++ map member_slot ds).
Proof.
  induction 1 as [|d ds (Hn & Hi & Ha) _ IH]; intros p sl Hp; cbn [map fold_left]; [now rewrite app_nil_r|].
  replace (sl ++ member_slot d :: map member_slot ds) with ((sl ++ [member_slot d]) ++ map member_slot ds)
    by (now rewrite <- app_assoc).
  apply IH. unfold place_member, member_slot.
  destruct (next_offset_ok p d Ha) as (Hc & Hle & Hdiv).
  apply place_good; auto; lia.
Qed.

Lemma bases_align ds : forall p, palign p <= palign (fold_left place_base ds p).
Proof.
  induction ds as [|d ds IH]; intros p; cbn [fold_left]; [lia|]. specialize (IH (place_base p d)).
  cbn [place_base palign] in IH. lia.
Qed.
Lemma members_align ds : forall p, palign p <= palign (fold_left place_member ds p).
Proof.
  induction ds as [|d ds IH]; intros p; cbn [fold_left]; [lia|]. specialize (IH (place_member p d)).
  cbn [place_member palign] in IH. lia.
Qed.

Lemma class_good k args bs ms :
  Forall (fun c => good_full (layout c)) bs -> Forall (fun c => good_full (layout c)) ms ->
  good_full (layout (Class k args bs ms)) /\ good_layout (Class k args bs ms).
Proof.
  intros Hb Hm.
  assert (Hp : good_part (fold_left place_member (map layout ms) (fold_left place_base (map layout bs) nothing))
                 (map base_slot (map layout bs) ++ map member_slot (map layout ms))).
  { apply members_good; [now apply Forall_map|]. apply (bases_good (map layout bs)) with (sl := []); [now apply Forall_map|].
    split; cbn; auto; [constructor|]. split; cbn; auto. intros [|i] j; discriminate. }
  assert (Hal : 1 <= palign (fold_left place_member (map layout ms) (fold_left place_base (map layout bs) nothing))).
  { pose proof (bases_align (map layout bs) nothing). cbn [nothing palign] in H.
    pose proof (members_align (map layout ms) (fold_left place_base (map layout bs) nothing)). lia. }
  assert (Hw : forall x, In x (pcomps (fold_left place_member (map layout ms) (fold_left place_base (map layout bs) nothing))) ->
                         fst x <> Class k args bs ms).
  { intros x Hx E. apply (in_map fst) in Hx. rewrite members_fst, bases_fst in Hx. cbn [nothing pcomps map app] in Hx.
    apply in_app_or in Hx as [Hx|Hx]; apply in_flat_map in Hx as (d & Hd & Hx);
      apply in_map_iff in Hd as (c & <- & Hc); rewrite comps_empties in Hx; apply empties_weight in Hx;
      apply in_weight in Hc; rewrite E in Hx; cbn [weight] in Hx; lia. }
  set (p := fold_left place_member (map layout ms) (fold_left place_base (map layout bs) nothing)) in *.
  destruct Hp as [Hlen Hnd Hin [Hfit Hend Hap]].
  set (e := forallb fempty (map layout bs) && match ms with [] => true | _ => false end).
  assert (Hsz : psize p <= align_up (Nat.max 1 (psize p)) (palign p) /\ 0 < align_up (Nat.max 1 (psize p)) (palign p)).
  { pose proof (align_up_ge (Nat.max 1 (psize p)) (palign p)). lia. }
  assert (H1 : NoDup (pcomps p ++ (if e then [(Class k args bs ms, 0)] else []))).
  { apply nodup_app; auto; [destruct e; repeat constructor; auto|].
    intros x Hx Hx2. destruct e; [|destruct Hx2]. destruct Hx2 as [<-|[]]. now apply (Hw _ Hx). }
  assert (H2 : Forall (fun x => snd x < align_up (Nat.max 1 (psize p)) (palign p))
                 (pcomps p ++ (if e then [(Class k args bs ms, 0)] else []))).
  { apply Forall_app. split; [eapply Forall_impl; [|exact Hin]; cbn beta; intros; lia|].
    destruct e; [constructor; [cbn [snd]; lia|constructor]|constructor]. }
  split.
  - split; [exact H1|]. split; [exact H2|]. cbn [layout falign]. fold p. lia.
  - assert (Hsub : subobjects (Class k args bs ms)
                   = combine (poffs p) (map base_slot (map layout bs) ++ map member_slot (map layout ms))).
    { unfold subobjects. cbn [layout foffs]. fold p. now rewrite !map_map. }
    unfold good_layout. rewrite Hsub. cbn [layout fcomps fsize]. fold p. fold e.
    split; [exact H1|]. split; [exact H2|]. split; [|exact Hap].
    eapply Forall_impl; [|exact Hfit]. intros [o [[a n] s]] [Hd Hs]. split; auto. lia.
Qed.

Lemma layout_good c : real c -> good_full (layout c) /\ good_layout c.
Proof.
  induction c as [s a|k args bs ms _ Hb Hm] using cls_ind'; intros Hr.
  - destruct Hr as (Hs & [e ->] & _). assert (2 ^ e <> 0) by (apply Nat.pow_nonzero; lia). split.
    + split; [constructor|]. split; [constructor|]. cbn. lia.
    + split; [constructor|]. split; [constructor|]. split; [constructor|]. intros [|i] j; discriminate.
  - apply real_class in Hr as [Hrb Hrm]. apply class_good.
    + rewrite Forall_forall in *. intros c Hc. now apply Hb; auto.
    + rewrite Forall_forall in *. intros c Hc. now apply Hm; auto.
Qed.

Lemma always_good c : real c -> good_layout c.
Proof. intros H. now apply layout_good. Qed.

(** ** Without conflicts *)
Lemma naive_bases_prefix ds : forall p, exists r, pcomps (fold_left naive_base ds p) = pcomps p ++ r.
Proof.
  induction ds as [|d ds IH]; intros p; cbn [fold_left]; [exists []; now rewrite app_nil_r|].
  destruct (IH (naive_base p d)) as [r ->]. cbn [naive_base pcomps]. eexists. now rewrite <- app_assoc.
Qed.
Lemma naive_members_prefix ds : forall p, exists r, pcomps (fold_left naive_member ds p) = pcomps p ++ r.
Proof.
  induction ds as [|d ds IH]; intros p; cbn [fold_left]; [exists []; now rewrite app_nil_r|].
  destruct (IH (naive_member p d)) as [r ->]. cbn [naive_member pcomps]. eexists. now rewrite <- app_assoc.
Qed.

Lemma nodup_no_conflict o new old r : NoDup ((old ++ shift o new) ++ r) -> conflict o new old = false.
Proof.
  intros H. apply conflict_false. intros x y Hx Hy E Eo.
  assert (Hs : In y (shift o new)).
  { unfold shift. apply in_map_iff. exists x. destruct y as [c n]. cbn in *. subst. auto. }
  rewrite <- app_assoc in H. apply in_split in Hy as (l1 & l2 & ->).
  rewrite <- app_assoc in H. cbn in H. apply NoDup_remove_2 in H. apply H.
  apply in_or_app. right. apply in_or_app. right. apply in_or_app. now left.
Qed.

Lemma nodup_left {X} (l m : list X) : NoDup (l ++ m) -> NoDup l.
Proof.
  induction l as [|x l IH]; cbn; intros H; [constructor|]. inversion H as [|? ? H1 H2]; subst.
  constructor; auto. intros Hx. apply H1. apply in_or_app. now left.
Qed.
Lemma nodup_right {X} (l m : list X) : NoDup (l ++ m) -> NoDup m.
Proof. induction l as [|x l IH]; cbn; auto. intros H. inversion H; subst. auto. Qed.
Lemma shift_nodup_inv o cs : NoDup (shift o cs) -> NoDup cs.
Proof. apply NoDup_map_inv. Qed.

Lemma bases_parts (L N : list full) : forall p,
  Forall2 (fun l n => NoDup (fcomps n) -> l = n) L N ->
  NoDup (pcomps (fold_left naive_base N p)) -> fold_left place_base L p = fold_left naive_base N p.
Proof.
  intros p H. revert p. induction H as [|l n L N Hln _ IH]; intros p Hnd; [reflexivity|].
  cbn [fold_left] in *.
  destruct (naive_bases_prefix N (naive_base p n)) as [r Er].
  assert (Hc : conflict (if fempty n then 0 else align_up (pdsize p) (falign n)) (fcomps n) (pcomps p) = false).
  { apply nodup_no_conflict with (r := r). rewrite Er in Hnd. exact Hnd. }
  assert (Hn : NoDup (fcomps n)).
  { rewrite Er in Hnd. cbn [naive_base pcomps] in Hnd. apply nodup_left, nodup_right, shift_nodup_inv in Hnd. exact Hnd. }
  specialize (Hln Hn). subst l.
  replace (place_base p n) with (naive_base p n); [now apply IH|].
  unfold place_base, naive_base, next_offset. destruct (fempty n); cbn [andb].
  - now rewrite Hc.
  - now rewrite (search_stays _ _ _ _ _ Hc).
Qed.
Lemma members_parts (L N : list full) : forall p,
  Forall2 (fun l n => NoDup (fcomps n) -> l = n) L N ->
  NoDup (pcomps (fold_left naive_member N p)) -> fold_left place_member L p = fold_left naive_member N p.
Proof.
  intros p H. revert p. induction H as [|l n L N Hln _ IH]; intros p Hnd; [reflexivity|].
  cbn [fold_left] in *.
  destruct (naive_members_prefix N (naive_member p n)) as [r Er].
  assert (Hc : conflict (align_up (pdsize p) (falign n)) (fcomps n) (pcomps p) = false).
  { apply nodup_no_conflict with (r := r). rewrite Er in Hnd. exact Hnd. }
  assert (Hn : NoDup (fcomps n)).
  { rewrite Er in Hnd. cbn [naive_member pcomps] in Hnd. apply nodup_left, nodup_right, shift_nodup_inv in Hnd. exact Hnd. }
  specialize (Hln Hn). subst l.
  replace (place_member p n) with (naive_member p n); [now apply IH|].
  unfold place_member, naive_member, next_offset. now rewrite (search_stays _ _ _ _ _ Hc).
Qed.

Lemma forall2_map {X Y Z} (R : Y -> Z -> Prop) (f : X -> Y) (g : X -> Z) l :
  Forall (fun x => R (f x) (g x)) l -> Forall2 R (map f l) (map g l).
Proof. induction 1; cbn; constructor; auto. Qed.

Lemma fempty_naive c : fempty (layout c) = fempty (naive c).
Proof.
  induction c as [s a|k args bs ms _ Hb _] using cls_ind'; [reflexivity|].
  cbn [layout naive fempty]. f_equal. induction Hb as [|b bs H _ IH]; cbn; [reflexivity|]. now rewrite H, IH.
Qed.

Lemma layout_naive c : NoDup (fcomps (naive c)) -> layout c = naive c.
Proof.
  induction c as [s a|k args bs ms _ Hb Hm] using cls_ind'; intros H; [reflexivity|].
  cbn [layout naive fcomps] in *.
  apply nodup_left in H.
  destruct (naive_members_prefix (map naive ms) (fold_left naive_base (map naive bs) nothing)) as [r Er].
  rewrite (bases_parts (map layout bs) (map naive bs)).
  - rewrite (members_parts (map layout ms) (map naive ms)); auto.
    + assert (E : forallb fempty (map layout bs) = forallb fempty (map naive bs)).
      { clear. induction bs as [|b bs IH]; cbn; [reflexivity|]. now rewrite IH, fempty_naive. }
      now rewrite E.
    + now apply forall2_map.
  - now apply forall2_map.
  - rewrite Er in H. now apply nodup_left in H.
Qed.

Lemma no_conflict c : real c -> (layout c = naive c <-> NoDup (fcomps (naive c))).
Proof.
  intros Hr. split; [|apply layout_naive]. intros <-. now apply layout_good.
Qed.

(** ** Agreement with Layout.v *)
Lemma align_up_least n a m : 0 < a -> n <= m -> Nat.divide a m -> align_up n a <= m.
Proof.
  intros Ha Hn [q ->]. unfold align_up. apply Nat.mul_le_mono_r.
  assert ((n + a - 1) / a < S q); [|lia]. apply Nat.div_lt_upper_bound; nia.
Qed.

Definition pow2 (a : nat) : Prop := exists k, a = 2 ^ k.
Lemma pow2_pos a : pow2 a -> 0 < a.
Proof. intros [k ->]. assert (2 ^ k <> 0) by (apply Nat.pow_nonzero; lia). lia. Qed.
Lemma pow2_divide a b : pow2 a -> pow2 b -> a <= b -> Nat.divide a b.
Proof.
  intros [j ->] [k ->] H. apply Nat.pow_le_mono_r_iff in H; [|lia].
  exists (2 ^ (k - j)). rewrite <- Nat.pow_add_r. f_equal. lia.
Qed.
Lemma pow2_max a b : pow2 a -> pow2 b -> pow2 (Nat.max a b).
Proof. intros Ha Hb. destruct (Nat.max_spec a b) as [[_ ->]|[_ ->]]; auto. Qed.

Record sound (f : full) : Prop := {
  sn_pow : pow2 (falign f);
  sn_le : fdsize f <= fsize f;
  sn_size : fsize f = align_up (Nat.max 1 (fdsize f)) (falign f);
  sn_empty : fempty f = true -> fdsize f = 0 /\ falign f = 1;
  sn_solid : fempty f = false -> 0 < fdsize f }.

Record sound_part (p : partial_class) : Prop := {
  sp_pow : pow2 (palign p);
  sp_le : pdsize p <= psize p;
  sp_size : psize p <= align_up (Nat.max 1 (pdsize p)) (palign p) }.

Lemma round_mono n a n' a' : pow2 a -> pow2 a' -> n <= n' -> a <= a' -> align_up n a <= align_up n' a'.
Proof.
  intros Ha Ha' Hn Hle. apply align_up_least; [now apply pow2_pos| |].
  - pose proof (align_up_ge n' a' (pow2_pos _ Ha')). lia.
  - eapply Nat.divide_trans; [apply pow2_divide; eauto|apply align_up_divide].
Qed.

Lemma grow p o d n m' : sound_part p -> sound d -> Nat.divide (falign d) o ->
  pdsize p <= m' -> m' <= Nat.max (psize p) (o + fsize d) -> (o = 0 \/ 0 < n) ->
  fsize d = align_up (Nat.max 1 n) (falign d) -> o + n <= m' ->
  sound_part (mkPart m' (Nat.max (psize p) (o + fsize d)) (Nat.max (palign p) (falign d))
               (pcomps p ++ shift o (fcomps d)) (poffs p ++ [o])).
Proof.
  intros [Hp Hl Hs] [Hd Hdl Hds _ _] Hdiv Hm Hm2 Ho Hn Hon. split; cbn [palign pdsize psize].
  - now apply pow2_max.
  - exact Hm2.
  - assert (Hq : pow2 (Nat.max (palign p) (falign d))) by now apply pow2_max.
    apply Nat.max_lub.
    + etransitivity; [exact Hs|]. apply round_mono; auto; lia.
    + set (R := align_up (Nat.max 1 m') (Nat.max (palign p) (falign d))).
      assert (HR : Nat.divide (falign d) R).
      { eapply Nat.divide_trans; [apply (pow2_divide _ _ Hd Hq); lia|apply align_up_divide]. }
      assert (HRm : Nat.max 1 m' <= R) by (apply align_up_ge; now apply pow2_pos).
      assert (align_up (Nat.max 1 n) (falign d) <= R - o); [|lia].
      apply align_up_least; [now apply pow2_pos|lia|]. now apply Nat.divide_sub_r.
Qed.

Lemma sound_bases ds : Forall sound ds -> forall p, sound_part p -> sound_part (fold_left naive_base ds p).
Proof.
  induction 1 as [|d ds Hd _ IH]; intros p Hp; cbn [fold_left]; auto. apply IH. unfold naive_base.
  pose proof (sp_le _ Hp). pose proof (sn_le _ Hd). pose proof (sn_size _ Hd). pose proof (sn_empty _ Hd). pose proof (sn_solid _ Hd).
  destruct (fempty d).
  - destruct H2 as [E1 E2]; auto. apply grow with (n := 0); auto; try lia.
    + apply Nat.divide_0_r.
    + now rewrite H1, E1.
  - assert (Ha : 0 < falign d) by (apply pow2_pos; apply Hd).
    pose proof (align_up_ge (pdsize p) (falign d) Ha).
    apply grow with (n := fdsize d); auto; try lia. apply align_up_divide.
Qed.

Lemma sound_members ds : Forall sound ds -> forall p, sound_part p -> sound_part (fold_left naive_member ds p).
Proof.
  induction 1 as [|d ds Hd _ IH]; intros p Hp; cbn [fold_left]; auto. apply IH. unfold naive_member.
  pose proof (sp_le _ Hp). pose proof (sn_le _ Hd). pose proof (sn_size _ Hd).
  assert (Ha : 0 < falign d) by (apply pow2_pos; apply Hd).
  pose proof (align_up_ge (pdsize p) (falign d) Ha). pose proof (align_up_ge (Nat.max 1 (fdsize d)) (falign d) Ha).
  apply grow with (n := fsize d); auto; try lia; [apply align_up_divide|].
  symmetry. replace (Nat.max 1 (fsize d)) with (fsize d) by lia. apply align_up_id; auto.
  rewrite H1. apply align_up_divide.
Qed.

Lemma dsize_bases ds : forall p, pdsize (fold_left naive_base ds p) = fold_left (base_offset true) (map summary ds) (pdsize p).
Proof.
  induction ds as [|d ds IH]; intros p; cbn [fold_left map]; auto. rewrite IH. f_equal.
  cbn. unfold base_offset. cbn. now destruct (fempty d).
Qed.
Lemma dsize_members ds : forall p, pdsize (fold_left naive_member ds p) = fold_left member_offset (map summary ds) (pdsize p).
Proof. induction ds as [|d ds IH]; intros p; cbn [fold_left map]; auto. now rewrite IH. Qed.
Lemma align_bases ds : forall p, 1 <= palign p ->
  palign (fold_left naive_base ds p) = Nat.max (palign p) (fold_right Nat.max 1 (map falign ds)).
Proof.
  induction ds as [|d ds IH]; intros p Hp; cbn [fold_left map fold_right]; [lia|].
  rewrite IH; cbn [naive_base palign]; lia.
Qed.
Lemma align_members ds : forall p, 1 <= palign p ->
  palign (fold_left naive_member ds p) = Nat.max (palign p) (fold_right Nat.max 1 (map falign ds)).
Proof.
  induction ds as [|d ds IH]; intros p Hp; cbn [fold_left map fold_right]; [lia|].
  rewrite IH; cbn [naive_member palign]; lia.
Qed.

Lemma dsize_bases_pos ds : Forall sound ds -> forall p, (0 < pdsize p \/ forallb fempty ds = false) ->
  0 < pdsize (fold_left naive_base ds p).
Proof.
  induction 1 as [|d ds Hd _ IH]; intros p H; cbn [fold_left]; [destruct H; [auto|discriminate]|].
  apply IH. cbn in *. pose proof (sn_solid _ Hd). destruct (fempty d); cbn in *; [tauto|]. left. specialize (H0 eq_refl). lia.
Qed.
Lemma dsize_members_pos ds : Forall sound ds -> forall p, (0 < pdsize p \/ ds <> []) ->
  0 < pdsize (fold_left naive_member ds p).
Proof.
  induction 1 as [|d ds Hd _ IH]; intros p H; cbn [fold_left]; [destruct H; [auto|now destruct H]|].
  apply IH. left. cbn. pose proof (sn_size _ Hd). pose proof (align_up_ge (Nat.max 1 (fdsize d)) (falign d) (pow2_pos _ (sn_pow _ Hd))). lia.
Qed.

Lemma empty_bases ds : Forall sound ds -> forallb fempty ds = true -> forall p,
  pdsize (fold_left naive_base ds p) = pdsize p /\
  (palign p = 1 -> palign (fold_left naive_base ds p) = 1).
Proof.
  induction 1 as [|d ds Hd _ IH]; intros He p; cbn [fold_left]; auto. cbn in He. apply andb_true_iff in He as [H1 H2].
  destruct (IH H2 (naive_base p d)) as [E1 E2]. rewrite E1. cbn [naive_base pdsize palign] in *. rewrite H1. split; auto.
  intros Hp. apply E2. destruct (sn_empty _ Hd H1) as [_ ->]. now rewrite Hp.
Qed.

Lemma fold_max_parts l m : fold_right Nat.max 1 (l ++ m) = Nat.max (fold_right Nat.max 1 l) (fold_right Nat.max 1 m).
Proof.
  induction l as [|x l IH]; cbn [app fold_right]; [|lia].
  assert (1 <= fold_right Nat.max 1 m) by apply max_align_pos. lia.
Qed.

Lemma naive_nameless c : real c -> sound (naive c) /\ summary (naive c) = nameless c.
Proof.
  induction c as [s a|k args bs ms _ Hb Hm] using cls_ind'; intros Hr.
  - destruct Hr as (Hs & Hp & Hd). split; [|reflexivity].
    split; cbn [naive falign fdsize fsize fempty]; auto; try discriminate. symmetry. replace (Nat.max 1 s) with s by lia. apply align_up_id; auto. now apply pow2_pos.
  - apply real_class in Hr as [Hrb Hrm].
    assert (Hb2 : Forall (fun c => sound (naive c) /\ summary (naive c) = nameless c) bs).
    { rewrite Forall_forall in *. intros c Hc. apply Hb; auto. }
    assert (Hm2 : Forall (fun c => sound (naive c) /\ summary (naive c) = nameless c) ms).
    { rewrite Forall_forall in *. intros c Hc. apply Hm; auto. }
    assert (Hsb : Forall sound (map naive bs)) by (apply Forall_map; eapply Forall_impl; [|exact Hb2]; now intros ? [? ?]).
    assert (Hsm : Forall sound (map naive ms)) by (apply Forall_map; eapply Forall_impl; [|exact Hm2]; now intros ? [? ?]).
    assert (Eb : map summary (map naive bs) = map nameless bs).
    { rewrite map_map. apply map_ext_Forall. eapply Forall_impl; [|exact Hb2]; now intros ? [? ?]. }
    assert (Em : map summary (map naive ms) = map nameless ms).
    { rewrite map_map. apply map_ext_Forall. eapply Forall_impl; [|exact Hm2]; now intros ? [? ?]. }
    clear Hb Hm Hb2 Hm2 Hrb Hrm.
    assert (Ee2 : forallb fempty (map naive bs) = forallb lempty (map nameless bs)).
    { rewrite <- Eb. clear. induction (map naive bs) as [|b l IH]; cbn; congruence. }
    assert (Hnil : match ms with [] => true | _ => false end = match map nameless ms with [] => true | _ => false end)
      by now destruct ms.
    assert (Hnil2 : match ms with [] => true | _ => false end = match map naive ms with [] => true | _ => false end)
      by now destruct ms.
    cbn [naive nameless].
    set (B := map naive bs) in *. set (M := map naive ms) in *.
    assert (Hsp : sound_part (fold_left naive_member M (fold_left naive_base B nothing))).
    { apply sound_members; auto. apply sound_bases; auto. split; [now exists 0|cbn; lia|cbn; lia]. }
    assert (Hd : pdsize (fold_left naive_member M (fold_left naive_base B nothing)) =
                 fold_left member_offset (map nameless ms) (fold_left (base_offset true) (map nameless bs) 0)).
    { now rewrite dsize_members, dsize_bases, Eb, Em. }
    assert (Ha : palign (fold_left naive_member M (fold_left naive_base B nothing)) =
                 fold_right Nat.max 1 (map lalign (map nameless bs ++ map nameless ms))).
    { assert (Hl : forall l, map falign l = map lalign (map summary l)) by (intros l; now rewrite map_map).
      rewrite align_members; [|rewrite align_bases by (cbn; lia); cbn [nothing palign]; lia].
      rewrite align_bases by (cbn; lia). rewrite !Hl, Eb, Em, map_app, fold_max_parts.
      pose proof (max_align_pos (map lalign (map nameless bs))). cbn [nothing palign]. lia. }
    assert (Hz : align_up (Nat.max 1 (psize (fold_left naive_member M (fold_left naive_base B nothing))))
                   (palign (fold_left naive_member M (fold_left naive_base B nothing))) =
                 align_up (Nat.max 1 (pdsize (fold_left naive_member M (fold_left naive_base B nothing))))
                   (palign (fold_left naive_member M (fold_left naive_base B nothing)))).
    { destruct Hsp as [H1 H2 H3]. apply Nat.le_antisymm.
      - apply align_up_least; [now apply pow2_pos| |apply align_up_divide].
        pose proof (align_up_ge (Nat.max 1 (pdsize (fold_left naive_member M (fold_left naive_base B nothing)))) _ (pow2_pos _ H1)). lia.
      - apply round_mono; auto. lia. }
    split.
    + split; cbn [falign fdsize fsize fempty].
      * apply Hsp.
      * pose proof (sp_le _ Hsp). pose proof (align_up_ge (Nat.max 1 (psize (fold_left naive_member M (fold_left naive_base B nothing)))) _ (pow2_pos _ (sp_pow _ Hsp))). lia.
      * exact Hz.
      * intros H. apply andb_true_iff in H as [H1 H2]. rewrite Hnil2 in H2. destruct M as [|x M]; [|discriminate].
        cbn [fold_left]. destruct (empty_bases B Hsb H1 nothing) as [H3 H4]. split; [exact H3|]. now apply H4.
      * intros H. apply andb_false_iff in H as [H|H].
        -- apply dsize_members_pos; auto. left. apply dsize_bases_pos; auto.
        -- apply dsize_members_pos; auto. right. rewrite Hnil2 in H. now destruct M.
    + unfold summary, class_lay. cbn [fempty fdsize falign fsize]. rewrite Hz, Hd, Ha, Ee2, Hnil. reflexivity.
Qed.

Lemma agrees c : real c -> NoDup (fcomps (naive c)) -> summary (layout c) = nameless c.
Proof. intros Hr Hn. rewrite layout_naive by exact Hn. now apply naive_nameless. Qed.

Lemma distinct_agrees c : real c -> NoDup (empties c) -> summary (layout c) = nameless c.
Proof.
  intros Hr Hn. apply agrees; auto.
  assert (Hmap : map fst (fcomps (naive c)) = empties c); [|rewrite <- Hmap in Hn; now apply NoDup_map_inv in Hn].
  clear. induction c as [s a|k args bs ms _ Hb Hm] using cls_ind'; [reflexivity|].
  assert (HB : forall ds p, map fst (pcomps (fold_left naive_base ds p)) =
                 map fst (pcomps p) ++ flat_map (fun d => map fst (fcomps d)) ds).
  { induction ds as [|d ds IH]; intros p; cbn; [now rewrite app_nil_r|].
    rewrite IH. cbn. now rewrite map_app, shift_fst, <- app_assoc. }
  assert (HM : forall ds p, map fst (pcomps (fold_left naive_member ds p)) =
                 map fst (pcomps p) ++ flat_map (fun d => map fst (fcomps d)) ds).
  { induction ds as [|d ds IH]; intros p; cbn; [now rewrite app_nil_r|].
    rewrite IH. cbn. now rewrite map_app, shift_fst, <- app_assoc. }
  assert (H : forall l, Forall (fun c => map fst (fcomps (naive c)) = empties c) l ->
                        flat_map (fun d => map fst (fcomps d)) (map naive l) = flat_map empties l).
  { induction 1 as [|x l Hx _ IH]; cbn; congruence. }
  change (empties (Class k args bs ms)) with
    (flat_map empties bs ++ flat_map empties ms ++ (if is_empty (Class k args bs ms) then [Class k args bs ms] else [])).
  unfold is_empty. rewrite fempty_naive. cbn [naive fcomps fempty].
  rewrite map_app, HM, HB, (H _ Hb), (H _ Hm). cbn [nothing pcomps map app].
  rewrite <- app_assoc. f_equal. f_equal. now destruct (_ && _).
Qed.

(** ** Tuples *)
Lemma shift_0 cs : shift 0 cs = cs.
Proof. unfold shift. rewrite <- (map_id cs) at 2. apply map_ext. now intros []. Qed.

Lemma layout_whole c : real c -> 0 < falign (layout c) /\ 0 < fsize (layout c) /\ Nat.divide (falign (layout c)) (fsize (layout c)).
Proof.
  intros Hr. assert (Ha : 0 < falign (layout c)) by now apply layout_good.
  split; [exact Ha|]. destruct c as [s a|k args bs ms]; [cbn; split; apply Hr|].
  cbn [layout fsize falign] in *. split; [|apply align_up_divide].
  match goal with |- _ < align_up ?n ?a => pose proof (align_up_ge n a Ha) end. lia.
Qed.

Lemma conflict_nil o new : conflict o new [] = false.
Proof. apply conflict_false. intros x y _ []. Qed.

(** A class with one part has its layout. *)
Lemma one_member k args t : real t ->
  layout (Class k args [] [t]) =
  mkFull false (fsize (layout t)) (falign (layout t)) (fsize (layout t)) (fcomps (layout t)) [0].
Proof.
  intros Hr. destruct (layout_whole t Hr) as (Ha & Hs & Hd).
  cbn [layout map fold_left forallb andb place_member nothing pdsize psize palign pcomps poffs next_offset app].
  unfold next_offset. cbn [nothing pdsize pcomps].
  rewrite align_up_0 by exact Ha. rewrite search_stays by apply conflict_nil.
  rewrite shift_0, app_nil_r. cbn [plus]. f_equal.
  - lia.
  - replace (Nat.max 1 (Nat.max 0 (fsize (layout t)))) with (fsize (layout t)) by lia.
    replace (Nat.max 1 (falign (layout t))) with (falign (layout t)) by lia. now apply align_up_id.
Qed.

Lemma one_base k args t : real t -> fempty (layout t) = false ->
  layout (Class k args [t] []) =
  mkFull false (fdsize (layout t)) (falign (layout t)) (fsize (layout t)) (fcomps (layout t)) [0].
Proof.
  intros Hr He. destruct (layout_whole t Hr) as (Ha & Hs & Hd).
  cbn [layout map fold_left forallb place_base nothing pdsize psize palign pcomps poffs app].
  rewrite He. cbn [andb].
  unfold next_offset. cbn [nothing pdsize pcomps].
  rewrite align_up_0 by exact Ha. rewrite search_stays by apply conflict_nil.
  rewrite shift_0, app_nil_r. cbn [plus app]. f_equal.
  - lia.
  - replace (Nat.max 1 (Nat.max 0 (fsize (layout t)))) with (fsize (layout t)) by lia.
    replace (Nat.max 1 (falign (layout t))) with (falign (layout t)) by lia. now apply align_up_id.
Qed.

Lemma layout_captureless k args : layout (Class k args [] []) = mkFull true 0 1 1 [(Class k args [] [], 0)] [].
Proof. reflexivity. Qed.

(** The parts of a type are smaller than what mentions it. *)
Lemma not_inside k args bs ms t : In t args -> forall o, ~ In (Class k args bs ms, o) (fcomps (layout t)).
Proof.
  intros Ht o H. apply (in_map fst) in H. rewrite comps_empties in H. apply empties_weight in H.
  apply in_weight in Ht. cbn [fst weight] in H. lia.
Qed.

Lemma element_solid_layout tag t : real t -> is_empty t = false ->
  layout (element_cls tag t) =
  mkFull false (fsize (layout t)) (falign (layout t)) (fsize (layout t))
         ((Class (KSelf tag) [t] [] [], 0) :: fcomps (layout t)) [0; 0].
Proof.
  intros Hr He. destruct (layout_whole t Hr) as (Ha & Hs & Hd).
  unfold element_cls. rewrite He. unfold overload_cls.
  assert (Hr2 : real (tuple_cls t)) by (apply real_class; auto).
  assert (Eh : layout (Class (KHolder tag) [t] [] [tuple_cls t]) =
               mkFull false (fsize (layout t)) (falign (layout t)) (fsize (layout t)) (fcomps (layout t)) [0]).
  { rewrite one_member by exact Hr2. unfold tuple_cls. now rewrite one_member by exact Hr. }
  cbn [layout]. cbn [map fold_left forallb].
  change (layout (Class (KSelf tag) [t] [] [])) with (mkFull true 0 1 1 [(Class (KSelf tag) [t] [] [], 0)] []).
  rewrite Eh. cbn [fempty andb].
  change (place_base nothing (mkFull true 0 1 1 [(Class (KSelf tag) [t] [] [], 0)] []))
    with (mkPart 0 1 1 [(Class (KSelf tag) [t] [] [], 0)] [0]).
  unfold place_base, next_offset. cbn [fempty andb pdsize psize palign pcomps poffs falign fcomps fsize fdsize].
  rewrite align_up_0 by exact Ha. rewrite search_stays.
  - rewrite shift_0, app_nil_r. cbn [plus app]. f_equal.
    + lia.
    + replace (Nat.max 1 (Nat.max 1 (fsize (layout t)))) with (fsize (layout t)) by lia.
      replace (Nat.max 1 (falign (layout t))) with (falign (layout t)) by lia. now apply align_up_id.
  - apply conflict_false. intros [x n] y Hx [<-|[]] E _. cbn in E. subst x.
    now apply (not_inside (KSelf tag) [t] [] [] t (or_introl eq_refl) n) in Hx.
Qed.

Lemma real_element tag t : real t -> real (element_cls tag t).
Proof.
  intros Hr. unfold element_cls. destruct (is_empty t); [cbn; auto|].
  apply real_class. split; [|constructor]. repeat constructor. exact Hr.
Qed.
Lemma real_elements ts : Forall real ts -> forall tag, Forall real (elements_cls tag ts).
Proof. induction 1; intros tag; cbn; constructor; auto. now apply real_element. Qed.
Lemma real_compressed ts : Forall real ts -> real (compressed_cls ts).
Proof.
  intros H. apply real_class. split; [|constructor]. constructor; [|constructor].
  apply real_class. split; [|constructor]. constructor; [|constructor].
  apply real_class. split; [|constructor]. now apply real_elements.
Qed.

Definition own_tag (tag : nat) (x : cls * nat) (limit : nat) : Prop :=
  match fst x with
  | Class (KElem n) _ _ _ | Class (KSelf n) _ _ _ => n < tag
  | _ => snd x < limit
  end.

Record flat_part (tag : nat) (p : partial_class) (ls : list lay) : Prop := {
  fl_comps : Forall (fun x => own_tag tag x (pdsize p)) (pcomps p);
  fl_dsize : pdsize p = fold_left member_offset ls 0;
  fl_size : pdsize p <= psize p /\ psize p <= Nat.max 1 (pdsize p);
  fl_align : 1 <= palign p /\ palign p = fold_right Nat.max 1 (map lalign ls) }.

Lemma flat_elements ts : Forall real ts -> Forall foreign ts -> forall tag p ls,
  flat_part tag p ls ->
  flat_part (tag + length ts) (fold_left place_base (map layout (elements_cls tag ts)) p) (ls ++ solid_lays ts).
Proof.
  intros Hr. induction Hr as [|t ts Hr _ IH]; intros Hf tag p ls Hp; cbn [elements_cls map fold_left length].
  - cbn. rewrite app_nil_r, Nat.add_0_r. exact Hp.
  - inversion Hf as [|? ? Hf1 Hf2]; subst. clear Hf.
    replace (tag + S (length ts)) with (S tag + length ts) by lia.
    destruct Hp as [Hc Hd [Hs1 Hs2] [Ha1 Ha2]].
    unfold solid_lays. cbn [filter]. destruct (is_empty t) eqn:Et; cbn [negb].
    + apply IH; [exact Hf2|]. unfold element_cls. rewrite Et.
      change (layout (Class (KElem tag) [t] [] [])) with (mkFull true 0 1 1 [(Class (KElem tag) [t] [] [], 0)] []).
      unfold place_base. cbn [fempty fcomps].
      assert (Hn : conflict 0 [(Class (KElem tag) [t] [] [], 0)] (pcomps p) = false).
      { apply conflict_false. intros x [y n] [<-|[]] Hy E _. cbn in E. subst y.
        rewrite Forall_forall in Hc. apply Hc in Hy. cbn in Hy. lia. }
      rewrite Hn. cbn [andb negb fdsize fsize falign shift map fst snd plus]. split; cbn [pcomps pdsize psize palign].
      * apply Forall_app. split; [|constructor; [cbn; lia|constructor]].
        eapply Forall_impl; [|exact Hc]. intros [x n]. unfold own_tag. cbn. destruct x as [|[] ? ? ?]; auto; lia.
      * exact Hd.
      * lia.
      * split; [lia|]. rewrite <- Ha2. lia.
    + cbn [map]. rewrite (element_solid_layout tag t Hr Et).
      destruct (layout_whole t Hr) as (Ha & Hs & Hdv).
      change (summary (layout t) :: map (fun u => summary (layout u)) (filter (fun v => negb (is_empty v)) ts))
        with ([summary (layout t)] ++ solid_lays ts).
      rewrite app_assoc. apply IH; [exact Hf2|].
      pose proof (align_up_ge (pdsize p) _ Ha) as Hge.
      unfold place_base, next_offset. cbn [fempty fcomps andb falign fsize fdsize].
      rewrite search_stays.
      * split; cbn [pcomps pdsize psize palign].
        -- apply Forall_app. split.
           ++ eapply Forall_impl; [|exact Hc]. intros [x n]. unfold own_tag. cbn. destruct x as [|[] ? ? ?]; auto; lia.
           ++ cbn [shift map]. constructor; [cbn; lia|].
              apply Forall_forall. intros [x n] Hx. apply in_map_iff in Hx as ([y m] & E & Hy). cbn in E.
              injection E as -> <-.
              assert (Hy2 : In x (empties t)) by (rewrite <- comps_empties; now apply (in_map fst) in Hy).
              assert (Hm : m < fsize (layout t)).
              { destruct (layout_good t Hr) as [(_ & Hin & _) _]. rewrite Forall_forall in Hin. now apply Hin in Hy. }
              unfold foreign in Hf1. rewrite Forall_forall in Hf1. apply Hf1 in Hy2.
              unfold own_tag. cbn [fst snd]. destruct x as [|[] ? ? ?]; try contradiction; lia.
        -- rewrite fold_left_app, <- Hd. reflexivity.
        -- lia.
        -- split; [lia|]. rewrite map_app, fold_max_parts, <- Ha2. cbn [map fold_right summary lalign]. lia.
      * apply conflict_false. intros [x n] [y m] Hx Hy E Eo. cbn [fst snd] in *. subst y.
        rewrite Forall_forall in Hc. apply Hc in Hy. unfold own_tag in Hy. cbn [fst snd] in Hy.
        destruct Hx as [Hx|Hx].
        -- injection Hx as <- <-. lia.
        -- assert (Hx2 : In x (empties t)) by (rewrite <- comps_empties; now apply (in_map fst) in Hx).
           unfold foreign in Hf1. rewrite Forall_forall in Hf1. apply Hf1 in Hx2.
           destruct x as [|[] ? ? ?]; try contradiction; lia.
Qed.

Lemma elements_empty ts : forall tag, forallb fempty (map layout (elements_cls tag ts)) = forallb is_empty ts.
Proof.
  induction ts as [|t ts IH]; intros tag; cbn [elements_cls map forallb]; [reflexivity|]. rewrite IH. f_equal.
  unfold element_cls. destruct (is_empty t) eqn:E; [reflexivity|]. reflexivity.
Qed.

Lemma one_empty_base k args t : fempty (layout t) = true ->
  falign (layout t) = 1 -> 0 < fsize (layout t) -> fsize (layout (Class k args [t] [])) = fsize (layout t) /\
  falign (layout (Class k args [t] [])) = 1 /\ fempty (layout (Class k args [t] [])) = true.
Proof.
  intros He Ha Hs. cbn [layout map fold_left forallb]. unfold place_base. rewrite He. cbn [palign fsize falign]. rewrite Ha.
  cbn [nothing pdsize psize palign pcomps poffs fsize falign fempty andb]. rewrite conflict_nil. cbn [negb plus].
  replace (Nat.max 1 (Nat.max 0 (fsize (layout t)))) with (fsize (layout t)) by lia.
  change (Nat.max 1 1) with 1. rewrite align_up_id; [auto|lia|apply Nat.divide_1_l].
Qed.

Lemma flat_tuple ts : Forall real ts -> Forall foreign ts ->
  fsize (layout (compressed_cls ts)) = lsize (plain_struct true (solid_lays ts)) /\
  falign (layout (compressed_cls ts)) = lalign (plain_struct true (solid_lays ts)) /\
  is_empty (compressed_cls ts) = forallb is_empty ts.
Proof.
  intros Hr Hf.
  assert (Hp : flat_part (length ts) (fold_left place_base (map layout (elements_cls 0 ts)) nothing) (solid_lays ts)).
  { apply (flat_elements ts Hr Hf 0 nothing []). split; cbn; auto. }
  assert (Ho : fsize (layout (overload_cls (elements_cls 0 ts))) = lsize (plain_struct true (solid_lays ts)) /\
               falign (layout (overload_cls (elements_cls 0 ts))) = lalign (plain_struct true (solid_lays ts)) /\
               fempty (layout (overload_cls (elements_cls 0 ts))) = forallb is_empty ts).
  { unfold overload_cls, plain_struct, class_lay. cbn [layout fsize falign fempty lsize lalign fold_left app].
    change (fold_left place_member (map layout []) (fold_left place_base (map layout (elements_cls 0 ts)) nothing))
      with (fold_left place_base (map layout (elements_cls 0 ts)) nothing).
    destruct Hp as [_ Hd [Hs1 Hs2] [_ Ha]]. rewrite <- Hd, <- Ha, elements_empty. split; [|split; auto].
    - f_equal. lia.
    - now rewrite andb_true_r. }
  destruct Ho as (Ho1 & Ho2 & Ho3). rewrite <- Ho1, <- Ho2, <- Ho3.
  assert (Hro : real (overload_cls (elements_cls 0 ts))) by (apply real_class; split; auto; now apply real_elements).
  destruct (layout_whole _ Hro) as (Ha & Hs & _).
  unfold compressed_cls, is_empty.
  destruct (fempty (layout (overload_cls (elements_cls 0 ts)))) eqn:Ee.
  - assert (Ha1 : falign (layout (overload_cls (elements_cls 0 ts))) = 1).
    { rewrite Ho2. replace (solid_lays ts) with (@nil lay); [reflexivity|].
      symmetry. unfold solid_lays. clear - Ho3. induction ts as [|t ts IH]; [reflexivity|].
      cbn in *. symmetry in Ho3. apply andb_true_iff in Ho3 as [H1 H2]. rewrite H1. cbn. now apply IH. }
    destruct (one_empty_base KRecursive [] _ Ee Ha1 Hs) as (H1 & H2 & H3).
    fold (recursive_cls (overload_cls (elements_cls 0 ts))) in H1, H2, H3.
    destruct (one_empty_base KCompressed ts (recursive_cls (overload_cls (elements_cls 0 ts))) H3 H2) as (H4 & H5 & H6); [lia|].
    rewrite H4, H5, H6, Ha1. auto.
  - rewrite one_base.
    + unfold recursive_cls. rewrite one_base by auto. cbn. auto.
    + apply real_class; split; auto.
    + unfold recursive_cls. rewrite one_base by auto. reflexivity.
Qed.

(** ** Nested tuples *)
Lemma nested_layout e s a n : is_empty e = true -> real (Scalar s a) -> real e ->
  real (nested e (Scalar s a) n) /\
  fempty (layout (nested e (Scalar s a) n)) = false /\
  fdsize (layout (nested e (Scalar s a) n)) = s + n * a /\
  fsize (layout (nested e (Scalar s a) n)) = s + n * a /\
  falign (layout (nested e (Scalar s a) n)) = a /\
  In (Class (KElem 0) [e] [] [], 0) (fcomps (layout (nested e (Scalar s a) n))).
Proof.
  intros He Ht Hre.
  assert (Hw : forall t S o, real t -> is_empty t = false -> falign (layout t) = a -> fsize (layout t) = S ->
     o = (if conflict 0 (fcomps (layout (element_cls 1 t))) [(Class (KElem 0) [e] [] [], 0)] then a else 0) ->
     real (compressed_cls [e; t]) /\
     fempty (layout (compressed_cls [e; t])) = false /\
     fdsize (layout (compressed_cls [e; t])) = S + o /\
     fsize (layout (compressed_cls [e; t])) = S + o /\
     falign (layout (compressed_cls [e; t])) = a /\
     In (Class (KElem 0) [e] [] [], 0) (fcomps (layout (compressed_cls [e; t])))).
  { intros t S o Hr Hne Ha HS Ho.
    destruct (layout_whole t Hr) as (Hap & Hsp & Hdv).
    assert (Ho2 : layout (overload_cls (elements_cls 0 [e; t])) =
                  mkFull false (S + o) a (S + o)
                    ((Class (KElem 0) [e] [] [], 0) :: shift o (fcomps (layout (element_cls 1 t)))) [0; o]).
    { unfold overload_cls. cbn [elements_cls].
      assert (E0 : layout (element_cls 0 e) = mkFull true 0 1 1 [(Class (KElem 0) [e] [] [], 0)] []).
      { unfold element_cls. now rewrite He. }
      cbn [layout map forallb]. rewrite E0. cbn [fold_left fempty andb].
      change (place_base nothing (mkFull true 0 1 1 [(Class (KElem 0) [e] [] [], 0)] []))
        with (mkPart 0 1 1 [(Class (KElem 0) [e] [] [], 0)] [0]).
      rewrite (element_solid_layout 1 t Hr Hne) in Ho |- *. cbn [fcomps fempty] in *.
      unfold place_base, next_offset. cbn [fempty andb pdsize psize palign pcomps poffs falign fcomps fsize fdsize map snd].
      rewrite align_up_0 by exact Hap.
      change (list_max [0]) with 0. cbn [search].
      set (cs := (Class (KSelf 1) [t] [] [], 0) :: fcomps (layout t)) in *.
      assert (Eo : (if conflict 0 cs [(Class (KElem 0) [e] [] [], 0)] then 0 + falign (layout t) else 0) = o).
      { rewrite Ha. cbn [plus]. now rewrite Ho. }
      rewrite Eo, Ha, HS, app_nil_r. cbn [app].
      assert (Hdo : Nat.divide a o) by (rewrite Ho; destruct (conflict _ _ _); [apply Nat.divide_refl|apply Nat.divide_0_r]).
      assert (Hdv2 : Nat.divide a (S + o)) by (apply Nat.divide_add_r; auto; now rewrite <- Ha, <- HS).
      f_equal.
      - lia.
      - lia.
      - replace (Nat.max 1 (Nat.max 1 (o + S))) with (S + o) by lia.
        replace (Nat.max 1 a) with a by lia. apply align_up_id; auto. lia. }
    assert (Hro : real (overload_cls (elements_cls 0 [e; t]))) by (apply real_class; split; auto; apply real_elements; auto).
    assert (Hrr : real (recursive_cls (overload_cls (elements_cls 0 [e; t])))) by (apply real_class; split; auto).
    assert (Er : layout (recursive_cls (overload_cls (elements_cls 0 [e; t]))) =
                 mkFull false (S + o) a (S + o)
                    ((Class (KElem 0) [e] [] [], 0) :: shift o (fcomps (layout (element_cls 1 t)))) [0]).
    { unfold recursive_cls. rewrite one_base; [now rewrite Ho2|exact Hro|now rewrite Ho2]. }
    assert (Ec : layout (compressed_cls [e; t]) =
                 mkFull false (S + o) a (S + o)
                    ((Class (KElem 0) [e] [] [], 0) :: shift o (fcomps (layout (element_cls 1 t)))) [0]).
    { unfold compressed_cls. rewrite one_base; [now rewrite Er|exact Hrr|now rewrite Er]. }
    rewrite Ec. cbn [fempty fdsize fsize falign fcomps].
    split; [apply real_compressed; auto|]. repeat (split; [reflexivity|]). now left. }
  induction n as [|n (IH1 & IH2 & IH3 & IH4 & IH5 & IH6)]; cbn [nested].
  - replace (s + 0 * a) with (s + 0) by lia. apply Hw; auto.
  - replace (s + S n * a) with ((s + n * a) + a) by lia. apply Hw; auto.
    rewrite (element_solid_layout 1 _ IH1 IH2). cbn [fcomps].
    match goal with |- _ = if ?b then _ else _ => assert (Hb : b = true) end; [|now rewrite Hb].
    apply not_false_iff_true. intros Hc.
    apply (proj1 (conflict_false _ _ _) Hc (Class (KElem 0) [e] [] [], 0) (Class (KElem 0) [e] [] [], 0)); auto; [now right|now left].
Qed.

Lemma nested_size e s a n : is_empty e = true -> real e -> real (Scalar s a) ->
  fsize (layout (nested e (Scalar s a) n)) = s + n * a.
Proof. intros He Hre Ht. now apply nested_layout. Qed.

(** ** empty_object.h *)
Lemma empty_parts c : is_empty c = true -> real c -> fdsize (layout c) = 0 /\ falign (layout c) = 1.
Proof.
  induction c as [s a|k args bs ms _ Hb Hm] using cls_ind'; [discriminate|].
  unfold is_empty. intros He Hr. apply real_class in Hr as [Hrb _]. cbn [layout fempty fdsize falign] in *.
  apply andb_true_iff in He as [He Hms]. destruct ms; [|discriminate]. cbn [map fold_left].
  assert (H : Forall (fun d => fempty d = true /\ falign d = 1) (map layout bs)).
  { apply Forall_map. rewrite Forall_forall in *. intros b Hin.
    assert (Hbe : fempty (layout b) = true) by (rewrite forallb_forall in He; apply He; now apply in_map).
    split; [exact Hbe|]. now apply (Hb b Hin Hbe (Hrb b Hin)). }
  assert (G : forall ds p, Forall (fun d => fempty d = true /\ falign d = 1) ds ->
              pdsize (fold_left place_base ds p) = pdsize p /\ (palign p = 1 -> palign (fold_left place_base ds p) = 1)).
  { induction ds as [|d ds IH]; intros p Hd; cbn [fold_left]; auto. inversion Hd as [|? ? [H1 H2] H3]; subst.
    destruct (IH (place_base p d) H3) as [-> E2]. cbn [place_base pdsize palign] in *. rewrite H1. split; auto.
    intros Hp. apply E2. now rewrite Hp, H2. }
  destruct (G _ nothing H) as [G1 G2]. split; [exact G1|now apply G2].
Qed.

Lemma empty_object_ok t : real t -> is_empty t = true -> forall storage,
  get_address t storage = storage /\
  storage_size t = fsize (layout t) /\ storage_align t = falign (layout t).
Proof.
  intros Hr He storage. destruct (empty_parts t He Hr) as [Hd Ha]. destruct (layout_whole t Hr) as (_ & Hs & _).
  assert (E : layout (T2_cls t) = mkFull false 1 1 (fsize (layout t)) (fcomps (layout t)) [0; 0]).
  { unfold T2_cls, char_cls. cbn [layout map fold_left forallb]. unfold is_empty in He. rewrite He.
    unfold place_base. rewrite He, Ha. cbn [nothing pdsize psize palign pcomps poffs app]. rewrite conflict_nil. cbn [andb negb plus].
    unfold place_member, next_offset. cbn [falign fsize fcomps pdsize psize palign pcomps poffs].
    rewrite align_up_0 by lia. rewrite search_stays by (apply conflict_false; intros x y []).
    rewrite shift_0, !app_nil_r. cbn [plus app shift map]. f_equal.
    replace (Nat.max 1 (Nat.max (Nat.max 0 (fsize (layout t))) 1)) with (fsize (layout t)) by lia.
    change (Nat.max (Nat.max 1 1) 1) with 1. apply align_up_id; [lia|apply Nat.divide_1_l]. }
  unfold get_address, storage_size, storage_align. rewrite E.
  change (layout (T1_cls t)) with (mkFull false 1 1 1 [] [0]). cbn [foffs nth fsize falign].
  split; [lia|]. split; [|now rewrite Ha].
  replace (Nat.max 1 (fsize (layout t))) with (fsize (layout t)) by lia.
  change (Nat.max 1 1) with 1. apply align_up_id; [lia|apply Nat.divide_1_l].
Qed.

(** ** The same tuples in Layout.v *)
Lemma lempty_nameless t : real t -> lempty (nameless t) = is_empty t.
Proof.
  intros Hr. destruct (naive_nameless t Hr) as [_ <-]. unfold is_empty. now rewrite fempty_naive.
Qed.

Lemma nameless_compressed ts : Forall real ts ->
  nameless (compressed_cls ts) = compressed_tuple_lay true false (map nameless ts).
Proof.
  intros Hr.
  assert (H : forall tag, map nameless (elements_cls tag ts) = map (element_lay true false) (map nameless ts)).
  { induction Hr as [|t ts Hr _ IH]; intros tag; cbn [elements_cls map]; [reflexivity|].
    rewrite IH. f_equal. unfold element_cls, element_lay. rewrite (lempty_nameless t Hr). now destruct (is_empty t). }
  unfold compressed_tuple_lay, recursive_lay, overload_lay. rewrite <- (H 0). reflexivity.
Qed.

Lemma nameless_proper t : real t -> proper_lay (nameless t).
Proof.
  intros Hr. destruct t as [s a|k args bs ms]; [|apply class_proper].
  destruct Hr as (Hs & Hp & Hd). apply pow2_pos in Hp. unfold proper_lay. cbn. repeat split; auto; lia.
Qed.

Lemma nested_nameless e s a n : is_empty e = true -> real e -> real (Scalar s a) ->
  lsize (nameless (nested e (Scalar s a) n)) = s.
Proof.
  intros He Hre Ht.
  assert (Hw : forall t, real t -> is_empty t = false -> lsize (nameless (compressed_cls [e; t])) = lsize (nameless t)).
  { intros t Hr Hne. rewrite nameless_compressed by auto. cbn [map].
    rewrite (proj1 (compressed_tuple_size true false _ (Forall_cons _ (nameless_proper e Hre)
               (Forall_cons _ (nameless_proper t Hr) (Forall_nil _))))).
    unfold solid. cbn [filter]. rewrite !lempty_nameless, He, Hne by auto. cbn [negb].
    now apply (struct1 true (nameless t)), nameless_proper. }
  induction n as [|n IH]; cbn [nested].
  - now rewrite Hw.
  - destruct (nested_layout e s a n He Ht Hre) as (H1 & H2 & _). rewrite Hw; auto.
Qed.
