(** Proofs about the layouts of lazy functions with class identities (C80). *)
From Coq Require Import List Bool Arith Lia.
From Verif Require Import Layout LayoutProofs Footprint ClassLayout ClassLayoutSpec ClassLayoutThms ClassLazy ClassLazySpec.
Import ListNotations.

Notation sm c := (summary (layout c)).

(** ** Classes of which the parts do not meet *)
Definition heads (c : cls) (x : cls) : Prop := In (x, 0) (fcomps (layout c)).

(** Subobjects of empty classes lie in what is not tail padding. *)
Definition tight (c : cls) : Prop :=
  Forall (fun x => if is_empty c then snd x = 0 else snd x < fdsize (layout c)) (fcomps (layout c)).

Definition apart (b c : cls) : Prop :=
  is_empty b || is_empty c = true -> forall x, heads b x -> heads c x -> False.

Record neat (c : cls) : Prop := {
  nt_real : real c;
  nt_sound : sound (layout c);
  nt_tight : tight c }.

Record placed (seen : list cls) (p : partial_class) : Prop := {
  pl_comps : forall x o, In (x, o) (pcomps p) ->
    exists l1 b l2, seen = l1 ++ b :: l2 /\
      (if is_empty b then o = 0 /\ heads b x
       else o < pdsize p /\ (o = 0 -> heads b x /\ forallb is_empty l1 = true));
  pl_first : forallb is_empty seen = true -> pdsize p = 0;
  pl_later : forallb is_empty seen = false -> 0 < pdsize p }.

Lemma forallb_snoc {X} (f : X -> bool) l x : forallb f (l ++ [x]) = forallb f l && f x.
Proof. rewrite forallb_app. cbn. now rewrite andb_true_r. Qed.

Lemma place_apart seen p d : placed seen p -> neat d -> Forall (fun b => apart b d) seen ->
  place_base p (layout d) = naive_base p (layout d) /\ placed (seen ++ [d]) (naive_base p (layout d)).
Proof.
  intros [Hc Hf Hl] [Hr Hs Ht] Ha.
  assert (Hno : conflict (if fempty (layout d) then 0 else align_up (pdsize p) (falign (layout d)))
                  (fcomps (layout d)) (pcomps p) = false).
  { apply conflict_false. intros [x i] [y j] Hx Hy E Eo. cbn [fst snd] in *. subst y.
    destruct (Hc _ _ Hy) as (l1 & b & l2 & -> & Hb).
    rewrite Forall_forall in Ha. assert (Hab : apart b d) by (apply Ha; apply in_or_app; right; now left).
    unfold tight in Ht. rewrite Forall_forall in Ht. specialize (Ht _ Hx). cbn [snd] in Ht.
    unfold apart, is_empty in *. destruct (fempty (layout d)).
    - cbn in *. subst i j. rewrite orb_true_r in Hab.
      destruct (fempty (layout b)); [apply (Hab eq_refl x); tauto|]. apply (Hab eq_refl x); [|exact Hx]. now apply Hb.
    - pose proof (align_up_ge (pdsize p) _ (pow2_pos _ (sn_pow _ Hs))).
      destruct (fempty (layout b)); [|lia]. destruct Hb as [-> Hb]. assert (i = 0) by lia. subst i.
      now apply (Hab eq_refl x). }
  split.
  - unfold place_base, naive_base, next_offset. destruct (fempty (layout d)); cbn [andb].
    + now rewrite Hno.
    + now rewrite (search_stays _ _ _ _ _ Hno).
  - pose proof (align_up_ge (pdsize p) _ (pow2_pos _ (sn_pow _ Hs))) as Hge.
    pose proof (sn_solid _ Hs) as Hsol.
    split; cbn [naive_base pcomps pdsize].
    + intros x o Hx. apply in_app_or in Hx as [Hx|Hx].
      * destruct (Hc _ _ Hx) as (l1 & b & l2 & -> & Hb). exists l1, b, (l2 ++ [d]).
        split; [now rewrite <- app_assoc|]. destruct (is_empty b); [exact Hb|].
        destruct Hb as [Ho Hb]. split; [|exact Hb]. destruct (fempty (layout d)); lia.
      * unfold shift in Hx. apply in_map_iff in Hx as ([y i] & E & Hy). cbn [fst snd] in E. injection E as -> <-.
        exists seen, d, []. split; [reflexivity|].
        unfold tight in Ht. rewrite Forall_forall in Ht. specialize (Ht _ Hy). cbn [snd] in Ht.
        unfold is_empty in *. destruct (fempty (layout d)).
        -- subst i. now split.
        -- split; [lia|]. intros H0. assert (i = 0) by lia. subst i. split; [exact Hy|].
           destruct (forallb (fun c => fempty (layout c)) seen) eqn:E; [reflexivity|]. specialize (Hl eq_refl). lia.
    + rewrite forallb_snoc. intros H. apply andb_true_iff in H as [H1 H2]. unfold is_empty in H2. rewrite H2. auto.
    + rewrite forallb_snoc. intros H. unfold is_empty at 2 in H. destruct (fempty (layout d)).
      * rewrite andb_true_r in H. auto.
      * specialize (Hsol eq_refl). lia.
Qed.

Lemma places_apart ds : Forall neat ds -> ForallOrdPairs apart ds -> forall seen p,
  placed seen p -> Forall (fun b => Forall (apart b) ds) seen ->
  fold_left place_base (map layout ds) p = fold_left naive_base (map layout ds) p /\
  placed (seen ++ ds) (fold_left naive_base (map layout ds) p).
Proof.
  induction 1 as [|d ds Hd _ IH]; intros Hp seen p Hs Hb; cbn [map fold_left].
  - rewrite app_nil_r. auto.
  - inversion Hp as [|? ? Hdd Hp']; subst.
    destruct (place_apart seen p d Hs Hd) as [E Hs'].
    { eapply Forall_impl; [|exact Hb]. intros b H. now inversion H. }
    rewrite E. replace (seen ++ d :: ds) with ((seen ++ [d]) ++ ds) by now rewrite <- app_assoc.
    apply IH; auto. apply Forall_app. split; [|constructor; auto].
    eapply Forall_impl; [|exact Hb]. intros b H. now inversion H.
Qed.

(** What [naive_nameless] says about one class. *)
Lemma naive_class B : Forall sound B ->
  let p := fold_left naive_base B nothing in
  let f := mkFull (forallb fempty B) (pdsize p) (palign p) (align_up (Nat.max 1 (psize p)) (palign p)) in
  forall cs os, sound (f cs os) /\ summary (f cs os) = class_lay true (map summary B) [].
Proof.
  intros HB p f cs os.
  assert (Hsp : sound_part p).
  { apply sound_bases; auto. split; [now exists 0|cbn; lia|cbn; lia]. }
  assert (Hz : align_up (Nat.max 1 (psize p)) (palign p) = align_up (Nat.max 1 (pdsize p)) (palign p)).
  { destruct Hsp as [H1 H2 H3]. apply Nat.le_antisymm.
    - apply align_up_least; [now apply pow2_pos| |apply align_up_divide].
      pose proof (align_up_ge (Nat.max 1 (pdsize p)) _ (pow2_pos _ H1)). lia.
    - apply round_mono; auto. lia. }
  split.
  - unfold f. split; cbn [falign fdsize fsize fempty].
    + apply Hsp.
    + pose proof (sp_le _ Hsp). pose proof (align_up_ge (Nat.max 1 (psize p)) _ (pow2_pos _ (sp_pow _ Hsp))). lia.
    + exact Hz.
    + intros H. destruct (empty_bases B HB H nothing) as [H3 H4]. split; [exact H3|]. now apply H4.
    + intros H. apply dsize_bases_pos; auto.
  - unfold f, summary, class_lay. cbn [fempty fdsize falign fsize fold_left]. rewrite Hz.
    assert (E1 : pdsize p = fold_left (base_offset true) (map summary B) 0) by (unfold p; now rewrite dsize_bases).
    assert (E2 : palign p = fold_right Nat.max 1 (map lalign (map summary B ++ []))).
    { unfold p. rewrite align_bases by (cbn; lia). rewrite app_nil_r, map_map. cbn [nothing palign].
      change (map (fun x => lalign (summary x)) B) with (map falign B). pose proof (max_align_pos (map falign B)). lia. }
    assert (E3 : forallb fempty B = forallb lempty (map summary B) && true).
    { rewrite andb_true_r. clear. induction B; cbn; congruence. }
    unfold class_lay. now rewrite E1, E2, E3.
Qed.

Lemma apart_class k args ds : Forall neat ds -> ForallOrdPairs apart ds ->
  let c := Class k args ds [] in
  neat c /\ sm c = class_lay true (map (fun d => sm d) ds) [] /\ is_empty c = forallb is_empty ds /\
  forall x, heads c x ->
    (is_empty c = true /\ x = c) \/
    exists l1 b l2, ds = l1 ++ b :: l2 /\ heads b x /\ (is_empty b = true \/ forallb is_empty l1 = true).
Proof.
  intros Hd Hp c.
  assert (H0 : placed [] nothing) by (split; cbn; auto; [intros x o []|discriminate]).
  destruct (places_apart ds Hd Hp [] nothing H0 (Forall_nil _)) as [E Hpl]. cbn [app] in Hpl.
  assert (HB : Forall sound (map layout ds)) by (apply Forall_map; eapply Forall_impl; [|exact Hd]; now intros ? []).
  assert (He : is_empty c = forallb is_empty ds).
  { unfold is_empty, c. cbn [layout fempty]. rewrite andb_true_r. clear. induction ds; cbn; congruence. }
  assert (Ec : layout c =
    mkFull (forallb fempty (map layout ds)) (pdsize (fold_left naive_base (map layout ds) nothing))
      (palign (fold_left naive_base (map layout ds) nothing))
      (align_up (Nat.max 1 (psize (fold_left naive_base (map layout ds) nothing)))
                (palign (fold_left naive_base (map layout ds) nothing)))
      (pcomps (fold_left naive_base (map layout ds) nothing) ++ (if is_empty c then [(c, 0)] else []))
      (poffs (fold_left naive_base (map layout ds) nothing))).
  { rewrite He. replace (forallb is_empty ds) with (forallb fempty (map layout ds)) by
      (clear; induction ds; cbn; unfold is_empty in *; congruence).
    unfold c. cbn [layout map fold_left]. now rewrite E, andb_true_r. }
  destruct (naive_class (map layout ds) HB
    (pcomps (fold_left naive_base (map layout ds) nothing) ++ (if is_empty c then [(c, 0)] else []))
    (poffs (fold_left naive_base (map layout ds) nothing))) as [Hs Hm].
  destruct Hpl as [Hc Hf Hl].
  split; [split|split; [|split]].
  - apply real_class. split; [|constructor]. eapply Forall_impl; [|exact Hd]. now intros ? [].
  - rewrite Ec. exact Hs.
  - unfold tight.
    assert (Efc : fcomps (layout c) = pcomps (fold_left naive_base (map layout ds) nothing) ++ (if is_empty c then [(c, 0)] else []))
      by now rewrite Ec.
    rewrite Efc. apply Forall_app. split.
    + apply Forall_forall. intros [x o] Hx. destruct (Hc _ _ Hx) as (l1 & b & l2 & Eq & Hb). cbn [snd].
      assert (Ed : fdsize (layout c) = pdsize (fold_left naive_base (map layout ds) nothing)) by now rewrite Ec.
      rewrite He, Ed. destruct (forallb is_empty ds) eqn:Ee.
      * assert (Hbe : is_empty b = true).
        { rewrite forallb_forall in Ee. apply Ee. rewrite Eq. apply in_or_app. right. now left. }
        rewrite Hbe in Hb. tauto.
      * specialize (Hl eq_refl). destruct (is_empty b); lia.
    + destruct (is_empty c) eqn:Ee; constructor; [reflexivity|constructor].
  - rewrite Ec, Hm, map_map. reflexivity.
  - exact He.
  - intros x Hx. unfold heads in Hx. rewrite Ec in Hx. cbn [fcomps] in Hx. apply in_app_or in Hx as [Hx|Hx].
    + right. destruct (Hc _ _ Hx) as (l1 & b & l2 & Eq & Hb). exists l1, b, l2. split; [exact Eq|].
      destruct (is_empty b); [split; tauto|]. destruct Hb as [_ Hb]. specialize (Hb eq_refl). split; tauto.
    + left. destruct (is_empty c); [|destruct Hx]. destruct Hx as [Hx|[]]. injection Hx as <-. auto.
Qed.

(** ** Elements *)
Lemma neat_lambda k args : neat (Class k args [] []) /\ sm (Class k args [] []) = closure true [] /\
  is_empty (Class k args [] []) = true /\ forall x, heads (Class k args [] []) x -> x = Class k args [] [].
Proof.
  destruct (apart_class k args [] (Forall_nil _) (FOP_nil _)) as (H1 & H2 & H3 & H4).
  split; [exact H1|]. split; [exact H2|]. split; [exact H3|].
  intros x Hx. destruct (H4 x Hx) as [[_ ->]|(l1 & b & l2 & E & _)]; [reflexivity|]. now destruct l1.
Qed.

Lemma layout_dsize c : real c -> fdsize (layout c) <= fsize (layout c).
Proof.
  induction c as [s a|k args bs ms _ Hb Hm] using cls_ind'; intros Hr; [cbn; lia|].
  assert (Ha : 0 < falign (layout (Class k args bs ms))) by now apply layout_good.
  apply real_class in Hr as [Hrb Hrm].
  assert (HB : forall ds p, Forall (fun d => fdsize d <= fsize d) ds -> pdsize p <= psize p ->
               pdsize (fold_left place_base ds p) <= psize (fold_left place_base ds p)).
  { induction ds as [|d ds IH]; intros p Hd Hp; cbn [fold_left]; auto. inversion Hd; subst. apply IH; auto.
    cbn [place_base pdsize psize]. destruct (fempty d); lia. }
  assert (HM : forall ds p, pdsize p <= psize p ->
               pdsize (fold_left place_member ds p) <= psize (fold_left place_member ds p)).
  { induction ds as [|d ds IH]; intros p Hp; cbn [fold_left]; auto. apply IH.
    cbn [place_member pdsize psize]. lia. }
  cbn [layout fdsize fsize falign] in *.
  match goal with |- _ <= align_up ?n ?a => pose proof (align_up_ge n a Ha) end.
  match goal with |- pdsize (fold_left place_member ?x ?p) <= _ => pose proof (HM x p) as H2 end.
  assert (pdsize (fold_left place_base (map layout bs) nothing) <= psize (fold_left place_base (map layout bs) nothing)).
  { apply HB; auto. apply Forall_map. rewrite Forall_forall in *. auto. }
  specialize (H2 H0). lia.
Qed.

Lemma summary_proper t : real t -> proper_lay (sm t).
Proof.
  intros Hr. destruct (layout_whole t Hr) as (Ha & Hs & Hd). unfold proper_lay, summary. cbn [lsize lalign ldsize].
  split; [exact Hs|]. split; [exact Ha|]. split; [exact Hd|]. now apply layout_dsize.
Qed.

Lemma align_pow2 c : real c -> pow2 (falign (layout c)).
Proof.
  induction c as [s a|k args bs ms _ Hb Hm] using cls_ind'; intros Hr; [apply Hr|].
  apply real_class in Hr as [Hrb Hrm].
  assert (HB : forall ds p, Forall (fun d => pow2 (falign d)) ds -> pow2 (palign p) ->
               pow2 (palign (fold_left place_base ds p))).
  { induction ds as [|d ds IH]; intros p Hd Hp; cbn [fold_left]; auto. inversion Hd; subst. apply IH; auto.
    cbn [place_base palign]. now apply pow2_max. }
  assert (HM : forall ds p, Forall (fun d => pow2 (falign d)) ds -> pow2 (palign p) ->
               pow2 (palign (fold_left place_member ds p))).
  { induction ds as [|d ds IH]; intros p Hd Hp; cbn [fold_left]; auto. inversion Hd; subst. apply IH; auto.
    cbn [place_member palign]. now apply pow2_max. }
  cbn [layout falign]. apply HM; [apply Forall_map; rewrite Forall_forall in *; auto|].
  apply HB; [apply Forall_map; rewrite Forall_forall in *; auto|]. now exists 0.
Qed.

(** The class that stores an element. *)
Lemma neat_element tag t : real t ->
  neat (element_cls tag t) /\ sm (element_cls tag t) = element_lay true false (sm t) /\
  is_empty (element_cls tag t) = is_empty t /\
  forall x, heads (element_cls tag t) x ->
    if is_empty t then x = Class (KElem tag) [t] [] []
    else x = Class (KSelf tag) [t] [] [] \/ heads t x.
Proof.
  intros Hr. destruct (is_empty t) eqn:Et.
  - unfold element_cls at 1 2 3 4. rewrite Et. destruct (neat_lambda (KElem tag) [t]) as (H1 & H2 & H3 & H4).
    split; [exact H1|]. split; [|split; [exact H3|exact H4]].
    rewrite H2. unfold element_lay. cbn [summary lempty]. unfold is_empty in Et. now rewrite Et.
  - pose proof (element_solid_layout tag t Hr Et) as E.
    destruct (layout_whole t Hr) as (Ha & Hs & Hd).
    destruct (layout_good t Hr) as [(_ & Hin & _) _].
    split; [split|split; [|split]].
    + now apply real_element.
    + rewrite E. split; cbn [falign fdsize fsize fempty]; auto; try discriminate.
      * now apply align_pow2.
      * symmetry. replace (Nat.max 1 (fsize (layout t))) with (fsize (layout t)) by lia. now apply align_up_id.
    + unfold tight, is_empty. rewrite E. cbn [fempty fdsize fcomps]. constructor; [exact Hs|exact Hin].
    + pose proof (element_solid true false (sm t) (summary_proper t Hr) Et) as (B1 & B2 & B3 & B4).
      rewrite E. unfold summary at 1. cbn [fempty fdsize falign fsize].
      destruct (element_lay true false (sm t)) as [le ld la ls]. cbn in *. now subst.
    + unfold is_empty. now rewrite E.
    + intros x Hx. unfold heads in Hx. rewrite E in Hx. cbn [fcomps] in Hx. destruct Hx as [Hx|Hx]; [|now right].
      left. now injection Hx as <-.
Qed.

Lemma heads_weight t x : heads t x -> weight x <= weight t.
Proof. intros H. apply empties_weight. rewrite <- comps_empties. now apply (in_map fst) in H. Qed.

(** ** A class with one base *)
Lemma neat_wrap k args d : neat d ->
  let c := Class k args [d] [] in
  neat c /\ sm c = class_lay true [sm d] [] /\ is_empty c = is_empty d /\
  (is_empty d = false -> forall x, heads c x -> heads d x).
Proof.
  intros Hd c. destruct (apart_class k args [d]) as (H1 & H2 & H3 & H4).
  { constructor; auto. } { repeat constructor. }
  fold c in H1, H2, H3, H4.
  split; [exact H1|]. split; [exact H2|]. split; [rewrite H3; cbn; now rewrite andb_true_r|].
  intros He x Hx. destruct (H4 x Hx) as [[E _]|(l1 & b & l2 & E & Hb & _)].
  - rewrite H3 in E. cbn in E. rewrite He in E. discriminate.
  - destruct l1 as [|? l1]; [|destruct l1; discriminate]. cbn in E. now injection E as <- <-.
Qed.

(** ** Tuples *)
(** No element that is not empty begins with the lambda of an empty one. *)
Definition clear_tuple (ts : list cls) : Prop :=
  forall t u tag, In t ts -> In u ts -> is_empty t = true -> is_empty u = false -> ~ heads u (Class (KElem tag) [t] [] []).

Lemma elements_in ts : forall tag b, In b (elements_cls tag ts) ->
  exists i t, In t ts /\ b = element_cls i t /\ tag <= i.
Proof.
  induction ts as [|t ts IH]; intros tag b; cbn [elements_cls]; [intros []|]. intros [<-|H].
  - exists tag, t. split; [now left|]. split; [reflexivity|lia].
  - destruct (IH _ _ H) as (i & u & Hu & -> & Hi). exists i, u. split; [now right|]. split; [reflexivity|lia].
Qed.

Lemma elements_apart ts : Forall real ts -> clear_tuple ts -> forall tag, ForallOrdPairs apart (elements_cls tag ts).
Proof.
  intros Hr. induction Hr as [|t ts Hr Hrs IH]; intros Hc tag; cbn [elements_cls]; constructor.
  - apply Forall_forall. intros b Hb. destruct (elements_in ts (S tag) b Hb) as (i & u & Hu & -> & Hi).
    assert (Hru : real u) by (rewrite Forall_forall in Hrs; auto).
    destruct (neat_element tag t Hr) as (_ & _ & E1 & H1). destruct (neat_element i u Hru) as (_ & _ & E2 & H2).
    intros He x Hx1 Hx2. rewrite E1, E2 in He. apply H1 in Hx1. apply H2 in Hx2.
    destruct (is_empty t) eqn:Et, (is_empty u) eqn:Eu; try discriminate.
    + subst x. injection Hx2. lia.
    + subst x. destruct Hx2 as [Hx2|Hx2]; [discriminate|].
      apply (Hc t u tag) in Hx2; auto; [now left|now right].
    + subst x. destruct Hx1 as [Hx1|Hx1]; [discriminate|].
      apply (Hc u t i) in Hx1; auto; [now right|now left].
  - apply IH. intros a b n Ha Hb. apply Hc; now right.
Qed.

Lemma sm_elements ts : Forall real ts -> forall tag,
  map (fun d => sm d) (elements_cls tag ts) = map (element_lay true false) (map (fun t => sm t) ts).
Proof.
  induction 1 as [|t ts Hr _ IH]; intros tag; cbn [elements_cls map]; [reflexivity|].
  rewrite IH. f_equal. now apply neat_element.
Qed.
Lemma neat_elements ts : Forall real ts -> forall tag, Forall neat (elements_cls tag ts).
Proof. induction 1; intros tag; cbn; constructor; auto. now apply neat_element. Qed.
Lemma is_empty_elements ts : Forall real ts -> forall tag, forallb is_empty (elements_cls tag ts) = forallb is_empty ts.
Proof.
  induction 1 as [|t ts Hr _ IH]; intros tag; cbn [elements_cls forallb]; [reflexivity|].
  rewrite IH. f_equal. now apply neat_element.
Qed.

Lemma neat_tuple ts : Forall real ts -> clear_tuple ts ->
  neat (compressed_cls ts) /\ sm (compressed_cls ts) = compressed_tuple_lay true false (map (fun t => sm t) ts) /\
  is_empty (compressed_cls ts) = forallb is_empty ts /\
  (forallb is_empty ts = false -> forall x, heads (compressed_cls ts) x ->
     exists i t, In t ts /\ ((is_empty t = true /\ x = Class (KElem i) [t] [] []) \/ x = Class (KSelf i) [t] [] [] \/ (is_empty t = false /\ heads t x))).
Proof.
  intros Hr Hc.
  destruct (apart_class KOverload [] (elements_cls 0 ts) (neat_elements ts Hr 0) (elements_apart ts Hr Hc 0)) as (O1 & O2 & O3 & O4).
  destruct (neat_wrap KRecursive [] _ O1) as (R1 & R2 & R3 & R4).
  destruct (neat_wrap KCompressed ts _ R1) as (C1 & C2 & C3 & C4).
  rewrite (is_empty_elements ts Hr) in O3. rewrite O3 in R3, R4. rewrite R3 in C3, C4.
  split; [exact C1|]. split; [|split; [exact C3|]].
  - unfold compressed_cls, recursive_cls, overload_cls. rewrite C2, R2, O2. rewrite (sm_elements ts Hr). reflexivity.
  - intros He x Hx. apply C4 in Hx; auto. apply R4 in Hx; auto.
    destruct (O4 x Hx) as [[E _]|(l1 & b & l2 & E & Hb & _)]; [rewrite O3, He in E; discriminate|].
    assert (Hin : In b (elements_cls 0 ts)) by (rewrite E; apply in_or_app; right; now left).
    destruct (elements_in ts 0 b Hin) as (i & t & Ht & -> & _).
    assert (Hrt : real t) by (rewrite Forall_forall in Hr; auto).
    destruct (neat_element i t Hrt) as (_ & _ & _ & H). apply H in Hb. exists i, t. split; [exact Ht|].
    destruct (is_empty t); tauto.
Qed.

Lemma clear_one t : clear_tuple [t].
Proof. intros a b n [<-|[]] [<-|[]]; congruence. Qed.

(** ** Binders *)
Definition quiet (f t : cls) : Prop :=
  if is_empty f then (if is_empty t then True else ~ heads t (Class (KElem 0) [f] [] []))
  else Forall (fun c => match c with Class (KUser _) _ _ _ => True | _ => False end) (empties f).

Lemma heads_user f x : Forall (fun c => match c with Class (KUser _) _ _ _ => True | _ => False end) (empties f) ->
  heads f x -> exists n a b m, x = Class (KUser n) a b m.
Proof.
  intros H Hx. unfold heads in Hx. apply (in_map fst) in Hx. rewrite comps_empties in Hx. cbn [fst] in Hx.
  rewrite Forall_forall in H. apply H in Hx. destruct x as [|[] ? ? ?]; try contradiction. eauto 6.
Qed.

Lemma neat_bind n f t : real f -> real t -> quiet f t ->
  let c := bind_cls (KLambda n) f t in
  neat c /\ sm c = bind_tuple_lay true false (sm f) (sm t) /\ is_empty c = is_empty f && is_empty t /\
  (is_empty c = false -> forall x, heads c x ->
     x = Class (KLambda n) [f; t] [] [] \/
     (if is_empty f then x = Class (KElem 0) [f] [] [] else x = Class (KSelf 0) [f] [] [] \/ heads f x) \/
     (if is_empty t then x = Class (KElem 1) [t] [] []
      else is_empty f = true /\ (x = Class (KSelf 1) [t] [] [] \/ heads t x))).
Proof.
  intros Hf Ht Hq c.
  destruct (neat_element 0 f Hf) as (F1 & F2 & F3 & F4). destruct (neat_element 1 t Ht) as (T1 & T2 & T3 & T4).
  destruct (neat_lambda (KLambda n) [f; t]) as (L1 & L2 & L3 & L4).
  assert (Hlf : forall x, x = Class (KLambda n) [f; t] [] [] -> ~ heads f x).
  { intros x -> Hx. apply heads_weight in Hx. cbn in Hx. lia. }
  assert (Hlt : forall x, x = Class (KLambda n) [f; t] [] [] -> ~ heads t x).
  { intros x -> Hx. apply heads_weight in Hx. cbn in Hx. lia. }
  assert (A1 : apart (element_cls 0 f) (element_cls 1 t)).
  { intros He x Hx Hy. rewrite F3, T3 in He. apply F4 in Hx. apply T4 in Hy. unfold quiet in Hq.
    destruct (is_empty f) eqn:Ef, (is_empty t) eqn:Et; try discriminate.
    - subst x. discriminate.
    - subst x. destruct Hy as [Hy|Hy]; [discriminate|]. contradiction.
    - subst x. destruct Hx as [Hx|Hx]; [discriminate|]. apply heads_user in Hx; [|exact Hq].
      destruct Hx as (? & ? & ? & ? & Hx). discriminate. }
  assert (A2 : apart (element_cls 0 f) (Class (KLambda n) [f; t] [] [])).
  { intros _ x Hx Hy. apply F4 in Hx. apply L4 in Hy. destruct (is_empty f); [congruence|].
    destruct Hx as [Hx|Hx]; [congruence|]. now apply (Hlf x). }
  assert (A3 : apart (element_cls 1 t) (Class (KLambda n) [f; t] [] [])).
  { intros _ x Hx Hy. apply T4 in Hx. apply L4 in Hy. destruct (is_empty t); [congruence|].
    destruct Hx as [Hx|Hx]; [congruence|]. now apply (Hlt x). }
  destruct (apart_class KOverload [] [element_cls 0 f; element_cls 1 t; Class (KLambda n) [f; t] [] []]) as (O1 & O2 & O3 & O4).
  { repeat (constructor; auto). }
  { repeat (constructor; auto). }
  destruct (neat_wrap KRecursive [] _ O1) as (R1 & R2 & R3 & R4).
  assert (Ee : is_empty c = is_empty f && is_empty t).
  { unfold c, bind_cls, recursive_cls, overload_cls. rewrite R3, O3. cbn [forallb]. rewrite F3, T3, L3. now rewrite !andb_true_r. }
  split; [exact R1|]. split; [|split; [exact Ee|]].
  - unfold c, bind_cls, recursive_cls, overload_cls. rewrite R2, O2. cbn [map]. now rewrite F2, T2, L2.
  - intros He x Hx. assert (He2 := He). unfold c, bind_cls, recursive_cls, overload_cls in He2. rewrite R3 in He2.
    unfold c, bind_cls, recursive_cls, overload_cls in Hx. apply R4 in Hx; [|exact He2].
    destruct (O4 x Hx) as [[E _]|(l1 & b & l2 & E & Hb & Hfirst)]; [congruence|].
    destruct l1 as [|b1 l1]; [|destruct l1 as [|b2 l1]; [|destruct l1 as [|b3 l1]; [|destruct l1; discriminate]]]; cbn in E.
    + injection E as <- _. right. left. now apply F4 in Hb.
    + injection E as <- <- _. right. right. apply T4 in Hb. cbn in Hfirst. rewrite F3, T3, andb_true_r in Hfirst.
      destruct (is_empty t); [exact Hb|]. destruct Hfirst as [Hfirst|Hfirst]; [discriminate|]. auto.
    + injection E as <- <- <- _. left. now apply L4 in Hb.
Qed.

(** ** Lazy functions *)
(** What objects made by pigro may begin with. *)
Definition decent (x : cls) : Prop :=
  match x with
  | Class (KUser _) _ _ _ | Class (KSelf _) _ _ _ => True
  | Class (KLambda n) _ _ _ => n = 0 \/ n = 1 \/ n = 6
  | Class (KElem _) [Class KRecursive _ _ _] _ _ => False
  | Class (KElem _) _ _ _ => True
  | _ => False
  end.

Definition recursive_type (t : cls) : Prop := match t with Class KRecursive _ _ _ => True | _ => False end.

(** A part of a lazy function, as it is stored. *)
Record part (t : cls) : Prop := {
  pt_neat : neat t;
  pt_rec : recursive_type t;
  pt_heads : is_empty t = false -> forall x, heads t x -> decent x }.

Lemma parts_clear ts : Forall part ts -> clear_tuple ts.
Proof.
  intros H t u tag Ht Hu He Hn Hh. rewrite Forall_forall in H.
  pose proof (pt_heads _ (H u Hu) Hn _ Hh) as Hd. pose proof (pt_rec _ (H t Ht)) as Hr.
  cbn in Hd. destruct t as [|[] ? ? ?]; try contradiction.
Qed.

(** A binder of a stateless lambda that is instantiated with what the tuple holds. *)
Lemma part_stateless n k ts : n = 0 \/ n = 1 -> Forall real ts -> clear_tuple ts ->
  (forall t, In t ts -> is_empty t = true -> ~ recursive_type t \/ forallb is_empty ts = true) ->
  (forall t, In t ts -> is_empty t = false -> forall x, heads t x -> decent x) ->
  part (bind_cls (KLambda n) (Class (KLambda k) ts [] []) (compressed_cls ts)) /\
  sm (bind_cls (KLambda n) (Class (KLambda k) ts [] []) (compressed_cls ts)) =
    bind_tuple_lay true false (closure true []) (compressed_tuple_lay true false (map (fun t => sm t) ts)) /\
  is_empty (bind_cls (KLambda n) (Class (KLambda k) ts [] []) (compressed_cls ts)) = forallb is_empty ts /\
  (forallb is_empty ts = false -> forall x,
     heads (bind_cls (KLambda n) (Class (KLambda k) ts [] []) (compressed_cls ts)) x ->
     x = Class (KLambda n) [Class (KLambda k) ts [] []; compressed_cls ts] [] [] \/
     match x with Class (KElem _) _ _ _ | Class (KSelf _) _ _ _ => True | _ => False end \/
     exists t, In t ts /\ heads t x).
Proof.
  intros Hn Hr Hc Hrec Hdec.
  destruct (neat_lambda (KLambda k) ts) as (L1 & L2 & L3 & L4).
  destruct (neat_tuple ts Hr Hc) as (T1 & T2 & T3 & T4).
  destruct (neat_bind n (Class (KLambda k) ts [] []) (compressed_cls ts)) as (B1 & B2 & B3 & B4).
  - apply L1.
  - apply T1.
  - unfold quiet. rewrite L3, T3. destruct (forallb is_empty ts) eqn:E; [exact I|].
    intros Hx. destruct (T4 eq_refl _ Hx) as (i & t & Ht & Hx').
    apply in_weight in Ht. destruct Hx' as [[_ Hx']|[Hx'|[_ Hx']]].
    + injection Hx' as _ Et. rewrite <- Et in Ht. cbn in Ht. lia.
    + discriminate.
    + apply heads_weight in Hx'. cbn in Hx'. lia.
  - rewrite L3, T3 in B3. cbn [andb] in B3.
    split; [|split; [now rewrite B2, L2, T2|split; [exact B3|]]].
    2: { intros He x Hx. apply B4 in Hx; [|now rewrite B3]. rewrite L3, T3, He in Hx.
         destruct Hx as [->|[->|[_ [->|Hx]]]]; [now left|right; left; exact I..|].
         destruct (T4 He _ Hx) as (i & t & Ht & [[_ ->]|[->|[_ Hx']]]); right; [left; exact I..|right; eauto]. }
    split; [exact B1|exact I|]. intros He x Hx. apply B4 in Hx; [|exact He]. rewrite L3 in Hx. rewrite B3 in He.
    rewrite T3, He in Hx. destruct Hx as [->|[->|[_ [->|Hx]]]].
    + cbn. destruct Hn; auto.
    + exact I.
    + exact I.
    + destruct (T4 He _ Hx) as (i & t & Ht & [[Hem ->]|[->|[Hne Hx']]]); [|exact I|eapply Hdec; eauto].
      destruct (Hrec t Ht Hem) as [Hr'|Hr']; [|congruence]. cbn.
      destruct t as [|[] ? ? ?]; auto. now destruct Hr'.
Qed.

(** lazy.h:46-67 *)
Lemma part_core cache f deps : user_type cache -> is_empty cache = false -> Forall part (f :: deps) ->
  part (lazy_core_cls cache f deps) /\
  sm (lazy_core_cls cache f deps) = lazy_core_lay true false (sm cache) (sm f) (map (fun d => sm d) deps) /\
  is_empty (lazy_core_cls cache f deps) = false.
Proof.
  intros [Hrc Huc] Hce Hp.
  assert (Hr : Forall real (f :: deps)) by (eapply Forall_impl; [|exact Hp]; now intros ? [[] _ _]).
  destruct (neat_tuple (f :: deps) Hr (parts_clear _ Hp)) as (T1 & T2 & T3 & T4).
  set (lam := Class lazy_lambda (f :: deps) [] [cache]).
  assert (El : layout lam = mkFull false (fsize (layout cache)) (falign (layout cache)) (fsize (layout cache)) (fcomps (layout cache)) [0])
    by now apply one_member.
  assert (Hle : is_empty lam = false) by (unfold is_empty; now rewrite El).
  assert (Hrl : real lam) by (apply real_class; auto).
  assert (Hul : Forall (fun c => match c with Class (KUser _) _ _ _ => True | _ => False end) (empties lam)).
  { rewrite <- comps_empties, El. cbn [fcomps]. now rewrite comps_empties. }
  destruct (neat_bind 1 lam (compressed_cls (f :: deps)) Hrl (nt_real _ T1)) as (B1 & B2 & B3 & B4).
  { unfold quiet. now rewrite Hle. }
  rewrite Hle in B3. cbn [andb] in B3.
  split; [|split; [|exact B3]].
  - split; [exact B1|exact I|]. intros He x Hx. apply B4 in Hx; [|exact He]. rewrite Hle in Hx.
    destruct Hx as [->|[[->|Hx]|Hx]].
    + cbn. auto.
    + exact I.
    + apply heads_user in Hx; [|exact Hul]. destruct Hx as (? & ? & ? & ? & ->). exact I.
    + destruct (is_empty (compressed_cls (f :: deps))); [subst x; exact I|]. destruct Hx as [Hx _]. discriminate.
  - unfold lazy_core_cls, back_lambda. fold lam. rewrite B2, T2. unfold lazy_core_lay. cbn [map]. f_equal.
    rewrite El. unfold closure. destruct (struct1 true (sm cache) (summary_proper cache Hrc)) as (S1 & S2 & S3).
    unfold summary at 1. cbn [fempty fdsize falign fsize].
    transitivity (mkLay false (ldsize (class_lay true [] [sm cache])) (lalign (class_lay true [] [sm cache])) (lsize (class_lay true [] [sm cache])));
      [now rewrite S1, S2, S3|reflexivity].
Qed.

Lemma part_one n k t : n = 0 \/ n = 1 -> real t -> (is_empty t = false -> forall x, heads t x -> decent x) ->
  part (bind_cls (KLambda n) (Class (KLambda k) [t] [] []) (compressed_cls [t])) /\
  sm (bind_cls (KLambda n) (Class (KLambda k) [t] [] []) (compressed_cls [t])) =
    bind_tuple_lay true false (closure true []) (compressed_tuple_lay true false [sm t]) /\
  is_empty (bind_cls (KLambda n) (Class (KLambda k) [t] [] []) (compressed_cls [t])) = is_empty t /\
  (is_empty t = false -> forall x,
     heads (bind_cls (KLambda n) (Class (KLambda k) [t] [] []) (compressed_cls [t])) x ->
     x = Class (KLambda n) [Class (KLambda k) [t] [] []; compressed_cls [t]] [] [] \/
     match x with Class (KElem _) _ _ _ | Class (KSelf _) _ _ _ => True | _ => False end \/ heads t x).
Proof.
  intros Hn Hr Hd. destruct (part_stateless n k [t] Hn) as (H1 & H2 & H3 & H4).
  - auto.
  - apply clear_one.
  - intros u [<-|[]] He. right. cbn. now rewrite He.
  - intros u [<-|[]]. exact Hd.
  - split; [exact H1|]. split; [exact H2|]. split; [rewrite H3; cbn; now rewrite andb_true_r|].
    intros He x Hx. destruct (H4 ltac:(cbn; now rewrite He) x Hx) as [Hx'|[Hx'|(u & [<-|[]] & Hx')]]; auto.
Qed.

Lemma user_decent t : user_type t -> forall x, heads t x -> decent x.
Proof. intros [_ Hu] x Hx. apply heads_user in Hx; [|exact Hu]. destruct Hx as (? & ? & ? & ? & ->). exact I. Qed.

Lemma part_value v n : user_type v ->
  let flag := Class (KStd n) [] [] [] in
  part (lazy_value_cls v flag) /\ sm (lazy_value_cls v flag) = lazy_value_lay true false (sm v) /\
  is_empty (lazy_value_cls v flag) = is_empty v.
Proof.
  intros Hv flag. destruct (neat_lambda (KStd n) []) as (F1 & F2 & F3 & F4).
  destruct (part_stateless 1 7 [v; flag]) as (H1 & H2 & H3 & _).
  - auto.
  - constructor; [apply Hv|]. constructor; [apply F1|constructor].
  - intros t u tag [<-|[<-|[]]] [<-|[<-|[]]] He Hne Hx; try (unfold flag in *; congruence).
    apply heads_user in Hx; [|apply Hv]. destruct Hx as (? & ? & ? & ? & Hx). discriminate.
  - intros t [<-|[<-|[]]] He; [|left; intros []]. right. cbn [forallb]. rewrite He. unfold flag. now rewrite F3.
  - intros t [<-|[<-|[]]] He; [now apply user_decent|]. unfold flag in He. congruence.
  - split; [exact H1|]. split.
    + unfold lazy_value_cls, back_lambda, value_lambda. rewrite H2. cbn [map]. unfold flag. rewrite F2. reflexivity.
    + unfold lazy_value_cls, back_lambda, value_lambda. rewrite H3. cbn [forallb]. unfold flag. rewrite F3. now rewrite !andb_true_r.
Qed.

(** lazy.h:35-44 and lazy.h:101-102 *)
Lemma part_unwrap f : part f -> is_empty f = false ->
  part (unwrap_cls f) /\ sm (unwrap_cls f) = unwrap_lay true false (sm f) /\ is_empty (unwrap_cls f) = false.
Proof.
  intros Hp He. set (b := bind_cls back_lambda (Class nullptr_lambda [f] [] []) (compressed_cls [f])).
  destruct (part_one 1 5 f) as (B1 & B2 & B3 & B4); [auto|apply Hp|apply Hp|].
  fold back_lambda nullptr_lambda in B1, B2, B3, B4. fold b in B1, B2, B3, B4. rewrite He in B3.
  assert (Eu : unwrap_cls f = Class KRecursive [] [Class KOverload [] [b; Class unwrap_lambda [f] [] []] []] []) by reflexivity.
  rewrite Eu. clear Eu.
  assert (B4' : ~ heads b (Class unwrap_lambda [f] [] [])).
  { intros Hx. destruct (B4 He _ Hx) as [Hx'|[Hx'|Hx']]; [discriminate|exact Hx'|]. apply heads_weight in Hx'. cbn in Hx'. lia. }
  clear B4. clearbody b.
  destruct (neat_lambda unwrap_lambda [f]) as (L1 & L2 & L3 & L4).
  destruct (apart_class KOverload [] [b; Class unwrap_lambda [f] [] []]) as (O1 & O2 & O3 & O4).
  { constructor; [apply B1|]. constructor; auto. }
  { constructor; [|repeat constructor]. constructor; [|constructor]. intros _ x Hx Hy. apply L4 in Hy. subst x. contradiction. }
  destruct (neat_wrap KRecursive [] _ O1) as (R1 & R2 & R3 & R4).
  assert (Ho : is_empty (Class KOverload [] [b; Class unwrap_lambda [f] [] []] []) = false) by (rewrite O3; cbn [forallb]; now rewrite B3).
  rewrite Ho in R3, R4.
  split; [|split; [|exact R3]].
  - split; [exact R1|exact I|]. intros _ x Hx. apply (R4 eq_refl) in Hx.
    destruct (O4 x Hx) as [[E _]|(l1 & d & l2 & E & Hd & _)]; [congruence|].
    destruct l1 as [|d1 l1]; [|destruct l1 as [|d2 l1]; [|destruct l1; discriminate]]; cbn in E; injection E.
    + intros _ <-. now apply (pt_heads _ B1).
    + intros _ <- _. apply L4 in Hd. subst x. cbn. auto.
  - rewrite R2, O2. cbn [map]. now rewrite B2, L2.
Qed.

Lemma user_types_all (l : list lazy_type) :
  (fix all (l : list lazy_type) : Prop := match l with [] => True | x :: l' => user_types x /\ all l' end) l <->
  Forall user_types l.
Proof.
  induction l as [|x l IH]; split; auto.
  - intros [H1 H2]. constructor; auto. now apply IH.
  - intros H. inversion H; subst. split; auto. now apply IH.
Qed.

Section Ind.
  Variable P : lazy_type -> Prop.
  Hypothesis Hl : forall cache f deps, Forall P deps -> P (TLazy cache f deps).
  Hypothesis Hp : forall cache g, P (TPlain cache g).
  Hypothesis Hv : forall v, P (TValue v).
  Fixpoint lazy_type_ind' (t : lazy_type) : P t :=
    match t with
    | TLazy cache f deps =>
        Hl cache f deps ((fix all (l : list lazy_type) : Forall P l :=
          match l with [] => Forall_nil P | x :: l' => Forall_cons x (lazy_type_ind' x) (all l') end) deps)
    | TPlain cache g => Hp cache g
    | TValue v => Hv v
    end.
End Ind.

Lemma type_part int t : user_type int -> user_types t ->
  part (type_cls int t) /\ sm (type_cls int t) = ensure_lazy_lay true false (sm int) (type_lay int t).
Proof.
  intros Hi. induction t as [cache f deps IH|cache g|v] using lazy_type_ind'; intros Hu.
  - destruct Hu as (Hc & Hce & Hf & Hd). apply user_types_all in Hd. cbn [type_cls type_lay ensure_lazy_lay].
    assert (Hd2 : Forall (fun t => part (type_cls int t) /\ sm (type_cls int t) = ensure_lazy_lay true false (sm int) (type_lay int t)) deps).
    { rewrite Forall_forall in *. auto. }
    destruct (part_one 0 2 f) as (F1 & F2 & F3 & _); [auto|apply Hf|intros _; now apply user_decent|].
    fold front_lambda regularized_lambda in F1, F2, F3.
    fold (void_adapter_cls regularized_lambda f) in F1, F2, F3.
    destruct (part_core cache (void_adapter_cls regularized_lambda f) (map (type_cls int) deps) Hc Hce) as (C1 & C2 & C3).
    { constructor; [exact F1|]. apply Forall_map. eapply Forall_impl; [|exact Hd2]. now intros ? []. }
    destruct (part_unwrap _ C1 C3) as (U1 & U2 & U3).
    destruct (part_one 0 3 _ (or_introl eq_refl) (nt_real _ (pt_neat _ U1)) (pt_heads _ U1)) as (V1 & V2 & _).
    split; [exact V1|]. unfold lazy_cls, void_adapter_cls at 1, front_lambda, unregularized_lambda. rewrite V2.
    rewrite U2, C2, F2. unfold user_lazy_lay, lazy_lay, void_adapter_lay. do 3 f_equal.
    rewrite !map_map. f_equal. f_equal. apply map_ext_Forall. eapply Forall_impl; [|exact Hd2]. now intros ? [].
  - destruct Hu as (Hc & Hce & Hg). cbn [type_cls type_lay ensure_lazy_lay].
    destruct (part_one 1 8 g) as (F1 & F2 & F3 & _); [auto|apply Hg|intros _; now apply user_decent|].
    fold back_lambda sample_lambda in F1, F2, F3.
    destruct (part_value int 0 Hi) as (V1 & V2 & _). fold true_type in V1, V2.
    destruct (part_core cache _ [lazy_value_cls int true_type] Hc Hce (Forall_cons _ F1 (Forall_cons _ V1 (Forall_nil _)))) as (C1 & C2 & _).
    split; [exact C1|]. unfold sampled_cls. rewrite C2, F2. cbn [map]. now rewrite V2.
  - cbn [type_cls type_lay ensure_lazy_lay]. destruct (part_value v 1 Hu) as (V1 & V2 & _). auto.
Qed.

Lemma lazy_layout int t : user_type int -> user_types t ->
  summary (layout (type_cls int t)) = ensure_lazy_lay true false (summary (layout int)) (type_lay int t).
Proof. intros Hi Hu. now apply type_part. Qed.

(** ** Sizes *)
Lemma same_bytes l m : same_lay l m -> bytes l = bytes m.
Proof. intros (H1 & H2 & _). unfold bytes. now rewrite H1, H2. Qed.

Lemma same_aligned a l m : same_lay l m -> aligned a m -> aligned a l.
Proof. intros (H1 & _ & H3) [H|H]; [left|right]; congruence. Qed.

Lemma stored_bytes t : bytes (as_stored true t) = bytes t.
Proof. unfold bytes. rewrite as_stored_empty. unfold as_stored. now destruct (lempty t). Qed.

Lemma stored_aligned a t : aligned a t -> aligned a (as_stored true t).
Proof. unfold aligned. rewrite as_stored_empty. unfold as_stored. destruct (lempty t); auto. Qed.

Lemma core_space cache f deps : proper_lay cache -> lempty cache = false -> Forall proper_lay (f :: deps) ->
  bytes cache + Footprint.sum (map bytes (f :: deps)) <= bytes (lazy_core_lay true false cache f deps) /\
  (forall a, 0 < a -> Forall (aligned a) (cache :: f :: deps) ->
   bytes (lazy_core_lay true false cache f deps) = bytes cache + Footprint.sum (map bytes (f :: deps)) /\
   aligned a (lazy_core_lay true false cache f deps)).
Proof.
  intros Hc Hce Hp.
  pose proof (core_same true false cache f deps Hc Hce (Forall_inv Hp) (Forall_inv_tail Hp)) as Hs.
  set (st := plain_struct true (filter solid (f :: deps))) in *.
  assert (Hlow : Footprint.sum (map bytes (f :: deps)) <= lsize st).
  { rewrite <- sum_bytes. apply struct_at_least. now apply filter_proper. }
  assert (Hb : bytes cache = lsize cache) by (unfold bytes; now rewrite Hce).
  assert (Hps : proper_lay st) by apply class_proper.
  set (S := Footprint.sum (map bytes (f :: deps))) in *.
  set (ms := cache :: (if forallb lempty (f :: deps) then [] else [st])) in *.
  assert (Hm : Forall proper_lay ms).
  { unfold ms. constructor; auto. destruct (forallb lempty (f :: deps)); auto. }
  assert (Hbm : bytes (plain_struct true ms) = lsize (plain_struct true ms)) by reflexivity.
  rewrite (same_bytes _ _ Hs), Hbm, Hb. split.
  - refine (Nat.le_trans _ _ _ _ (struct_at_least true ms Hm)). unfold ms.
    destruct (forallb lempty (f :: deps)) eqn:E; cbn [map Footprint.sum fold_right]; [|lia].
    unfold S. rewrite (all_empty_bytes _ E). lia.
  - intros a Ha Hal.
    assert (Hca : lalign cache = a) by (inversion Hal as [|? ? [H|H] _]; congruence).
    assert (Hms : Footprint.sum (map lsize ms) = lsize cache + S /\ Forall (fun t => lalign t = a) ms).
    { unfold ms. destruct (forallb lempty (f :: deps)) eqn:E; cbn [map Footprint.sum fold_right].
      - unfold S. rewrite (all_empty_bytes _ E). auto.
      - destruct (uniform_struct true a (filter solid (f :: deps))) as [E1 E2]; auto.
        + intros En. pose proof (struct_empty true (f :: deps)) as H. rewrite En, E in H. discriminate.
        + now apply filter_proper.
        + apply filter_aligned. now inversion Hal.
        + fold st in E1, E2. rewrite sum_bytes in E1. fold S in E1. split; [lia|auto]. }
    destruct Hms as [H1 H2]. destruct (uniform_struct true a ms) as [E1 E2]; auto; [discriminate|].
    split; [now rewrite E1|]. eapply same_aligned; [exact Hs|]. now right.
Qed.

Lemma one_space t : proper_lay t ->
  bytes (bind_tuple_lay true false (closure true []) (compressed_tuple_lay true false [t])) = bytes t /\
  (forall a, aligned a t -> aligned a (bind_tuple_lay true false (closure true []) (compressed_tuple_lay true false [t]))).
Proof.
  intros H. pose proof (bind_one_same true false t H) as Hs. split.
  - now rewrite (same_bytes _ _ Hs), stored_bytes.
  - intros a Ha. eapply same_aligned; [exact Hs|]. now apply stored_aligned.
Qed.

Lemma value_space v : proper_lay v ->
  bytes (lazy_value_lay true false v) = bytes v /\
  (forall a, aligned a v -> aligned a (lazy_value_lay true false v)).
Proof.
  intros H. pose proof (lazy_value_same true false v H) as Hs. split.
  - now rewrite (same_bytes _ _ Hs), stored_bytes.
  - intros a Ha. eapply same_aligned; [exact Hs|]. now apply stored_aligned.
Qed.

(** What is kept, as [Layout.v] has it. *)
Definition kept_lay int t := map (fun c => sm c) (kept int t).

Definition spacious (int : cls) (t : lazy_type) : Prop :=
  let l := ensure_lazy_lay true false (sm int) (type_lay int t) in
  let total := Footprint.sum (map bytes (kept_lay int t)) in
  proper_lay l /\ total <= bytes l /\
  (forall a, 0 < a -> Forall (aligned a) (kept_lay int t) -> bytes l = total /\ aligned a l).

Lemma deps_space int deps : Forall (spacious int) deps ->
  let ls := map (fun t => ensure_lazy_lay true false (sm int) (type_lay int t)) deps in
  let ks := map (fun c => sm c) (flat_map (kept int) deps) in
  Forall proper_lay ls /\ Footprint.sum (map bytes ks) <= Footprint.sum (map bytes ls) /\
  (forall a, 0 < a -> Forall (aligned a) ks ->
     Footprint.sum (map bytes ls) = Footprint.sum (map bytes ks) /\ Forall (aligned a) ls).
Proof.
  induction 1 as [|d deps (H1 & H2 & H3) _ IH]; intros ls ks.
  - split; [constructor|]. split; [apply Nat.le_refl|]. intros a _ _. split; [reflexivity|constructor].
  - cbn zeta in IH. destruct IH as (I1 & I2 & I3). unfold ls, ks. cbn [map flat_map].
    rewrite map_app, map_app, sum_app. cbn [Footprint.sum fold_right].
    fold (Footprint.sum (map bytes (map (fun t => ensure_lazy_lay true false (sm int) (type_lay int t)) deps))).
    fold (kept_lay int d).
    split; [constructor; auto|]. split; [lia|]. intros a Ha Hal. apply Forall_app in Hal. destruct Hal as [A1 A2].
    destruct (H3 a Ha A1) as [E1 E2]. destruct (I3 a Ha A2) as [E3 E4]. split; [lia|]. now constructor.
Qed.

Lemma type_space int t : user_type int -> user_types t -> spacious int t.
Proof.
  intros Hi. induction t as [cache f deps IH|cache g|v] using lazy_type_ind'; intros Hu; unfold spacious, kept_lay.
  - destruct Hu as (Hc & Hce & Hf & Hd). apply user_types_all in Hd. cbn [type_lay ensure_lazy_lay kept map].
    assert (Hd2 : Forall (spacious int) deps) by (rewrite Forall_forall in *; auto).
    destruct (deps_space int deps Hd2) as (D1 & D2 & D3). clear IH Hd Hd2.
    unfold user_lazy_lay, lazy_lay. rewrite map_map.
    set (ls := map (fun t => ensure_lazy_lay true false (sm int) (type_lay int t)) deps) in *.
    set (ks := map (fun c => sm c) (flat_map (kept int) deps)) in *.
    pose proof (summary_proper _ (proj1 Hc)) as Pc. pose proof (summary_proper _ (proj1 Hf)) as Pf.
    destruct (one_space (sm f) Pf) as [F1 F2]. fold (void_adapter_lay true false (sm f)) in F1, F2.
    set (vf := void_adapter_lay true false (sm f)) in *.
    assert (Pv : proper_lay vf) by apply class_proper.
    destruct (core_space (sm cache) vf ls Pc Hce (Forall_cons _ Pv D1)) as [C1 C2].
    assert (Ce : lempty (lazy_core_lay true false (sm cache) vf ls) = false) by apply lazy_core_empty.
    assert (Cp : proper_lay (lazy_core_lay true false (sm cache) vf ls)) by apply class_proper.
    set (core := lazy_core_lay true false (sm cache) vf ls) in *.
    pose proof (unwrap_same true false core Cp Ce) as Us.
    assert (Up : proper_lay (unwrap_lay true false core)) by apply class_proper.
    destruct (one_space _ Up) as [O1 O2].
    change (void_adapter_lay true false (unwrap_lay true false core)) with
      (bind_tuple_lay true false (closure true []) (compressed_tuple_lay true false [unwrap_lay true false core])).
    rewrite O1, (same_bytes _ _ Us). cbn [map Footprint.sum fold_right] in *.
    fold (Footprint.sum (map bytes ks)). fold (Footprint.sum (map bytes ls)) in C1, C2.
    split; [apply class_proper|]. split; [lia|]. intros a Ha Hal.
    inversion Hal as [|? ? A1 Hal']; subst. inversion Hal' as [|? ? A2 A3]; subst.
    destruct (D3 a Ha A3) as [E1 E2].
    destruct (C2 a Ha) as [E3 E4]; [repeat (constructor; auto)|].
    split; [lia|]. apply O2. eapply same_aligned; eauto.
  - destruct Hu as (Hc & Hce & Hg). cbn [type_lay ensure_lazy_lay kept map].
    pose proof (summary_proper _ (proj1 Hc)) as Pc. pose proof (summary_proper _ (proj1 Hg)) as Pg.
    pose proof (summary_proper _ (proj1 Hi)) as Pi.
    destruct (one_space (sm g) Pg) as [F1 F2]. destruct (value_space (sm int) Pi) as [V1 V2].
    set (b := bind_tuple_lay true false (closure true []) (compressed_tuple_lay true false [sm g])) in *.
    assert (Pb : proper_lay b) by apply class_proper.
    assert (Pv : proper_lay (lazy_value_lay true false (sm int))) by apply class_proper.
    set (lv := lazy_value_lay true false (sm int)) in *.
    destruct (core_space (sm cache) b [lv] Pc Hce (Forall_cons _ Pb (Forall_cons _ Pv (Forall_nil _)))) as [C1 C2].
    cbn [map Footprint.sum fold_right] in *.
    split; [apply class_proper|]. split; [lia|]. intros a Ha Hal.
    inversion Hal as [|? ? A1 Hal']; subst. inversion Hal' as [|? ? A2 Hal'']; subst. inversion Hal'' as [|? ? A3 _]; subst.
    destruct (C2 a Ha) as [E3 E4]; [repeat (constructor; auto)|]. split; [lia|auto].
  - cbn [type_lay ensure_lazy_lay kept map]. pose proof (summary_proper _ (proj1 Hu)) as Pv.
    destruct (value_space (sm v) Pv) as [V1 V2]. cbn [Footprint.sum fold_right].
    split; [apply class_proper|]. split; [lia|]. intros a Ha Hal. inversion Hal; subst. split; [lia|auto].
Qed.

Lemma space_bytes t : space t = bytes (sm t).
Proof. reflexivity. Qed.

Lemma kept_at_least int t : user_type int -> user_types t ->
  list_sum (map space (kept int t)) <= space (type_cls int t).
Proof.
  intros Hi Hu. destruct (type_space int t Hi Hu) as (_ & H & _).
  rewrite space_bytes. rewrite (proj2 (type_part int t Hi Hu)).
  unfold kept_lay in H. rewrite map_map in H. exact H.
Qed.

Lemma kept_sum int t a : user_type int -> user_types t -> 0 < a ->
  (forall c, In c (kept int t) -> is_empty c = true \/ falign (layout c) = a) ->
  space (type_cls int t) = list_sum (map space (kept int t)).
Proof.
  intros Hi Hu Ha Hal. destruct (type_space int t Hi Hu) as (_ & _ & H).
  rewrite space_bytes. rewrite (proj2 (type_part int t Hi Hu)).
  destruct (H a Ha) as [E _].
  { unfold kept_lay. apply Forall_map. rewrite Forall_forall. exact Hal. }
  rewrite E. unfold kept_lay. rewrite map_map. reflexivity.
Qed.

Lemma lazy_not_empty int cache f deps : user_type int -> user_types (TLazy cache f deps) ->
  is_empty (type_cls int (TLazy cache f deps)) = false.
Proof.
  intros Hi Hu. pose proof (proj2 (type_part int _ Hi Hu)) as H. apply (f_equal lempty) in H.
  exact (eq_trans H (lazy_empty true false _ _ _)).
Qed.

(** A value whose classes are pigro's. *)
Lemma pigro_value :
  exists int v, user_type int /\ real v /\ is_empty v = false /\
    (forall c, In c (kept int (TValue v)) -> is_empty c = true \/ falign (layout c) = 4) /\
    space (type_cls int (TValue v)) <> list_sum (map space (kept int (TValue v))).
Proof.
  exists (Scalar 4 4), (compressed_cls [Scalar 4 4; false_type]).
  assert (H4 : real (Scalar 4 4)) by (split; [lia|]; split; [now exists 2|apply Nat.divide_refl]).
  split; [split; [exact H4|constructor]|].
  split; [apply real_compressed; constructor; [exact H4|]; constructor; [now apply real_class|constructor]|].
  split; [vm_compute; reflexivity|].
  split; [intros c [<-|[]]; right; vm_compute; reflexivity|].
  vm_compute. discriminate.
Qed.
