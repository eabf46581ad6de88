(** Proofs about the layouts of uncapture.h with class identities (C81). *)
From Coq Require Import List Bool Arith Lia.
From Verif Require Import Layout LayoutProofs Footprint ClassLayout ClassLayoutSpec ClassLayoutThms
  ClassLazySpec ClassLazyThms ClassUncapture ClassUncaptureSpec.
Import ListNotations.

(** ** Empty values over any function *)
Lemma empty_dsize c : is_empty c = true -> fdsize (layout c) = 0.
Proof.
  destruct c as [s a|k args bs ms]; [discriminate|]. unfold is_empty. cbn [layout fempty fdsize]. intros H.
  apply andb_true_iff in H as [H1 H2]. destruct ms; [|discriminate]. cbn [map fold_left].
  assert (G : forall l p, forallb fempty l = true -> pdsize (fold_left place_base l p) = pdsize p).
  { induction l as [|d l IH]; intros p H; auto. cbn in H. apply andb_true_iff in H as [Hd Hl]. cbn [fold_left].
    rewrite IH by exact Hl. unfold place_base. cbn [pdsize]. now rewrite Hd. }
  now rewrite G.
Qed.

Definition bounded (f : cls) : Prop :=
  forall x, In x (empties f) -> match x with Class (KUncaptured j) _ _ _ => j <= unique_tag f | _ => True end.

Lemma capture_empty t f : is_empty t = true -> real f -> bounded f ->
  real (capture_cls t f) /\ bounded (capture_cls t f) /\ sm (capture_cls t f) = sm f.
Proof.
  intros Ht Hf Hb. unfold capture_cls, uncaptured_cls. rewrite Ht.
  set (n := S (unique_tag f)). set (u := Class (KUncaptured n) [t] [] []).
  assert (Hu : ~ In u (empties f)).
  { intros Hu. apply Hb in Hu. cbn in Hu. unfold n in Hu. lia. }
  split; [|split].
  - apply real_class. split; [|constructor]. constructor; [now apply real_class|]. now constructor.
  - intros x Hx. cbn [unique_tag].
    change (In x ((empties u ++ empties f ++ []) ++ [] ++
      (if is_empty (Class (KInvocable n) [] [u; f] []) then [Class (KInvocable n) [] [u; f] []] else []))) in Hx.
    rewrite app_nil_r in Hx. cbn [app] in Hx. rewrite <- app_assoc in Hx.
    apply in_app_or in Hx as [Hx|Hx]; [|apply in_app_or in Hx as [Hx|Hx]].
    + cbn in Hx. destruct Hx as [<-|[]]. cbn. lia.
    + apply Hb in Hx. destruct x as [|[] ? ? ?]; auto. unfold n. lia.
    + destruct (is_empty (Class (KInvocable n) [] [u; f] [])); [|destruct Hx]. destruct Hx as [<-|[]]. exact I.
  - destruct (layout_whole f Hf) as (Ha & Hs & Hd).
    assert (Hc : conflict 0 (fcomps (layout f)) [(u, 0)] = false).
    { apply conflict_false. intros [x i] [y j] Hx [Hy|[]] E _. injection Hy as <- <-. cbn in E. subst x.
      apply Hu. rewrite <- comps_empties. now apply (in_map fst) in Hx. }
    assert (E : place_base (place_base nothing (layout u)) (layout f) =
      mkPart (fdsize (layout f)) (fsize (layout f)) (falign (layout f)) ((u, 0) :: shift 0 (fcomps (layout f))) [0; 0]).
    { change (place_base nothing (layout u)) with (mkPart 0 1 1 [(u, 0)] [0]).
      unfold place_base, next_offset. cbn [pdsize psize palign pcomps poffs].
      rewrite align_up_0 by exact Ha. rewrite search_stays by exact Hc.
      rewrite Hc. cbn [negb]. rewrite andb_true_r.
      replace (if fempty (layout f) then 0 else 0) with 0 by now destruct (fempty (layout f)).
      cbn [app Nat.add]. f_equal; [|lia|lia].
      destruct (fempty (layout f)) eqn:Ee; [|reflexivity]. symmetry. now apply empty_dsize. }
    unfold summary at 1. cbn [layout map fold_left forallb fempty fdsize falign fsize].
    change (fempty (layout u)) with true. rewrite E. cbn [pdsize palign psize andb].
    rewrite !andb_true_r. unfold summary. f_equal.
    rewrite Nat.max_r by lia. now apply align_up_id.
Qed.

Lemma chain_free ts f : forallb is_empty ts = true -> real f -> (forall x, In x (empties f) -> ~ uncapture_class x) ->
  sm (chain_cls ts f) = sm f.
Proof.
  intros Ht Hf Hu.
  assert (H : real (chain_cls ts f) /\ bounded (chain_cls ts f) /\ sm (chain_cls ts f) = sm f); [|apply H].
  induction ts as [|t ts IH]; cbn [chain_cls].
  - split; [exact Hf|]. split; [|reflexivity]. intros x Hx. apply Hu in Hx.
    destruct x as [|[] ? ? ?]; auto. now destruct Hx.
  - cbn in Ht. apply andb_true_iff in Ht as [Ht1 Ht2]. destruct (IH Ht2) as (H1 & H2 & H3).
    destruct (capture_empty t _ Ht1 H1 H2) as (H4 & H5 & H6). split; [exact H4|]. split; [exact H5|]. congruence.
Qed.

(** ** Any values over a lambda of the user *)
Lemma members_tight ds : Forall (fun d => 0 < falign d /\ 0 < fsize d /\ Forall (fun x => snd x < fsize d) (fcomps d)) ds ->
  forall p, psize p = pdsize p -> Forall (fun x => snd x < pdsize p) (pcomps p) ->
  let q := fold_left place_member ds p in
  psize q = pdsize q /\ Forall (fun x => snd x < pdsize q) (pcomps q) /\ pdsize p <= pdsize q /\
  (ds <> [] -> 0 < pdsize q).
Proof.
  induction 1 as [|d ds (Ha & Hs & Hd) _ IH]; intros p Hp Hc q; [split; auto; split; auto; split; auto; congruence|].
  unfold q. cbn [fold_left].
  assert (Ho : pdsize p <= next_offset p d).
  { unfold next_offset.
    assert (G : forall n o s a b, o <= search n o s a b).
    { induction n as [|n IHn]; intros o s a b; cbn [search]; auto. destruct (conflict o a b); auto.
      specialize (IHn (o + s) s a b). lia. }
    pose proof (align_up_ge (pdsize p) (falign d) Ha).
    match goal with |- _ <= search ?n ?o ?s ?a ?b => pose proof (G n o s a b) end. lia. }
  destruct (IH (place_member p d)) as (I1 & I2 & I3 & I4).
  - unfold place_member. cbn [psize pdsize]. lia.
  - unfold place_member. cbn [pdsize pcomps]. apply Forall_app. split.
    + eapply Forall_impl; [|exact Hc]. cbn beta. intros x. lia.
    + unfold shift. apply Forall_map. eapply Forall_impl; [|exact Hd]. cbn [snd]. intros x. lia.
  - split; [exact I1|]. split; [exact I2|]. assert (pdsize (place_member p d) = next_offset p d + fsize d) by reflexivity.
    split; [lia|]. intros _. lia.
Qed.

Lemma neat_user_lambda k args ms : Forall real ms -> neat (Class k args [] ms).
Proof.
  intros Hr. assert (Hrc : real (Class k args [] ms)) by (apply real_class; auto).
  destruct ms as [|m ms]; [apply neat_lambda|].
  destruct (members_tight (map layout (m :: ms))) with (p := nothing) as (M1 & M2 & _ & M4).
  - apply Forall_map. eapply Forall_impl; [|exact Hr]. intros d Hd.
    destruct (layout_whole d Hd) as (Ha & Hs & _). destruct (layout_good d Hd) as [(_ & Hin & _) _]. auto.
  - reflexivity.
  - constructor.
  - specialize (M4 ltac:(discriminate)).
    pose proof (align_pow2 _ Hrc) as Hp. pose proof (layout_dsize _ Hrc) as Hd.
    set (q := fold_left place_member (map layout (m :: ms)) nothing) in *.
    assert (E : layout (Class k args [] (m :: ms)) =
      mkFull false (pdsize q) (palign q) (align_up (Nat.max 1 (psize q)) (palign q)) (pcomps q) (poffs q)).
    { cbn [layout map fold_left forallb andb]. rewrite app_nil_r. reflexivity. }
    split; [exact Hrc| |].
    + rewrite E in *. cbn [fdsize fsize falign] in *. split; cbn [fdsize fsize falign fempty]; auto; try discriminate.
    + unfold tight, is_empty. rewrite E. exact M2.
Qed.

Lemma neat_uncaptured tag t : real t ->
  neat (uncaptured_cls tag t) /\ sm (uncaptured_cls tag t) = uncaptured_lay true (sm t) /\
  is_empty (uncaptured_cls tag t) = is_empty t /\
  (forall x, heads (uncaptured_cls tag t) x ->
    if is_empty t then x = Class (KUncaptured tag) [t] [] [] else heads t x).
Proof.
  intros Hr. unfold uncaptured_cls, uncaptured_lay. cbn [summary lempty]. change (fempty (layout t)) with (is_empty t).
  destruct (is_empty t) eqn:Et.
  - destruct (neat_lambda (KUncaptured tag) [t]) as (H1 & H2 & H3 & H4). auto.
  - split; [apply neat_user_lambda; auto|]. pose proof (one_member (KUncaptured tag) [t] t Hr) as E.
    split; [|split].
    + destruct (struct1 true (sm t) (summary_proper t Hr)) as (S1 & S2 & S3).
      rewrite E. unfold summary at 1. cbn [fempty fdsize falign fsize].
      transitivity (mkLay false (ldsize (class_lay true [] [sm t])) (lalign (class_lay true [] [sm t])) (lsize (class_lay true [] [sm t])));
        [now rewrite S1, S2, S3|reflexivity].
    + unfold is_empty. now rewrite E.
    + intros x Hx. unfold heads in *. now rewrite E in Hx.
Qed.

Lemma user_lambda_tag f : user_lambda f -> unique_tag f = 0.
Proof. destruct f as [|[] ? [] ?]; intros []; reflexivity. Qed.

Lemma lambda_heads f x : user_lambda f -> is_empty f = true -> heads f x -> x = f.
Proof.
  destruct f as [|[] args [|b bs] ms]; intros H; try destruct H. intros He Hx.
  destruct ms as [|m ms]; [|unfold is_empty in He; discriminate].
  now apply (proj2 (proj2 (proj2 (neat_lambda (KUser n) args)))).
Qed.

Definition apart_values (ts : list cls) (f : cls) : Prop :=
  is_empty f = true -> forall t, In t ts -> is_empty t = false -> ~ In f (empties t).

Lemma chain_neat ts f : Forall user_type ts -> user_type f -> user_lambda f -> apart_values ts f ->
  neat (chain_cls ts f) /\ unique_tag (chain_cls ts f) = length ts /\
  sm (chain_cls ts f) = uncaptured_chain_lay true (map (fun t => sm t) ts) (sm f) /\
  is_empty (chain_cls ts f) = forallb is_empty ts && is_empty f /\
  (forall x, heads (chain_cls ts f) x ->
     match x with
     | Class (KUncaptured j) _ _ _ => j <= length ts
     | Class (KInvocable _) _ _ _ => True
     | Class (KUser _) _ _ _ => is_empty (chain_cls ts f) = true -> x = f
     | _ => False
     end).
Proof.
  intros Ht Hf Hl Ha. induction Ht as [|t ts Ht _ IH]; cbn [chain_cls map uncaptured_chain_lay length forallb].
  - split; [|split; [now apply user_lambda_tag|split; [reflexivity|split; [reflexivity|]]]].
    + destruct f as [|[] args [|b bs] ms]; try destruct Hl. apply neat_user_lambda. destruct Hf as [Hf _].
      now apply real_class in Hf.
    + intros x Hx. assert (Hu := Hx). apply heads_user in Hu; [|apply Hf]. destruct Hu as (n & a & b & m & ->).
      intros He. now apply lambda_heads.
  - destruct IH as (I1 & I2 & I3 & I4 & I5).
    { intros He u Hu. apply Ha; auto. now right. }
    set (F := chain_cls ts f) in *. unfold capture_cls. rewrite I2.
    destruct (neat_uncaptured (S (length ts)) t (proj1 Ht)) as (U1 & U2 & U3 & U4).
    set (U := uncaptured_cls (S (length ts)) t) in *.
    destruct (apart_class (KInvocable (S (length ts))) [] [U; F]) as (C1 & C2 & C3 & C4).
    { auto. }
    { constructor; [|repeat constructor]. constructor; [|constructor]. intros He x Hx Hy.
      apply U4 in Hx. rewrite U3 in He. apply I5 in Hy. destruct (is_empty t) eqn:Et.
      - subst x. lia.
      - cbn in He. assert (Hu := Hx). apply heads_user in Hu; [|apply Ht]. destruct Hu as (n & a & b & m & ->).
        specialize (Hy He). rewrite He in I4. symmetry in I4. apply andb_true_iff in I4 as [_ I4].
        apply (Ha I4 t (or_introl eq_refl) Et). rewrite <- Hy, <- comps_empties. now apply (in_map fst) in Hx. }
    cbn [map] in C2.
    split; [exact C1|]. split; [reflexivity|]. split; [now rewrite C2, U2, I3|].
    assert (Ee : is_empty (Class (KInvocable (S (length ts))) [] [U; F] []) = is_empty t && forallb is_empty ts && is_empty f).
    { rewrite C3. cbn [forallb]. rewrite U3, I4, andb_true_r. now rewrite andb_assoc. }
    split; [exact Ee|]. intros x Hx.
    destruct (C4 x Hx) as [[_ ->]|(l1 & b & l2 & El & Hb & _)]; [exact I|].
    assert (Hemp : is_empty (Class (KInvocable (S (length ts))) [] [U; F] []) = true -> is_empty t = true /\ is_empty F = true).
    { rewrite Ee, I4. intros H. apply andb_true_iff in H as [H H3]. apply andb_true_iff in H as [H1 H2]. now rewrite H2, H3. }
    destruct l1 as [|b1 l1]; [|destruct l1 as [|b2 l1]; [|destruct l1; discriminate]]; cbn in El.
    + injection El as <- _. apply U4 in Hb. destruct (is_empty t) eqn:Et; [subst x; lia|].
      assert (Hu := Hb). apply heads_user in Hu; [|apply Ht]. destruct Hu as (n & a & bb & m & ->).
      intros He. destruct (Hemp He). discriminate.
    + injection El as <- <- _. apply I5 in Hb. destruct x as [|[] ? ? ?]; auto.
      intros He. apply Hb. now apply Hemp.
Qed.

Lemma chain_layout ts f : Forall user_type ts -> user_type f -> user_lambda f ->
  (is_empty f = true -> forall t, In t ts -> is_empty t = false -> ~ In f (empties t)) ->
  sm (chain_cls ts f) = uncaptured_chain_lay true (map (fun t => sm t) ts) (sm f).
Proof. intros H1 H2 H3 H4. now apply chain_neat. Qed.

(** ** Sizes *)
Definition fitting (a : nat) (l : lay) : Prop :=
  if lempty l then lalign l = 1
  else lalign l = a /\ lsize l = align_up (ldsize l) a /\ 0 < ldsize l.

Lemma align_up_add a n m : 0 < a -> Nat.divide a n -> align_up (n + m) a = n + align_up m a.
Proof.
  intros Ha [k ->]. unfold align_up. replace (k * a + m + a - 1) with (m + a - 1 + k * a) by lia.
  rewrite Nat.div_add by lia. lia.
Qed.

Lemma invocable_bytes a u c : 0 < a -> fitting a u -> fitting a c -> (lempty u = false -> ldsize u = lsize u) ->
  (lempty u = false -> Nat.divide a (lsize u)) ->
  bytes (invocable_lay true u c) = bytes u + bytes c /\ fitting a (invocable_lay true u c).
Proof.
  intros Ha Hu Hc Hd Hm. unfold fitting, bytes, invocable_lay, class_lay in *.
  cbn [lempty ldsize lalign lsize forallb fold_left map app fold_right]. unfold base_offset.
  destruct (lempty u), (lempty c); cbn [andb].
  - split; [reflexivity|]. cbn. lia.
  - destruct Hc as (C1 & C2 & C3). rewrite C1. rewrite align_up_0 by exact Ha. cbn [Nat.add].
    replace (Nat.max (lalign u) (Nat.max a 1)) with a by lia.
    replace (Nat.max 1 (ldsize c)) with (ldsize c) by lia. rewrite <- C2. repeat split; auto.
  - destruct Hu as (U1 & U2 & U3). rewrite U1. rewrite align_up_0 by exact Ha. cbn [Nat.add].
    replace (Nat.max a (Nat.max (lalign c) 1)) with a by lia.
    replace (Nat.max 1 (ldsize u)) with (ldsize u) by lia. rewrite <- U2. repeat split; auto; lia.
  - destruct Hu as (U1 & U2 & U3), Hc as (C1 & C2 & C3). rewrite U1, C1. rewrite align_up_0 by exact Ha. cbn [Nat.add].
    replace (Nat.max a (Nat.max a 1)) with a by lia. specialize (Hd eq_refl). specialize (Hm eq_refl). rewrite Hd in *.
    rewrite (align_up_id (lsize u)) by auto.
    replace (Nat.max 1 (lsize u + ldsize c)) with (lsize u + ldsize c) by lia.
    rewrite align_up_add by auto. rewrite <- C2. repeat split; auto; lia.
Qed.

Lemma chain_sum ts f a : Forall user_type ts -> user_type f -> user_lambda f ->
  (is_empty f = true -> forall t, In t ts -> is_empty t = false -> ~ In f (empties t)) -> 0 < a ->
  (forall c, In c (f :: ts) -> is_empty c = true \/ falign (layout c) = a) ->
  space (chain_cls ts f) = list_sum (map space ts) + space f.
Proof.
  intros H1 H2 H3 H4 Ha Hal. rewrite (space_bytes (chain_cls ts f)). rewrite chain_layout by auto.
  assert (G : bytes (uncaptured_chain_lay true (map (fun t => sm t) ts) (sm f)) = list_sum (map space ts) + space f /\
              fitting a (uncaptured_chain_lay true (map (fun t => sm t) ts) (sm f))); [|apply G].
  assert (Hfit : forall c, neat c -> is_empty c = true \/ falign (layout c) = a -> fitting a (sm c)).
  { intros c [_ Hs _] Hc. unfold fitting. cbn [summary lempty lalign lsize ldsize]. unfold is_empty in Hc.
    destruct (fempty (layout c)) eqn:E; [now apply (sn_empty _ Hs)|].
    destruct Hc as [Hc|Hc]; [discriminate|]. split; [exact Hc|]. pose proof (sn_solid _ Hs E) as Hp.
    split; [|exact Hp]. rewrite (sn_size _ Hs), Hc. now rewrite Nat.max_r by lia. }
  clear H4. induction H1 as [|t ts Ht _ IH]; cbn [map uncaptured_chain_lay].
  - split; [reflexivity|]. apply Hfit; [|apply Hal; now left].
    destruct (chain_neat [] f (Forall_nil _) H2 H3 ltac:(intros ? ? [])) as [H _]. exact H.
  - destruct IH as [I1 I2]. { intros c [<-|Hc]; apply Hal; [now left|right; now right]. }
    destruct (neat_uncaptured 0 t (proj1 Ht)) as (U1 & U2 & U3 & _).
    destruct (layout_whole t (proj1 Ht)) as (Wa & Ws & Wd).
    assert (Et : is_empty t = false -> sm (uncaptured_cls 0 t) = mkLay false (fsize (layout t)) (falign (layout t)) (fsize (layout t))).
    { intros E. unfold uncaptured_cls. rewrite E. now rewrite one_member by apply Ht. }
    assert (Hta : is_empty t = true \/ falign (layout t) = a) by (apply Hal; right; now left).
    destruct (invocable_bytes a (uncaptured_lay true (sm t)) (uncaptured_chain_lay true (map (fun t => sm t) ts) (sm f)) Ha) as [B1 B2].
    + rewrite <- U2. apply Hfit; [exact U1|]. rewrite U3. destruct (is_empty t) eqn:E; [now left|].
      right. specialize (Et eq_refl). apply (f_equal lalign) in Et. cbn [summary lalign] in Et. rewrite Et.
      destruct Hta as [Hta|Hta]; [discriminate|exact Hta].
    + exact I2.
    + rewrite <- U2. cbn [summary lempty]. change (fempty (layout (uncaptured_cls 0 t))) with (is_empty (uncaptured_cls 0 t)).
      rewrite U3. intros E. change (ldsize (sm (uncaptured_cls 0 t)) = lsize (sm (uncaptured_cls 0 t))). now rewrite Et.
    + rewrite <- U2. cbn [summary lempty]. change (fempty (layout (uncaptured_cls 0 t))) with (is_empty (uncaptured_cls 0 t)).
      rewrite U3. intros E. change (Nat.divide a (lsize (sm (uncaptured_cls 0 t)))). rewrite Et by exact E. cbn [lsize].
      destruct Hta as [Hta|Hta]; [congruence|]. now rewrite <- Hta.
    + split; [|exact B2]. rewrite B1, I1. rewrite <- U2, <- space_bytes. cbn [list_sum fold_right].
      assert (Es : space (uncaptured_cls 0 t) = space t).
      { unfold space. rewrite U3. destruct (is_empty t) eqn:E; [reflexivity|]. specialize (Et eq_refl).
        apply (f_equal lsize) in Et. exact Et. }
      rewrite Es. unfold list_sum. lia.
Qed.

(** ** Names of bases *)
Lemma bases_weight c : forall x, In x (all_bases c) -> x = c \/ weight x < weight c.
Proof.
  induction c as [s a|k args bs ms _ Hb _] using cls_ind'; intros x Hx; cbn [all_bases] in Hx.
  - destruct Hx as [<-|[]]. now left.
  - destruct Hx as [<-|Hx]; [now left|]. right. apply in_flat_map in Hx as (b & Hin & Hx).
    rewrite Forall_forall in Hb. specialize (Hb b Hin x Hx). apply in_weight in Hin. cbn [weight].
    destruct Hb as [->|Hb]; lia.
Qed.

Lemma uncaptured_bases tag t : all_bases (uncaptured_cls tag t) = [uncaptured_cls tag t].
Proof. unfold uncaptured_cls. now destruct (is_empty t). Qed.

Lemma uncaptured_kind tag t : exists ms, uncaptured_cls tag t = Class (KUncaptured tag) [t] [] ms.
Proof. unfold uncaptured_cls. destruct (is_empty t); eauto. Qed.

Lemma all_bases_self c : exists l, all_bases c = c :: l /\ forall x, In x l -> weight x < weight c.
Proof.
  destruct c as [s a|k args bs ms]; cbn [all_bases]; [exists []; split; [reflexivity|intros x []]|].
  exists (flat_map all_bases bs). split; [reflexivity|]. intros x Hx.
  apply in_flat_map in Hx as (b & Hin & Hx). apply bases_weight in Hx. apply in_weight in Hin. cbn [weight].
  destruct Hx as [->|Hx]; lia.
Qed.

Lemma chain_bases ts f : (forall x, In x (all_bases f) -> ~ uncapture_class x) ->
  unique_tag (chain_cls ts f) = length ts /\
  forall x, In x (all_bases (chain_cls ts f)) ->
    match x with Class (KUncaptured j) _ _ _ => j <= length ts | _ => True end.
Proof.
  intros Hf. induction ts as [|t ts [I1 I2]]; cbn [chain_cls length].
  - split.
    + destruct (all_bases_self f) as (l & E & _). assert (H : ~ uncapture_class f) by (apply Hf; rewrite E; now left).
      destruct f as [|[] ? ? ?]; auto. now destruct H.
    + intros x Hx. apply Hf in Hx. destruct x as [|[] ? ? ?]; auto. now destruct Hx.
  - split; [cbn; now rewrite I1|]. unfold capture_cls. rewrite I1. cbn [all_bases flat_map].
    rewrite uncaptured_bases, app_nil_r. intros x [<-|Hx]; [exact I|]. apply in_app_or in Hx as [[<-|[]]|Hx].
    + destruct (uncaptured_kind (S (length ts)) t) as [ms ->]. lia.
    + apply I2 in Hx. destruct x as [|[] ? ? ?]; auto.
Qed.

Lemma chain_names t ts f : (forall x, In x (all_bases f) -> ~ uncapture_class x) ->
  can_name (chain_cls (t :: ts) f) (uncaptured_cls (S (length ts)) t) /\
  can_name (chain_cls (t :: ts) f) (chain_cls ts f).
Proof.
  intros Hf. destruct (chain_bases ts f Hf) as [H1 H2]. cbn [chain_cls]. unfold capture_cls. rewrite H1.
  set (F := chain_cls ts f) in *. set (U := uncaptured_cls (S (length ts)) t).
  set (c := Class (KInvocable (S (length ts))) [] [U; F] []).
  assert (E : all_bases c = c :: U :: all_bases F).
  { unfold c. cbn [all_bases flat_map]. unfold U at 2. rewrite uncaptured_bases. fold U. now rewrite app_nil_r. }
  assert (Hw : weight U < weight c /\ weight F < weight c) by (unfold c; cbn; lia).
  assert (HU : ~ In U (all_bases F)).
  { intros HU. apply H2 in HU. unfold U in HU. destruct (uncaptured_kind (S (length ts)) t) as [ms EU]. rewrite EU in HU. lia. }
  split.
  - exists [c], (all_bases F). split; [exact E|]. split; [|exact HU]. intros [Hx|[]]. rewrite Hx in Hw. lia.
  - destruct (all_bases_self F) as (l & El & Hl). exists [c; U], l. rewrite E, El. split; [reflexivity|]. split.
    + intros [Hx|[Hx|[]]]; [rewrite Hx in Hw; lia|]. apply HU. rewrite Hx, El. now left.
    + intros Hx. apply Hl in Hx. lia.
Qed.

Lemma twice c b x l : all_bases c = x :: b :: l -> In b l -> ~ can_name c b.
Proof.
  intros E Hb (l1 & l2 & E2 & H1 & H2). rewrite E in E2.
  destruct l1 as [|x1 l1]; cbn [app] in E2.
  - injection E2 as _ <-. apply H2. now left.
  - injection E2 as _ E2. destruct l1 as [|x2 l1]; cbn [app] in E2.
    + injection E2 as <-. contradiction.
    + injection E2 as E2 _. apply H1. right. left. now symmetry.
Qed.

Lemma overload_ambiguous t f g : unique_tag f = 0 ->
  ~ can_name (capture_cls t (overload_cls [capture_cls t f; g])) (uncaptured_cls 1 t).
Proof.
  intros Hf.
  apply (twice _ _ (capture_cls t (overload_cls [capture_cls t f; g])) (all_bases (overload_cls [capture_cls t f; g]))).
  - unfold capture_cls at 1. cbn [unique_tag overload_cls all_bases flat_map]. rewrite uncaptured_bases.
    now rewrite app_nil_r.
  - unfold capture_cls. rewrite Hf. cbn [overload_cls all_bases flat_map]. rewrite uncaptured_bases.
    right. right. now left.
Qed.

Lemma overload_grows :
  exists t f g, is_empty t = true /\ real t /\ user_type f /\ user_type g /\ user_lambda f /\ user_lambda g /\
    fsize (layout (capture_cls t (overload_cls [capture_cls t f; g]))) <> fsize (layout (overload_cls [capture_cls t f; g])).
Proof.
  exists (Class (KUser 0) [] [] []), (Class (KUser 1) [] [] [Scalar 4 4]), (Class (KUser 2) [] [] []).
  assert (H4 : real (Scalar 4 4)) by (split; [lia|]; split; [now exists 2|apply Nat.divide_refl]).
  split; [reflexivity|]. split; [now apply real_class|].
  split; [split; [apply real_class; auto|vm_compute; constructor]|].
  split; [split; [now apply real_class|vm_compute; repeat constructor]|].
  split; [exact I|]. split; [exact I|]. vm_compute. discriminate.
Qed.

Lemma same_function_grows :
  exists t f, user_type t /\ user_type f /\ user_lambda f /\ is_empty f = true /\
    falign (layout t) = 4 /\ space (chain_cls [t] f) <> space t + space f.
Proof.
  exists (Class (KUser 1) [] [] [Class (KUser 0) [] [] []; Scalar 4 4]), (Class (KUser 0) [] [] []).
  assert (H4 : real (Scalar 4 4)) by (split; [lia|]; split; [now exists 2|apply Nat.divide_refl]).
  split.
  { split; [|vm_compute; repeat constructor]. apply real_class. split; [constructor|].
    constructor; [now apply real_class|auto]. }
  split; [split; [now apply real_class|vm_compute; repeat constructor]|].
  split; [exact I|]. split; [reflexivity|]. split; [reflexivity|]. vm_compute. discriminate.
Qed.
