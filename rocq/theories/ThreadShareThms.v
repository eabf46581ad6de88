(** Proofs for C91. *)
From Coq Require Import List Bool Arith Lia FinFun.
From Verif Require Import Value TupleAlg LazyModel LazyProofs LazyGeneral SharedModel SharedProofs ThreadModel ThreadSpec ThreadThms ThreadShareSpec.
Import ListNotations.

Section Share.
Context {A W fid did : Type}.
Notation value := (val A).
Notation node := (node A fid did).
Notation heap := (heap A).
Notation action := (action A W fid did).
Notation top := (top A fid did).
Notation prog := (prog A fid did).
Notation rv := (@ThreadModel.rv A).
Notation slz := (@slz A fid did).
Notation obj := (obj A fid did).
Variable U : user A W fid did.

Section Induction.
  Variable Q : obj -> Prop.
  Hypothesis Hvalue : forall v ch, Q (OValue v ch).
  Hypothesis Hcore : forall g c deps, Forall Q deps -> Q (OCore g c deps).
  Hypothesis Href : forall x, Q (ORef x).
  Fixpoint obj_ind' (p : obj) : Q p :=
    match p with
    | OValue v ch => Hvalue v ch
    | OCore g c deps =>
        Hcore g c deps
          ((fix go (ds : list obj) : Forall Q ds :=
              match ds with
              | [] => Forall_nil Q
              | d :: ds' => Forall_cons d (obj_ind' d) (go ds')
              end) deps)
    | ORef x => Href x
    end.
End Induction.

(** ** Places *)
Lemma own_core g c (deps : list obj) : own (OCore g c deps) = flat_map own deps ++ [c].
Proof.
  unfold own. cbn [cores]. rewrite map_app. f_equal.
  induction deps as [|d deps IH]; [reflexivity|]. cbn [flat_map]. now rewrite map_app, IH.
Qed.
Lemma own_all (P : list obj) : map snd (flat_map cores P) = flat_map own P.
Proof. induction P as [|p P IH]; [reflexivity|]. cbn [flat_map]. now rewrite map_app, IH. Qed.

Lemma state_frame (h h' : heap) (p : obj) : (forall c, In c (own p) -> h' c = h c) -> state_at h' p = state_at h p.
Proof.
  induction p as [v ch|g c deps IH|x] using obj_ind'; intros H; cbn [state_at]; [reflexivity| |reflexivity].
  rewrite own_core in H. rewrite (H c) by (apply in_or_app; right; now left). f_equal.
  assert (H' : forall c, In c (flat_map own deps) -> h' c = h c) by (intros; apply H; apply in_or_app; now left).
  clear H. induction IH as [|d deps Hd _ IHd]; [reflexivity|]. cbn [map flat_map] in *. f_equal.
  - apply Hd. intros. apply H'. apply in_or_app. now left.
  - apply IHd. intros. apply H'. apply in_or_app. now right.
Qed.
Lemma states_frame (h h' : heap) (ps : list obj) : (forall c, In c (flat_map own ps) -> h' c = h c) ->
  map (state_at h') ps = map (state_at h) ps.
Proof.
  intros H. apply map_ext_in. intros p Hp. apply state_frame. intros c Hc. apply H. apply in_flat_map. eauto.
Qed.

(** ** Unfolded references *)
Lemma node_of_prefix (ns ms : list node) (p : obj) : (forall y, In y (refs_of p) -> y < length ns) -> node_of (ns ++ ms) p = node_of ns p.
Proof.
  induction p as [v ch|g c deps IH|x] using obj_ind'; intros H; cbn [node_of]; [reflexivity| |].
  - f_equal. cbn [refs_of] in H. induction IH as [|d deps Hd _ IHd]; [reflexivity|]. cbn [map flat_map] in *. f_equal.
    + apply Hd. intros y Hy. apply H. apply in_or_app. now left.
    + apply IHd. intros y Hy. apply H. apply in_or_app. now right.
  - apply app_nth1. apply H. now left.
Qed.

Lemma nodes_snoc (P : list obj) p : nodes (P ++ [p]) = nodes P ++ [node_of (nodes P) p].
Proof. unfold nodes. now rewrite fold_left_app. Qed.
Lemma nodes_length (P : list obj) : length (nodes P) = length P.
Proof. induction P as [|p P IH] using rev_ind; [reflexivity|]. now rewrite nodes_snoc, !app_length, IH. Qed.

Lemma node_at_eq (P : list obj) x p : nth_error P x = Some p -> (forall y, In y (refs_of p) -> y < x) ->
  node_at P x = node_of (nodes P) p.
Proof.
  unfold node_at. revert x p. induction P as [|q P IH] using rev_ind; intros x p Hp Hr; [destruct x; discriminate|].
  rewrite nodes_snoc. destruct (Nat.lt_ge_cases x (length P)) as [Hl|Hl].
  - rewrite nth_error_app1 in Hp by exact Hl. rewrite app_nth1 by now rewrite nodes_length.
    rewrite (IH _ _ Hp Hr). symmetry. apply node_of_prefix. intros y Hy. rewrite nodes_length. specialize (Hr _ Hy). lia.
  - rewrite nth_error_app2 in Hp by exact Hl. destruct (x - length P) as [|k] eqn:Ek; [|destruct k; discriminate].
    injection Hp as ->. assert (x = length P) as -> by lia. rewrite app_nth2 by (rewrite nodes_length; lia).
    rewrite nodes_length, Nat.sub_diag. cbn [nth]. symmetry. apply node_of_prefix. intros y Hy. rewrite nodes_length. now apply Hr.
Qed.

(** ** One call *)
Lemma core_alone g c (ns : list node) xs vs (h : heap) w : all_refer h ns xs vs ->
  forall r cache' w' lg, core U g (h c) vs w = (r, cache', w', lg) ->
  exists h', alone U (core_prog U g c xs) h w = (match r with Ok (_, b) => Ok (At c, b) | Exc => Exc | UB => UB end, h', w', lg) /\
    h' c = cache' /\ (forall c', c' <> c -> h' c' = h c') /\
    match r with Ok (v, _) => cache' = Some v | _ => True end /\
    (forall v, cache' = Some v -> h c = Some v \/ exists args w1 w2 l, call_fn U g args w1 = (VRet v, w2, l)) /\
    (h c <> None -> cache' <> None).
Proof.
  intros Hr r cache' w' lg. unfold core_prog, core. cbn [alone]. rewrite (any_flags _ _ _ _ Hr).
  destruct (negb (is_some (h c)) || fst (any vs (pure1 lr_is_changed) tt)) eqn:Ech.
  - rewrite alone_bind, (fetch_all_alone U _ _ _ _ _ Hr). cbn [alone].
    destruct (call_fn U g (fst (transform as_tuple vs (pure1 lr_value) tt)) w) as [[[result|] w2] l2] eqn:Ec.
    + cbn [alone]. rewrite alone_bind. unfold differs_from, opt_neq. intros E. injection E as <- <- <- <-.
      exists (put h c (Some result)).
      assert (Ep : put h c (Some result) c = Some result) by (unfold put; now rewrite Nat.eqb_refl).
      assert (Ef : forall c', c' <> c -> put h c (Some result) c' = h c').
      { intros c' Hc. unfold put. destruct (Nat.eqb_spec c' c); [contradiction|reflexivity]. }
      split; [|split; [exact Ep|split; [exact Ef|split; [reflexivity|split]]]].
      * destruct (h c) as [v0|] eqn:Eh; cbn [alone app]; now rewrite ?app_nil_r.
      * intros v E. injection E as <-. right. eauto 6.
      * discriminate.
    + intros E. injection E as <- <- <- <-. exists h. cbn [alone]. rewrite app_nil_r. split; [reflexivity|]. repeat split; auto.
  - destruct (h c) as [v0|] eqn:Eh; [|discriminate]. intros E. injection E as <- <- <- <-. exists h. cbn [alone].
    split; [reflexivity|]. repeat split; auto.
Qed.

(** ** What is below a node *)
Inductive sub (m : node) : node -> Prop :=
| sub_self : sub m m
| sub_dep g c deps d : In d deps -> sub m d -> sub m (NCore g c deps).

Lemma sub_trans (k m n : node) : sub k m -> sub m n -> sub k n.
Proof. intros H. induction 1 as [|g c deps d Hd _ IH]; [exact H|]. eapply sub_dep; eauto. Qed.
Lemma sub_locs (m n : node) c : sub m n -> In c (locs m) -> In c (locs n).
Proof.
  induction 1 as [|g c0 deps d Hd _ IH]; intros H; [exact H|]. cbn [locs]. apply in_or_app. left. apply in_flat_map. eauto.
Qed.
Lemma locs_sub (n : node) c : In c (locs n) -> exists g deps, sub (NCore g c deps) n.
Proof.
  induction n as [v ch|g c0 deps IH] using node_ind'; intros H; [destruct H|]. cbn [locs] in H. apply in_app_or in H.
  destruct H as [H|[<-|[]]]; [|exists g, deps; constructor]. apply in_flat_map in H. destruct H as (d & Hd & Hc).
  rewrite Forall_forall in IH. destruct (IH d Hd Hc) as (g' & deps' & Hs). exists g', deps'. eapply sub_dep; eauto.
Qed.
Lemma sub_settled (h : heap) (m n : node) : sub m n -> settled h n = true -> settled h m = true.
Proof.
  induction 1 as [|g c deps d Hd _ IH]; intros H; [exact H|]. cbn [settled] in H. apply andb_true_iff in H.
  destruct H as [_ H]. rewrite forallb_forall in H. auto.
Qed.

(** ** Only what is not settled is written *)
Lemma call_fine_within (h0 : heap) (F R Wr : loc -> Prop) n :
  (forall c, In c (locs n) -> R c) ->
  (forall g c deps, sub (NCore g c deps) n -> settled h0 (NCore g c deps) = false -> Wr c) ->
  (forall m c, sub m n -> settled h0 m = true -> In c (locs m) -> F c) ->
  within h0 F R Wr (fun x => ref_in R (fst x)) (call U n).
Proof.
  induction n as [v ch|g c deps IH] using node_ind'; intros HR HW HF; [exact I|].
  destruct (settled h0 (NCore g c deps)) eqn:Es.
  - apply (within_mono h0 F R R Wr Wr (fun x => ref_in R (fst x) /\ snd x = false)); [auto|auto|intros x []; auto|].
    apply (call_settled_within U h0 F (NCore g c deps) Es R Wr). intros c' Hc'. split; [auto|]. apply (HF (NCore g c deps)); auto. constructor.
  - cbn [call]. fold (calls U). eapply within_bind.
    + apply calls_within. apply Forall_forall. intros d Hd. rewrite Forall_forall in IH. apply IH; [exact Hd| | |].
      * intros c' Hc'. apply HR. cbn [locs]. apply in_or_app. left. apply in_flat_map. eauto.
      * intros g' c' deps' Hs. apply HW. eapply sub_dep; eauto.
      * intros m c' Hs. apply HF. eapply sub_dep; eauto.
    + intros xs Hxs. cbn beta in Hxs.
      assert (Hr : R c) by (apply HR; cbn [locs]; apply in_or_app; right; now left).
      assert (Hw : Wr c) by (apply (HW g c deps); [constructor|exact Es]).
      unfold core_prog. cbn [within]. split; [exact Hr|]. intros o _.
      destruct (negb (is_some o) || fst (any xs (pure1 (fun x : rv * bool => snd x)) tt)); [|exact Hr].
      eapply within_bind; [apply fetch_all_within; exact Hxs|]. intros vs _. cbn [within]. intros [result|]; [|exact I].
      cbn [within]. split; [exact Hr|]. intros o' _. eapply within_bind with (Q := fun _ => True).
      * destruct o'; cbn; auto.
      * intros b _. cbn [within]. split; [exact Hw|exact Hr].
Qed.

Lemma thread_fine_within (h0 : heap) (F R Wr : loc -> Prop) (ns : list node) :
  (forall n c, In n ns -> In c (locs n) -> R c) ->
  (forall n g c deps, In n ns -> sub (NCore g c deps) n -> settled h0 (NCore g c deps) = false -> Wr c) ->
  (forall n m c, In n ns -> sub m n -> settled h0 m = true -> In c (locs m) -> F c) ->
  within h0 F R Wr (fun _ => True) (thread U (map TCall ns)).
Proof.
  induction ns as [|n ns IH]; intros HR HW HF; cbn [map thread]; [exact I|].
  apply within_catching with (Q := fun _ => True).
  - unfold call_api. eapply within_bind; [apply (call_fine_within h0 F R Wr n)|].
    + intros c Hc. apply (HR n); auto. now left.
    + intros g c deps. apply HW. now left.
    + intros m c. apply HF. now left.
    + intros x Hx. eapply within_bind; [apply fetch_within; exact Hx|]. intros v _. exact I.
  - intros r. eapply within_bind; [apply IH|intros rs _; exact I].
    + intros m c Hm. apply HR. now right.
    + intros m g c deps Hm. apply HW. now right.
    + intros m k c Hm. apply HF. now right.
Qed.

Lemma apart_threads (nss : list (list node)) (h : heap) w sched s' tr :
  (forall i j ns ms n m g c deps, nth_error nss i = Some ns -> nth_error nss j = Some ms -> In n ns -> In m ms ->
     sub (NCore g c deps) n -> settled h (NCore g c deps) = false -> In c (locs m) ->
     i = j /\ forall k, sub k m -> settled h k = true -> ~ In c (locs k)) ->
  interleave U sched (mkConf (map (fun ns => thread U (map TCall ns)) nss) h w) = (s', tr) ->
  ~ racy tr /\
  forall i ns, nth_error nss i = Some ns -> exists p' h', nth_error (threads s') i = Some p' /\
    follows U (thread U (map TCall ns)) h (acts_of i tr) p' h' /\ forall n c, In n ns -> In c (locs n) -> h' c = mem s' c.
Proof.
  intros Hs E.
  set (F := fun c => exists j ms m k, nth_error nss j = Some ms /\ In m ms /\ sub k m /\ settled h k = true /\ In c (locs k)).
  set (R := fun i c => exists ns n, nth_error nss i = Some ns /\ In n ns /\ In c (locs n)).
  set (Wr := fun i c => exists ns n g deps, nth_error nss i = Some ns /\ In n ns /\ sub (NCore g c deps) n /\ settled h (NCore g c deps) = false).
  assert (HWR : forall i c, Wr i c -> R i c).
  { intros i c (ns & n & g & deps & E1 & Hn & Hk & _). exists ns, n. split; [exact E1|]. split; [exact Hn|].
    eapply sub_locs; [exact Hk|]. cbn. apply in_or_app. right. now left. }
  assert (HI : inv U h F (map (fun ns => thread U (map TCall ns)) nss) R Wr s' tr).
  { eapply isolation; [| | |exact E].
    - intros i p Hp. rewrite nth_error_map in Hp. destruct (nth_error nss i) as [ns|] eqn:Ei; [|discriminate].
      injection Hp as <-. apply thread_fine_within.
      + intros n c Hn Hc. exists ns, n. auto.
      + intros n g c deps Hn Hk Hz. exists ns, n, g, deps. auto.
      + intros n m c Hn Hm Hz Hc. exists i, ns, n, m. auto.
    - intros i c (ns & n & g & deps & E1 & Hn & Hk & Hz) (j & ms & m & k & E2 & Hm & Hk2 & Hz2 & Hc).
      destruct (Hs i j ns ms n m g c deps E1 E2 Hn Hm Hk Hz (sub_locs _ _ _ Hk2 Hc)) as [_ H]. exact (H k Hk2 Hz2 Hc).
    - intros i j c HW HRW. assert (HR : R j c) by (destruct HRW; auto).
      destruct HW as (ns & n & g & deps & E1 & Hn & Hk & Hz), HR as (ms & m & E2 & Hm & Hc).
      now destruct (Hs i j ns ms n m g c deps E1 E2 Hn Hm Hk Hz Hc). }
  destruct HI as (I1 & _ & I3 & _). split.
  - intros (i & j & c & o & a & Hij & Hi & Hj & Ha). apply I3 in Hi. apply I3 in Hj. cbn in Hi.
    assert (HR : R j c).
    { destruct a as [c' o'|c' o'|g args w1|x y]; cbn in Ha; subst; auto; contradiction. }
    apply Hij. destruct Hi as (ns & n & g & deps & E1 & Hn & Hk & Hz), HR as (ms & m & E2 & Hm & Hc).
    now destruct (Hs i j ns ms n m g c deps E1 E2 Hn Hm Hk Hz Hc).
  - intros i ns Ei. destruct (I1 i (thread U (map TCall ns))) as (p' & h' & E1 & Hf & _ & Ha).
    { now rewrite nth_error_map, Ei. }
    exists p', h'. split; [exact E1|]. split; [exact Hf|]. intros n c Hn Hc. apply Ha. left. exists ns, n. auto.
Qed.

(** ** Races *)
Lemma call_sub_local (m n : node) : sub m n -> forall acts x, local U (call U n) acts (Ret x) ->
  exists a1 a2 a3 y, acts = a1 ++ a2 ++ a3 /\ local U (call U m) a2 (Ret y).
Proof.
  induction 1 as [|g c deps d Hd _ IH]; intros acts x L.
  - exists [], acts, [], x. now rewrite app_nil_r.
  - cbn [call] in L. fold (calls U) in L. apply local_bind in L. destruct L as (a1 & a2 & xs & -> & L1 & _).
    assert (H : exists b1 b2 b3 y, a1 = b1 ++ b2 ++ b3 /\ local U (call U m) b2 (Ret y)).
    { clear a2 x. revert a1 xs L1. induction deps as [|e deps IHd]; intros a1 xs L1; [destruct Hd|].
      cbn [calls calls_with] in L1. fold (calls U) in L1. apply local_bind in L1. destruct L1 as (b1 & b2 & y & -> & L1 & L2).
      apply local_bind in L2. destruct L2 as (b3 & b4 & ys & -> & L3 & _). destruct Hd as [->|Hd].
      - destruct (IH _ _ L1) as (c1 & c2 & c3 & z & -> & L). exists c1, c2, (c3 ++ b3 ++ b4), z. split; [now rewrite <- !app_assoc|exact L].
      - destruct (IHd Hd _ _ L3) as (c1 & c2 & c3 & z & -> & L). exists (b1 ++ c1), c2, (c3 ++ b4), z. split; [now rewrite <- !app_assoc|exact L]. }
    destruct H as (b1 & b2 & b3 & y & -> & L). exists b1, b2, (b3 ++ a2), y. split; [now rewrite <- !app_assoc|exact L].
Qed.

Lemma thread_local (ns : list node) : forall acts rs k n v, local U (thread U (map TCall ns)) acts (Ret rs) ->
  nth_error ns k = Some n -> nth_error rs k = Some (Ok v) ->
  exists a1 a2 a3 y, acts = a1 ++ a2 ++ a3 /\ local U (call U n) a2 (Ret y).
Proof.
  induction ns as [|n0 ns IH]; intros acts rs k n v L En Er; [destruct k; discriminate|]. cbn [map thread] in L.
  apply local_catching in L. destruct L as (a1 & a2 & -> & L).
  assert (HT : forall r0 : res (option value), local U (bind (thread U (map TCall ns)) (fun rs => Ret (r0 :: rs))) a2 (Ret rs) ->
            exists b1 b2 rs', a2 = b1 ++ b2 /\ rs = r0 :: rs' /\ local U (thread U (map TCall ns)) b1 (Ret rs')).
  { intros r0 L2. apply local_bind in L2. destruct L2 as (b1 & b2 & rs' & -> & L2 & L3). exists b1, b2, rs'. split; [reflexivity|].
    split; [|exact L2]. destruct b2 as [|b b2]; cbn in L3; [congruence|]. destruct L3 as (? & ? & ? & ? & ? & E & _). discriminate. }
  destruct k as [|k]; cbn in En.
  - injection En as ->. destruct L as [(x & L1 & _)|[_ L2]].
    + unfold call_api in L1. apply local_bind in L1. destruct L1 as (b1 & b2 & y & -> & L1 & _).
      exists [], b1, (b2 ++ a2), y. split; [cbn; now rewrite <- !app_assoc|exact L1].
    + destruct (HT _ L2) as (b1 & b2 & rs' & _ & -> & _). discriminate.
  - assert (H : exists r0 : res (option value), local U (bind (thread U (map TCall ns)) (fun rs => Ret (r0 :: rs))) a2 (Ret rs)).
    { destruct L as [(x & _ & L2)|[_ L2]]; eauto. }
    destruct H as [r0 L2]. destruct (HT _ L2) as (b1 & b2 & rs' & -> & -> & L3). cbn in Er.
    destruct (IH _ _ _ _ _ L3 En Er) as (c1 & c2 & c3 & y & -> & L4). exists (a1 ++ c1), c2, (c3 ++ b2), y.
    split; [now rewrite <- !app_assoc|exact L4].
Qed.

(** Two threads reach a lazy function that is not settled, and get something. *)
Lemma race_below zero (m : node) (h : heap) w (nss : list (list node)) i j ns ms ki kj n1 n2 vi vj ri rj sched s' tr :
  made zero m -> settled h m = false -> i <> j -> sub m n1 -> sub m n2 ->
  nth_error nss i = Some ns -> nth_error nss j = Some ms -> nth_error ns ki = Some n1 -> nth_error ms kj = Some n2 ->
  interleave U sched (mkConf (map (fun ns => thread U (map TCall ns)) nss) h w) = (s', tr) ->
  nth_error (threads s') i = Some (Ret ri) -> nth_error (threads s') j = Some (Ret rj) ->
  nth_error ri ki = Some (Ok vi) -> nth_error rj kj = Some (Ok vj) ->
  racy tr.
Proof.
  intros Hm Hs Hij S1 S2 Ei Ej Eki Ekj E Ri Rj Vi Vj.
  assert (HL : forall k n kk ns v rs, nth_error nss k = Some ns -> nth_error ns kk = Some n -> nth_error (threads s') k = Some (Ret rs) ->
            nth_error rs kk = Some (Ok v) -> sub m n -> exists a1 a2 a3 x, acts_of k tr = a1 ++ a2 ++ a3 /\ local U (call U m) a2 (Ret x)).
  { intros k n kk ms' v rs Ek Ekk Rk Vk Sk. destruct (interleave_local U _ _ _ _ E k (thread U (map TCall ms'))) as (p' & Ep & L).
    { cbn [threads]. now rewrite nth_error_map, Ek. }
    rewrite Rk in Ep. injection Ep as <-. destruct (thread_local _ _ _ _ _ _ L Ekk Vk) as (a1 & a2 & a3 & y & Ea & L1).
    destruct (call_sub_local _ _ Sk _ _ L1) as (b1 & b2 & b3 & z & -> & L2). exists (a1 ++ b1), b2, (b3 ++ a3), z.
    split; [now rewrite Ea, <- !app_assoc|exact L2]. }
  destruct (HL i n1 ki ns vi ri Ei Eki Ri Vi S1) as (a1 & a2 & a3 & x & Eai & Li).
  destruct (HL j n2 kj ms vj rj Ej Ekj Rj Vj S2) as (b1 & b2 & b3 & y & Eaj & Lj).
  assert (Hi : forall a, In a a2 -> In (i, a) tr) by (intros a Ha; apply acts_in; rewrite Eai; apply in_or_app; right; apply in_or_app; auto).
  assert (Hj : forall a, In a b2 -> In (j, a) tr) by (intros a Ha; apply acts_in; rewrite Eaj; apply in_or_app; right; apply in_or_app; auto).
  assert (Hc : exists c, In c (locs m) /\ exists k o, In (k, AStore c o) tr).
  { destruct (classic_settled zero m h Hm Hs) as [(c & Hc & Hnone)|Hp].
    - exists c. split; [exact Hc|]. destruct (call_local U _ _ _ Li c Hc) as [_ [[v Hv]|[v Hv]]].
      + eapply load_store; [exact E|exact Hnone|exact (Hi _ Hv)].
      + exists i, (Some v). auto.
    - destruct (call_plain_local U zero m Hm Hp) as (c & Hc & H). exists c. split; [exact Hc|].
      destruct (H _ _ Li) as [v Hv]. exists i, (Some v). auto. }
  destruct Hc as (c & Hc & k & o & Hk).
  destruct (call_local U _ _ _ Li c Hc) as [[oi Hoi] _]. destruct (call_local U _ _ _ Lj c Hc) as [[oj Hoj] _].
  destruct (Nat.eq_dec k i) as [->|Hne].
  - exists i, j, c, o, (ALoad c oj). cbn. auto.
  - exists k, i, c, o, (ALoad c oi). cbn. auto.
Qed.

Section Program.
Variables (P : list obj) (vf : fnobj fid did -> bool).
Hypothesis HP : laid_out P.
Hypothesis Hvf : steady U vf.

Definition below (b : nat) (c : loc) : Prop := exists y q, y < b /\ nth_error P y = Some q /\ In c (own q).
Definition agree (b : nat) (h : heap) (vs : list slz) : Prop :=
  forall y q, y < b -> nth_error P y = Some q -> nth_error vs y = Some (state_at h q).
Definition goes (b : nat) (os : list loc) (h h' : heap) (vs vs' : list slz) : Prop :=
  agree b h' vs' /\ length vs' = length vs /\ (forall y, b <= y -> nth_error vs' y = nth_error vs y) /\
  (forall c, ~ In c os -> ~ below b c -> h' c = h c) /\ steady_caches vf P h' /\ kept h h'.

Lemma below_mono b b' c : b <= b' -> below b c -> below b' c.
Proof. intros Hb (y & q & Hy & Eq & Hc). exists y, q. split; [lia|auto]. Qed.

Lemma own_apart x y p q c : nth_error P x = Some p -> nth_error P y = Some q -> In c (own p) -> In c (own q) -> x = y.
Proof.
  intros Hx Hy Hp Hq. destruct (Nat.eq_dec y x) as [->|Hne]; [reflexivity|].
  destruct (nth_split_map own _ _ _ Hx (proj1 HP)) as [_ H]. destruct (H y q Hy Hne c Hq Hp).
Qed.
Lemma own_nodup x p : nth_error P x = Some p -> NoDup (own p).
Proof. intros Hx. exact (proj1 (nth_split_map own _ _ _ Hx (proj1 HP))). Qed.
Lemma own_not_below x p c : nth_error P x = Some p -> In c (own p) -> ~ below x c.
Proof. intros Hx Hc (y & q & Hy & Eq & Hq). assert (x = y) by (eapply own_apart; eauto). lia. Qed.

Lemma same_core g g' c : In (g, c) (flat_map cores P) -> In (g', c) (flat_map cores P) -> g = g'.
Proof.
  pose proof (proj1 HP) as H. rewrite <- own_all in H. revert H. generalize (flat_map cores P) as l.
  induction l as [|[g0 c0] l IH]; intros H H1 H2; [destruct H1|]. cbn [map snd] in H. inversion H as [|? ? N1 N2]; subst.
  assert (HN : forall g1, In (g1, c0) l -> False) by (intros g1 Hi; apply N1; apply in_map_iff; exists (g1, c0); auto).
  destruct H1 as [E1|H1], H2 as [E2|H2].
  - congruence.
  - injection E1 as -> ->. destruct (HN _ H2).
  - injection E2 as -> ->. destruct (HN _ H1).
  - eauto.
Qed.

Lemma steady_update g c (h h' : heap) : In (g, c) (flat_map cores P) -> steady_caches vf P h ->
  (forall c', c' <> c -> h' c' = h c') ->
  (forall v, h' c = Some v -> h c = Some v \/ exists args w1 w2 l, call_fn U g args w1 = (VRet v, w2, l)) ->
  steady_caches vf P h'.
Proof.
  intros Hg Hs Hf Hc g' c' v Hi E. destruct (Nat.eq_dec c' c) as [->|Hne].
  - assert (g' = g) as -> by (eapply same_core; eauto). destruct (Hc v E) as [E'|(args & w1 & w2 & l & E')].
    + exact (Hs _ _ _ Hg E').
    + exact (Hvf _ _ _ _ _ _ E').
  - rewrite Hf in E by exact Hne. eauto.
Qed.

(** What a result refers to, read after more calls. *)
Definition refers_later (h : heap) (p : obj) (x : rv) (v : value) : Prop :=
  match p with
  | ORef y => exists g c ns v', node_at P y = NCore g c ns /\ x = At c /\ h c = Some v' /\ (v = VVoid <-> v' = VVoid)
  | _ => refers h (node_of (nodes P) p) x v
  end.

Lemma refers_later_goes b (p : obj) os (h h' : heap) vs vs' x v :
  (forall c, In c (own p) -> ~ In c os /\ ~ below b c) -> (forall y, In y (refs_of p) -> y < length P) ->
  steady_caches vf P h -> goes b os h h' vs vs' -> refers_later h p x v -> refers_later h' p x v.
Proof.
  intros Ho Hy Hs (_ & _ & _ & Hf & Hs' & Hk) H. destruct p as [v0 ch|g c deps|y].
  - exact H.
  - cbn [refers_later refers node_of] in *. destruct H as [E1 E2]. split; [exact E1|]. rewrite Hf; [exact E2| |]; apply Ho; rewrite own_core; apply in_or_app; right; now left.
  - cbn [refers_later] in *. destruct H as (g & c & ns & v' & En & -> & Ev & Hv). assert (Hn : h' c <> None) by (apply Hk; congruence).
    destruct (h' c) as [v2|] eqn:E2; [|congruence]. exists g, c, ns, v2. split; [exact En|]. split; [reflexivity|]. split; [exact E2|].
    assert (Hl : y < length P) by (apply Hy; now left).
    destruct (nth_error P y) as [p|] eqn:Ep; [|apply nth_error_None in Ep; lia].
    destruct (proj2 HP _ _ Ep) as [(g0 & c0 & deps & ->) Hr]. rewrite (node_at_eq _ _ _ Ep Hr) in En. cbn in En. injection En as <- <- _.
    assert (Hi : In (g0, c0) (flat_map cores P)).
    { apply in_flat_map. exists (OCore g0 c0 deps). split; [eapply nth_error_In; eauto|]. cbn. apply in_or_app. right. now left. }
    pose proof (Hs _ _ _ Hi Ev). pose proof (Hs' _ _ _ Hi E2). tauto.
Qed.

(** What a call returns, and what it leaves. *)
Definition called (b : nat) (p : obj) (h : heap) (vs : list slz) (w : W) (n : nat) : Prop :=
  exists r r' h' w' lg vs',
  alone U (call U (node_of (nodes P) p)) h w = (r, h', w', lg) /\
  sstep U n (state_at h p) vs w = Some (r', state_at h' p, vs', w', lg) /\
  goes b (own p) h h' vs vs' /\
  match r, r' with
  | Ok (x, ch), Ok (v, ch') => ch = ch' /\ refers h' (node_of (nodes P) p) x v
  | Exc, Exc => True
  | _, _ => False
  end.

Inductive all_later (h : heap) : list obj -> list (rv * bool) -> list (value * bool) -> Prop :=
| al_nil : all_later h [] [] []
| al_cons p ps x b xs v vs : refers_later h p x v -> all_later h ps xs vs ->
    all_later h (p :: ps) ((x, b) :: xs) ((v, b) :: vs).

Lemma all_later_read b (h : heap) (ps : list obj) xs rs vs : agree b h vs ->
  (forall p y, In p ps -> In y (refs_of p) -> y < b /\ y < length P) ->
  all_later h ps xs rs -> all_refer h (map (node_of (nodes P)) ps) xs (read_refs vs (map (state_at h) ps) rs).
Proof.
  intros Ha Hb H. induction H as [|p ps x ch xs v rs Hx _ IH]; cbn [map read_refs]; [constructor|].
  assert (E : exists v', read_ref vs (state_at h p) (v, ch) = (v', ch) /\ refers h (node_of (nodes P) p) x v').
  { destruct p as [v0 c0|g c deps|y]; cbn [state_at read_ref fst].
    - exists v. auto.
    - exists v. auto.
    - destruct (Hb (ORef y) y (or_introl eq_refl) (or_introl eq_refl)) as [Hy Hl].
      cbn in Hx. destruct Hx as (g & c & ns & v' & En & -> & Ev & Hv).
      destruct (nth_error P y) as [p|] eqn:Ep; [|apply nth_error_None in Ep; lia].
      destruct (proj2 HP _ _ Ep) as [(g0 & c0 & deps & ->) Hr]. pose proof En as En'.
      rewrite (node_at_eq _ _ _ Ep Hr) in En'. cbn in En'. injection En' as <- <- _.
      exists v'. unfold node_at in En. cbn [node_of]. rewrite En. cbn [refers]. split; [|auto].
      rewrite (Ha _ _ Hy Ep). cbn [state_at]. rewrite Ev. cbn [snd]. destruct v; try reflexivity.
      f_equal. symmetry. now apply Hv. }
  destruct E as (v' & -> & Hv). constructor; [exact Hv|]. apply IH. intros q y Hq. apply Hb. now right.
Qed.

Lemma goes_refl b os h vs : agree b h vs -> steady_caches vf P h -> goes b os h h vs vs.
Proof.
  intros Ha Hs. split; [exact Ha|]. split; [reflexivity|]. split; [reflexivity|]. split; [reflexivity|].
  split; [exact Hs|apply kept_refl].
Qed.
Lemma goes_trans b o1 o2 os h1 h2 h3 vs1 vs2 vs3 : (forall c, In c o1 \/ In c o2 -> In c os) ->
  goes b o1 h1 h2 vs1 vs2 -> goes b o2 h2 h3 vs2 vs3 -> goes b os h1 h3 vs1 vs3.
Proof.
  intros Ho (_ & L1 & U1 & F1 & _ & K1) (A2 & L2 & U2 & F2 & S2 & K2). split; [exact A2|]. split; [congruence|].
  split; [intros y Hy; rewrite U2, U1; auto|]. split; [intros c Hn Hb; rewrite F2, F1; auto|].
  split; [exact S2|eapply kept_trans; eauto].
Qed.

Lemma sstep_alone n : forall b p, b <= n -> (forall y, In y (refs_of p) -> y < b /\ y < length P) ->
  incl (cores p) (flat_map cores P) -> NoDup (own p) -> (forall c, In c (own p) -> ~ below b c) ->
  forall h w vs, agree b h vs -> length vs = length P -> steady_caches vf P h -> called b p h vs w n.
Proof.
  induction n as [n IHn] using lt_wf_ind. intros b p Hbn.
  induction p as [v ch|g c deps IH|x] using obj_ind'; intros Hr Hc Hnd Hb h w vs Ha Hl Hs.
  - exists (Ok (Imm v, ch)), (Ok (v, ch)), h, w, [], vs. rewrite sstep_eq. cbn [state_at node_of call alone].
    split; [reflexivity|]. split; [reflexivity|]. split; [now apply goes_refl|]. cbn. auto.
  - rewrite own_core in Hnd. apply ThreadThms.NoDup_app_inv in Hnd. destruct Hnd as (Hnd & _ & Hcc).
    assert (Hc' : ~ In c (flat_map own deps)) by (intros H; exact (Hcc _ H (or_introl eq_refl))). clear Hcc.
    assert (HD : exists r r' h' w' lg vs',
      alone U (calls U (map (node_of (nodes P)) deps)) h w = (r, h', w', lg) /\
      ssteps_with (sstep U n) (map (state_at h) deps) vs w = Some (r', map (state_at h') deps, vs', w', lg) /\
      goes b (flat_map own deps) h h' vs vs' /\
      match r, r' with Ok xs, Ok rs => all_later h' deps xs rs | Exc, Exc => True | _, _ => False end).
    { assert (Hr' : forall p y, In p deps -> In y (refs_of p) -> y < b /\ y < length P).
      { intros p y Hp Hy. apply Hr. cbn. apply in_flat_map. eauto. }
      assert (Hi : incl (flat_map cores deps) (flat_map cores P)).
      { intros z Hz. apply Hc. cbn. apply in_or_app. now left. }
      assert (Hb' : forall c, In c (flat_map own deps) -> ~ below b c).
      { intros z Hz. apply Hb. rewrite own_core. apply in_or_app. now left. }
      clear g c Hc Hc' Hr Hb. revert h w vs Ha Hl Hs. induction IH as [|d deps Hd _ IHd]; intros h w vs Ha Hl Hs.
      - exists (Ok []), (Ok []), h, w, [], vs. cbn. split; [reflexivity|]. split; [reflexivity|].
        split; [now apply goes_refl|constructor].
      - cbn [flat_map] in Hnd, Hi, Hb'. apply ThreadThms.NoDup_app_inv in Hnd. destruct Hnd as (N1 & N2 & N3).
        destruct (Hd (fun y => Hr' d y (or_introl eq_refl)) (fun z Hz => Hi z (in_or_app _ _ _ (or_introl Hz))) N1
                    (fun z Hz => Hb' z (in_or_app _ _ _ (or_introl Hz))) h w vs Ha Hl Hs)
          as (r & r' & h1 & w1 & l1 & vs1 & E1 & S1 & G1 & R1).
        cbn [map]. rewrite ssteps_cons, S1. cbn [calls calls_with]. fold (calls U). rewrite alone_bind, E1.
        assert (Et : map (state_at h) deps = map (state_at h1) deps).
        { symmetry. apply states_frame. intros z Hz. destruct G1 as (_ & _ & _ & F1 & _). apply F1.
          - intros Hz'. exact (N3 _ Hz' Hz).
          - apply Hb'. apply in_or_app. now right. }
        destruct r as [[x ch]| |], r' as [[v ch']| |]; try contradiction.
        + destruct R1 as [<- R1].
          destruct (IHd N2 (fun p y Hp => Hr' p y (or_intror Hp)) (fun z Hz => Hi z (in_or_app _ _ _ (or_intror Hz)))
                      (fun z Hz => Hb' z (in_or_app _ _ _ (or_intror Hz))) h1 w1 vs1)
            as (rs & rs' & h2 & w2 & l2 & vs2 & E2 & S2 & G2 & R2).
          { exact (proj1 G1). }
          { destruct G1 as (_ & L1 & _). congruence. }
          { exact (proj1 (proj2 (proj2 (proj2 (proj2 G1))))). }
          rewrite Et, S2, alone_bind, E2.
          assert (Ed : state_at h2 d = state_at h1 d).
          { apply state_frame. intros z Hz. destruct G2 as (_ & _ & _ & F2 & _). apply F2; [now apply N3|].
            apply Hb'. apply in_or_app. now left. }
          assert (G : goes b (own d ++ flat_map own deps) h h2 vs vs2).
          { eapply goes_trans; [|exact G1|exact G2]. intros z Hz. apply in_or_app. tauto. }
          destruct rs as [xs| |], rs' as [ys| |]; try contradiction.
          * exists (Ok ((x, ch) :: xs)), (Ok ((v, ch) :: ys)), h2, w2, (l1 ++ l2), vs2. cbn [alone]. rewrite app_nil_r, Ed.
            split; [reflexivity|]. split; [reflexivity|]. split; [exact G|]. constructor; [|exact R2].
            eapply refers_later_goes; [| | |exact G2|].
            -- intros z Hz. split; [now apply N3|]. apply Hb'. apply in_or_app. now left.
            -- intros y Hy. exact (proj2 (Hr' d y (or_introl eq_refl) Hy)).
            -- exact (proj1 (proj2 (proj2 (proj2 (proj2 G1))))).
            -- destruct d as [v0 c0|g0 c0 ds|y]; [exact R1|exact R1|]. cbn [refers_later].
               destruct (Hr' (ORef y) y (or_introl eq_refl) (or_introl eq_refl)) as [_ Hy].
               destruct (nth_error P y) as [p|] eqn:Ep; [|apply nth_error_None in Ep; lia].
               destruct (proj2 HP _ _ Ep) as [(g0 & c0 & ds & ->) Hr0]. pose proof (node_at_eq _ _ _ Ep Hr0) as En.
               cbn [node_of] in R1. fold (node_at P y) in R1. rewrite En in R1. cbn in R1. destruct R1 as [-> R1].
               rewrite En. cbn. exists g0, c0, (map (node_of (nodes P)) ds), v. split; [reflexivity|]. split; [reflexivity|].
               split; [exact R1|tauto].
          * exists Exc, Exc, h2, w2, (l1 ++ l2), vs2. rewrite Ed. auto.
        + exists Exc, Exc, h1, w1, l1, vs1. rewrite Et. split; [reflexivity|]. split; [reflexivity|]. split; [|exact I].
          eapply goes_trans; [|exact G1|apply goes_refl].
          * instantiate (1 := []). cbn [flat_map]. intros z [Hz|[]]. apply in_or_app. now left.
          * exact (proj1 G1).
          * exact (proj1 (proj2 (proj2 (proj2 (proj2 G1))))). }
    destruct HD as (r & r' & h1 & w1 & l1 & vs1 & E1 & S1 & G1 & R1).
    unfold called. cbn [node_of call state_at]. fold (calls U). rewrite sstep_eq, S1, alone_bind, E1.
    assert (Fc : h1 c = h c).
    { destruct G1 as (_ & _ & _ & F1 & _). apply F1; [exact Hc'|]. apply Hb. rewrite own_core. apply in_or_app. right. now left. }
    assert (Gw : goes b (own (OCore g c deps)) h h1 vs vs1).
    { eapply goes_trans; [|exact G1|apply goes_refl].
      - instantiate (1 := []). intros z [Hz|[]]. rewrite own_core. apply in_or_app. now left.
      - exact (proj1 G1).
      - exact (proj1 (proj2 (proj2 (proj2 (proj2 G1))))). }
    destruct r as [xs| |], r' as [rs| |]; try contradiction.
    2:{ exists Exc, Exc, h1, w1, l1, vs1. rewrite Fc. auto. }
    assert (Ec : ctad_tuple (fun _ : value * bool => None) rs = rs) by (destruct rs as [|? [|? ?]]; reflexivity).
    cbv zeta. rewrite Ec, <- Fc.
    assert (HR : all_refer h1 (map (node_of (nodes P)) deps) xs (read_refs vs1 (map (state_at h1) deps) rs)).
    { eapply all_later_read; [exact (proj1 G1)| |exact R1]. intros p y Hp Hy. apply Hr. cbn. apply in_flat_map. eauto. }
    destruct (core U g (h1 c) (read_refs vs1 (map (state_at h1) deps) rs) w1) as [[[r cache'] w2] l2] eqn:Eco.
    destruct (core_alone g c _ xs _ h1 w1 HR _ _ _ _ Eco) as (h2 & E2 & C1 & C2 & C3 & C4 & C5). rewrite E2.
    assert (Hin : In (g, c) (flat_map cores P)) by (apply Hc; cbn; apply in_or_app; right; now left).
    assert (Es : map (state_at h2) deps = map (state_at h1) deps).
    { apply states_frame. intros z Hz. apply C2. intros ->. contradiction. }
    assert (G2 : goes b [c] h1 h2 vs1 vs1).
    { split; [|split; [reflexivity|split; [reflexivity|split; [|split]]]].
      - intros y q Hy Eq. rewrite (proj1 G1 y q Hy Eq). f_equal. symmetry. apply state_frame. intros z Hz. apply C2. intros ->.
        apply (Hb c); [rewrite own_core; apply in_or_app; right; now left|]. exists y, q. auto.
      - intros z Hz _. apply C2. intros ->. apply Hz. now left.
      - apply (steady_update g c h1 h2); auto; [exact (proj1 (proj2 (proj2 (proj2 (proj2 G1)))))|]. intros v Ev. apply C4. congruence.
      - intros z Hz. destruct (Nat.eq_dec z c) as [->|Hne]; [rewrite C1; auto|]. now rewrite C2. }
    assert (G : goes b (own (OCore g c deps)) h h2 vs vs1).
    { eapply goes_trans; [|exact G1|exact G2]. intros z Hz. rewrite own_core. apply in_or_app. exact Hz. }
    destruct r as [[v ch]| |].
    + exists (Ok (At c, ch)), (Ok (v, ch)), h2, w2, (l1 ++ l2), vs1. rewrite C1, Es. cbn. rewrite C1. auto 6.
    + exists Exc, Exc, h2, w2, (l1 ++ l2), vs1. rewrite C1, Es. auto.
    + exfalso. revert Eco. unfold core. destruct (negb (is_some (h1 c)) || _) eqn:Ech.
      * destruct (call_fn U g _ w1) as [[[result|] w3] l3]; [|discriminate]. unfold opt_neq. discriminate.
      * destruct (h1 c); discriminate.
  - destruct (Hr x (or_introl eq_refl)) as [Hx Hxl]. destruct n as [|n]; [lia|].
    destruct (nth_error P x) as [p|] eqn:Ep; [|apply nth_error_None in Ep; lia].
    pose proof (proj2 (proj2 HP _ _ Ep)) as Hr0.
    destruct (IHn n (Nat.lt_succ_diag_r n) x p ltac:(lia)) with (h := h) (w := w) (vs := vs)
      as (r & r' & h1 & w1 & l1 & vs1 & E1 & S1 & G1 & R1); auto.
    { intros y Hy. specialize (Hr0 _ Hy). lia. }
    { intros z Hz. apply in_flat_map. exists p. split; [eapply nth_error_In; eauto|exact Hz]. }
    { eapply own_nodup; eauto. }
    { intros z Hz. eapply own_not_below; eauto. }
    { intros y q Hy Eq. apply Ha; [lia|exact Eq]. }
    unfold called. rewrite sstep_eq. cbn [node_of state_at]. fold (node_at P x). rewrite (node_at_eq _ _ _ Ep Hr0).
    rewrite (Ha _ _ Hx Ep), S1, E1. exists r, r', h1, w1, l1, (update x (state_at h1 p) vs1).
    split; [reflexivity|]. split; [reflexivity|]. split; [|exact R1].
    destruct G1 as (A1 & L1 & U1 & F1 & S1' & K1). split; [|split; [|split; [|split; [|split; [exact S1'|exact K1]]]]].
    + intros y q Hy Eq. rewrite nth_error_update. destruct (Nat.eqb_spec x y) as [<-|Hne].
      * rewrite Ep in Eq. injection Eq as <-. destruct (Nat.ltb_spec x (length vs1)); [reflexivity|lia].
      * destruct (Nat.lt_ge_cases y x) as [Hlt|Hge]; [now apply A1|]. rewrite U1 by exact Hge. rewrite (Ha _ _ Hy Eq). f_equal.
        symmetry. apply state_frame. intros z Hz. apply F1.
        -- intros Hz'. apply Hne. eapply own_apart; eauto.
        -- intros (y' & q' & Hy' & Eq' & Hz'). assert (y = y') by (eapply own_apart; eauto). lia.
    + rewrite update_length. exact L1.
    + intros y Hy. rewrite nth_error_update. destruct (Nat.eqb_spec x y); [lia|]. apply U1. lia.
    + intros z _ Hz. apply F1.
      * intros Hz'. apply Hz. exists x, p. auto.
      * intros Hz'. apply Hz. eapply below_mono; [|exact Hz']. lia.
Qed.

Lemma nth_all (h : heap) (vs : list slz) : agree (length P) h vs -> length vs = length P -> vs = map (state_at h) P.
Proof.
  intros Ha Hl. apply nth_ext with (d := SRef 0) (d' := SRef 0); [now rewrite map_length|]. intros y Hy. rewrite Hl in Hy.
  destruct (nth_error P y) as [q|] eqn:Eq; [|apply nth_error_None in Eq; lia].
  rewrite (nth_error_nth _ _ _ (Ha _ _ Hy Eq)). symmetry. apply nth_error_nth. now rewrite nth_error_map, Eq.
Qed.

(** [x()]. *)
Theorem api_shared x (h : heap) w : x < length P -> steady_caches vf P h ->
  let '(r, h', w', lg) := alone U (call_api U (node_at P x)) h w in
  sexec U (SCall x) (mkSState (map (state_at h) P) w) = Some (mkSState (map (state_at h') P) w', (Some r, lg)) /\
  r <> UB /\ steady_caches vf P h'.
Proof.
  intros Hx Hs. destruct (nth_error P x) as [p|] eqn:Ep; [|apply nth_error_None in Ep; lia].
  pose proof (proj2 (proj2 HP _ _ Ep)) as Hr0. set (vs := map (state_at h) P).
  assert (Hvs : forall y q, nth_error P y = Some q -> nth_error vs y = Some (state_at h q)).
  { intros y q Eq. unfold vs. now rewrite nth_error_map, Eq. }
  destruct (sstep_alone (length P) x p) with (h := h) (w := w) (vs := vs)
    as (r & r' & h1 & w1 & l1 & vs1 & E1 & S1 & G1 & R1); auto; try lia.
  { intros y Hy. specialize (Hr0 _ Hy). lia. }
  { intros z Hz. apply in_flat_map. exists p. split; [eapply nth_error_In; eauto|exact Hz]. }
  { eapply own_nodup; eauto. }
  { intros z Hz. eapply own_not_below; eauto. }
  { intros y q Hy Eq. now apply Hvs. }
  { unfold vs. apply map_length. }
  destruct G1 as (A1 & L1 & U1 & F1 & S1' & K1).
  assert (El : length vs = length P) by (unfold vs; apply map_length).
  assert (Ev : update x (state_at h1 p) vs1 = map (state_at h1) P).
  { apply nth_all; [|rewrite update_length; congruence]. intros y q Hy Eq. rewrite nth_error_update.
    destruct (Nat.eqb_spec x y) as [<-|Hne].
    - rewrite Ep in Eq. injection Eq as <-. destruct (Nat.ltb_spec x (length vs1)); [reflexivity|lia].
    - destruct (Nat.lt_ge_cases y x) as [Hlt|Hge]; [now apply A1|]. rewrite U1 by exact Hge. rewrite (Hvs _ _ Eq). f_equal.
      symmetry. apply state_frame. intros z Hz. apply F1.
      + intros Hz'. apply Hne. eapply own_apart; eauto.
      + intros (y' & q' & Hy' & Eq' & Hz'). assert (y = y') by (eapply own_apart; eauto). lia. }
  unfold call_api. rewrite alone_bind, (node_at_eq _ _ _ Ep Hr0), E1. cbn [sexec svars sworld].
  rewrite (Hvs _ _ Ep), El, S1, Ev.
  destruct r as [[y ch]| |], r' as [[v ch']| |]; try contradiction.
  - destruct R1 as [<- R1]. rewrite alone_bind. cbn [fst].
    assert (Ef : alone U (fetch y) h1 w1 = (Ok v, h1, w1, [])).
    { destruct (node_of (nodes P) p); destruct R1 as [-> E]; cbn; [reflexivity|]. now rewrite E. }
    rewrite Ef. cbn [alone app]. rewrite app_nil_r. split; [|split; [discriminate|exact S1']]. destruct v; reflexivity.
  - split; [reflexivity|]. split; [discriminate|exact S1'].
Qed.

(** The calls of a thread. *)
Theorem thread_shared xs : forall (h : heap) w, Forall (fun x => x < length P) xs -> steady_caches vf P h ->
  exists rs h' w' lg outs,
  alone U (thread U (map (fun x => TCall (node_at P x)) xs)) h w = (Ok rs, h', w', lg) /\
  srun U (map SCall xs) (mkSState (map (state_at h) P) w) = Some (mkSState (map (state_at h') P) w', outs) /\
  map fst outs = map Some rs /\ lg = concat (map snd outs).
Proof.
  induction xs as [|x xs IH]; intros h w Hx Hs.
  - exists [], h, w, [], []. repeat split.
  - inversion Hx as [|? ? Hx1 Hx2]; subst. pose proof (api_shared x h w Hx1 Hs) as HA.
    cbn [map thread srun]. rewrite alone_catching.
    destruct (alone U (call_api U (node_at P x)) h w) as [[[r h1] w1] l1]. destruct HA as (-> & Hub & Hs1).
    destruct (IH h1 w1 Hx2 Hs1) as (rs & h2 & w2 & l2 & outs & E1 & E2 & E3 & E4). rewrite E2.
    exists (r :: rs), h2, w2, (l1 ++ l2), ((Some r, l1) :: outs).
    assert (EA : forall r0 : res (option value), alone U (bind (thread U (map (fun x => TCall (node_at P x)) xs)) (fun rs => Ret (r0 :: rs))) h1 w1 =
                 (Ok (r0 :: rs), h2, w2, l2)).
    { intros r0. rewrite alone_bind, E1. cbn. now rewrite app_nil_r. }
    split; [|split; [reflexivity|cbn; now rewrite E3, E4]].
    destruct r as [o| |]; [now rewrite EA|now rewrite EA|congruence].
Qed.

(** ** What variables have in common *)
Fixpoint parts (p : obj) : list obj :=
  match p with
  | OCore g c deps => flat_map parts deps ++ [p]
  | _ => []
  end.
Definition cache_of (p : obj) : loc := match p with OCore _ c _ => c | _ => 0 end.

Lemma parts_own p : map cache_of (parts p) = own p.
Proof.
  induction p as [v ch|g c deps IH|x] using obj_ind'; [reflexivity| |reflexivity]. rewrite own_core. cbn [parts]. rewrite map_app.
  f_equal. induction IH as [|d deps Hd _ IHd]; [reflexivity|]. cbn [flat_map]. now rewrite map_app, Hd, IHd.
Qed.
Lemma unique_part (l : list obj) q q' : NoDup (map cache_of l) -> In q l -> In q' l -> cache_of q = cache_of q' -> q = q'.
Proof.
  induction l as [|p l IH]; intros Hn H1 H2 E; [destruct H1|]. cbn [map] in Hn. inversion Hn as [|? ? N1 N2]; subst.
  destruct H1 as [->|H1], H2 as [->|H2]; auto.
  - destruct N1. rewrite E. now apply in_map.
  - destruct N1. rewrite <- E. now apply in_map.
Qed.

Lemma sub_parts g c deps (p : obj) : sub (NCore g c deps) (node_of (nodes P) p) ->
  (exists q, In q (parts p) /\ NCore g c deps = node_of (nodes P) q /\ cache_of q = c) \/
  exists y, In y (refs_of p) /\ sub (NCore g c deps) (node_at P y).
Proof.
  induction p as [v ch|g0 c0 ds IH|x] using obj_ind'; intros H; cbn [node_of] in H.
  - inversion H.
  - inversion H as [E|g1 c1 ds1 d Hd Hs]; subst.
    + left. exists (OCore g0 c0 ds). split; [cbn; apply in_or_app; right; now left|]. split; reflexivity.
    + apply in_map_iff in Hd. destruct Hd as (p & <- & Hp). rewrite Forall_forall in IH.
      destruct (IH p Hp Hs) as [(q & Hq & Eq)|(y & Hy & Hy2)].
      * left. exists q. split; [cbn; apply in_or_app; left; apply in_flat_map; eauto|exact Eq].
      * right. exists y. split; [cbn; apply in_flat_map; eauto|exact Hy2].
  - right. exists x. split; [now left|exact H].
Qed.

Lemma sub_var g c deps x : x < length P -> sub (NCore g c deps) (node_at P x) ->
  exists z p q, reaches P x z /\ nth_error P z = Some p /\ In q (parts p) /\ NCore g c deps = node_of (nodes P) q /\ cache_of q = c.
Proof.
  induction x as [x IH] using lt_wf_ind. intros Hx Hs.
  destruct (nth_error P x) as [p|] eqn:Ep; [|apply nth_error_None in Ep; lia].
  pose proof (proj2 (proj2 HP _ _ Ep)) as Hr0. rewrite (node_at_eq _ _ _ Ep Hr0) in Hs.
  destruct (sub_parts _ _ _ _ Hs) as [(q & Hq & Eq & Ec)|(y & Hy & Hy2)].
  - exists x, p, q. repeat split; auto. constructor.
  - pose proof (Hr0 _ Hy) as Hl. destruct (IH y Hl ltac:(lia) Hy2) as (z & pz & q & H1 & H2 & H3 & H4 & H5).
    exists z, pz, q. repeat split; auto. eapply reaches_ref; eauto.
Qed.

Lemma refs_sub (p : obj) y : In y (refs_of p) -> sub (node_at P y) (node_of (nodes P) p).
Proof.
  induction p as [v ch|g c deps IH|x] using obj_ind'; intros H; [destruct H| |].
  - cbn [refs_of] in H. apply in_flat_map in H. destruct H as (d & Hd & Hy). rewrite Forall_forall in IH.
    cbn [node_of]. eapply sub_dep; [apply in_map; exact Hd|]. auto.
  - destruct H as [->|[]]. constructor.
Qed.
Lemma reaches_sub x z : reaches P x z -> sub (node_at P z) (node_at P x).
Proof.
  induction 1 as [x|x p y z Hp Hy _ IH]; [constructor|]. eapply sub_trans; [exact IH|].
  rewrite (node_at_eq _ _ _ Hp (proj2 (proj2 HP _ _ Hp))). now apply refs_sub.
Qed.
Lemma part_sub (p q : obj) : In q (parts p) -> sub (node_of (nodes P) q) (node_of (nodes P) p).
Proof.
  induction p as [v ch|g c deps IH|x] using obj_ind'; intros H; [destruct H| |destruct H].
  cbn [parts] in H. apply in_app_or in H. destruct H as [H|[<-|[]]]; [|constructor].
  apply in_flat_map in H. destruct H as (d & Hd & Hq). rewrite Forall_forall in IH. cbn [node_of].
  eapply sub_dep; [apply in_map; exact Hd|]. auto.
Qed.

Lemma share_apart (h : heap) (thr : list (list nat)) : Forall (Forall (fun x => x < length P)) thr -> share_settled P h thr ->
  forall i j ns ms n m g c deps,
  nth_error (map (map (node_at P)) thr) i = Some ns -> nth_error (map (map (node_at P)) thr) j = Some ms -> In n ns -> In m ms ->
  sub (NCore g c deps) n -> settled h (NCore g c deps) = false -> In c (locs m) ->
  i = j /\ forall k, sub k m -> settled h k = true -> ~ In c (locs k).
Proof.
  intros Hx Hsh i j ns ms n m g c deps Ei Ej Hn Hm Hs Hz Hc. rewrite nth_error_map in Ei, Ej.
  destruct (nth_error thr i) as [xs|] eqn:Xi; [|discriminate]. destruct (nth_error thr j) as [ys|] eqn:Xj; [|discriminate].
  injection Ei as <-. injection Ej as <-. apply in_map_iff in Hn. destruct Hn as (x & <- & Hn). apply in_map_iff in Hm. destruct Hm as (y & <- & Hm).
  rewrite Forall_forall in Hx. pose proof (Hx _ (nth_error_In _ _ Xi)) as Hxi. pose proof (Hx _ (nth_error_In _ _ Xj)) as Hxj.
  rewrite Forall_forall in Hxi, Hxj.
  destruct (sub_var _ _ _ _ (Hxi _ Hn) Hs) as (z & p & q & R1 & Ep & Hq & Eq & Ecq).
  assert (HU : forall g' ds', sub (NCore g' c ds') (node_at P y) -> NCore g' c ds' = NCore g c deps /\ reaches P y z).
  { intros g' ds' Hs'. destruct (sub_var _ _ _ _ (Hxj _ Hm) Hs') as (z' & p' & q' & R2 & Ep' & Hq' & Eq' & Ecq').
    assert (H1 : In c (own p)) by (rewrite <- parts_own, <- Ecq; now apply in_map).
    assert (H2 : In c (own p')) by (rewrite <- parts_own, <- Ecq'; now apply in_map).
    assert (z = z') as <- by (eapply own_apart; eauto). rewrite Ep in Ep'. injection Ep' as <-.
    assert (q = q') as <-.
    { eapply unique_part; [|exact Hq|exact Hq'|congruence]. rewrite parts_own. eapply own_nodup; eauto. }
    split; [congruence|exact R2]. }
  split.
  - destruct (Nat.eq_dec i j) as [|Hne]; [assumption|]. exfalso. destruct (locs_sub _ _ Hc) as (g' & ds' & Hs').
    destruct (HU _ _ Hs') as [_ R2]. pose proof (Hsh i j xs ys x y z Hne Xi Xj Hn Hm R1 R2) as Hset.
    assert (H : settled h (NCore g c deps) = true); [|congruence]. eapply sub_settled; [|exact Hset]. rewrite Eq.
    rewrite (node_at_eq _ _ _ Ep (proj2 (proj2 HP _ _ Ep))). now apply part_sub.
  - intros k Hk Hks Hck. destruct (locs_sub _ _ Hck) as (g' & ds' & Hs'). destruct (HU g' ds') as [E _]; [eapply sub_trans; eauto|].
    rewrite E in Hs'. assert (H : settled h (NCore g c deps) = true) by (eapply sub_settled; eauto). congruence.
Qed.

Lemma calling_nodes (thr : list (list nat)) : map (calling U P) thr = map (fun ns => thread U (map TCall ns)) (map (map (node_at P)) thr).
Proof. rewrite map_map. apply map_ext. intros xs. unfold calling. now rewrite map_map. Qed.

Theorem shared_no_race (h : heap) (thr : list (list nat)) w sched s' tr :
  Forall (Forall (fun x => x < length P)) thr -> share_settled P h thr ->
  interleave U sched (mkConf (map (calling U P) thr) h w) = (s', tr) -> ~ racy tr.
Proof.
  intros Hx Hsh E. rewrite calling_nodes in E. exact (proj1 (apart_threads _ _ _ _ _ _ (share_apart h thr Hx Hsh) E)).
Qed.

Theorem shared_threads (h : heap) (thr : list (list nat)) w sched s' tr :
  Forall (Forall (fun x => x < length P)) thr -> share_settled P h thr -> steady_caches vf P h -> reads_only U -> undisturbed sched ->
  interleave U sched (mkConf (map (calling U P) thr) h w) = (s', tr) ->
  forall i xs p r, nth_error thr i = Some xs -> nth_error (threads s') i = Some p -> ended p = Some r ->
  exists rs st outs, r = Ok rs /\ srun U (map SCall xs) (mkSState (map (state_at h) P) w) = Some (st, outs) /\
    map fst outs = map Some rs /\
    forall x z l, In x xs -> reaches P x z -> nth_error (svars st) z = Some l -> option_map (state_at (mem s')) (nth_error P z) = Some l.
Proof.
  intros Hx Hsh Hs Hu Hd E i xs p r Ei Ep Er. rewrite calling_nodes in E.
  destruct (apart_threads _ _ _ _ _ _ (share_apart h thr Hx Hsh) E) as [_ H].
  destruct (H i (map (node_at P) xs)) as (p' & h' & Ep' & Hf & Hm); [now rewrite nth_error_map, Ei|].
  rewrite Ep in Ep'. injection Ep' as <-.
  destruct (same_world U sched Hu Hd _ _ _ E) as [_ Hw]. cbn [wrld] in Hw.
  assert (Ha : Forall (in_world w) (acts_of i tr)).
  { apply Forall_forall. intros a Hin. apply acts_in in Hin. rewrite Forall_forall in Hw. exact (Hw _ Hin). }
  destruct (follows_alone U w _ Hu Ha _ _ _ _ _ Hf Er) as [lg Hl]. rewrite map_map in Hl.
  rewrite Forall_forall in Hx. pose proof (Hx _ (nth_error_In _ _ Ei)) as Hxs.
  destruct (thread_shared xs h w Hxs Hs) as (rs & h2 & w2 & l2 & outs & E1 & E2 & E3 & _).
  rewrite Hl in E1. injection E1 as -> <- <- <-. do 3 eexists. split; [reflexivity|]. split; [exact E2|]. split; [exact E3|].
  intros x z l Hxi Hz El. cbn [svars] in El. rewrite nth_error_map in El. destruct (nth_error P z) as [q|] eqn:Eq; [|discriminate].
  cbn in *. injection El as <-. f_equal. symmetry. apply state_frame. intros c Hc. apply (Hm (node_at P x)); [now apply in_map|].
  eapply sub_locs; [eapply reaches_sub; exact Hz|]. rewrite (node_at_eq _ _ _ Eq (proj2 (proj2 HP _ _ Eq))).
  rewrite <- parts_own in Hc. apply in_map_iff in Hc. destruct Hc as (q' & <- & Hq). eapply sub_locs; [eapply part_sub; exact Hq|].
  clear -Hq. induction q as [v ch|g c deps IH|y] using obj_ind'; [destruct Hq| |destruct Hq].
  cbn [parts] in Hq. apply in_app_or in Hq. destruct Hq as [Hq|[<-|[]]].
  - apply in_flat_map in Hq. destruct Hq as (d & Hd & Hq). rewrite Forall_forall in IH. eauto.
  - cbn. apply in_or_app. right. now left.
Qed.

Theorem shared_race zero (h : heap) (thr : list (list nat)) w i j xs ys ki kj x y z ri rj vi vj sched s' tr :
  made zero (node_at P z) -> settled h (node_at P z) = false -> i <> j -> reaches P x z -> reaches P y z ->
  nth_error thr i = Some xs -> nth_error thr j = Some ys -> nth_error xs ki = Some x -> nth_error ys kj = Some y ->
  interleave U sched (mkConf (map (calling U P) thr) h w) = (s', tr) ->
  nth_error (threads s') i = Some (Ret ri) -> nth_error (threads s') j = Some (Ret rj) ->
  nth_error ri ki = Some (Ok vi) -> nth_error rj kj = Some (Ok vj) ->
  racy tr.
Proof.
  intros Hm Hs Hij R1 R2 Ei Ej Ki Kj E Ri Rj Vi Vj. rewrite calling_nodes in E.
  apply (race_below zero (node_at P z) h w (map (map (node_at P)) thr) i j (map (node_at P) xs) (map (node_at P) ys) ki kj
           (node_at P x) (node_at P y) vi vj ri rj sched s' tr); auto.
  - now apply reaches_sub.
  - now apply reaches_sub.
  - now rewrite nth_error_map, Ei.
  - now rewrite nth_error_map, Ej.
  - now rewrite nth_error_map, Ki.
  - now rewrite nth_error_map, Kj.
Qed.
End Program.

(** ** The variables of a program can be laid out *)
Fixpoint made_obj (zero : A) (p : obj) : Prop :=
  match p with
  | OValue _ ch => ch = false
  | OCore (FnSample _) _ deps => deps = [OValue (VAtom zero) true]
  | OCore (FnUser _) _ deps => (fix all (ps : list obj) : Prop := match ps with [] => True | p :: ps' => made_obj zero p /\ all ps' end) deps
  | ORef _ => True
  end.
Lemma made_obj_user zero f c (deps : list obj) : made_obj zero (OCore (FnUser f) c deps) <-> Forall (made_obj zero) deps.
Proof. cbn. induction deps as [|d deps IH]; [split; auto|]. rewrite IH. split; [intros []; auto|]. inversion 1; auto. Qed.
Lemma made_user zero f c (deps : list node) : made zero (NCore (FnUser f) c deps) <-> Forall (made zero) deps.
Proof. cbn. induction deps as [|d deps IH]; [split; auto|]. rewrite IH. split; [intros []; auto|]. inversion 1; auto. Qed.

Lemma made_node_of zero (ns : list node) (p : obj) : made_obj zero p -> (forall y, In y (refs_of p) -> made zero (nth y ns (NValue VVoid false))) ->
  made zero (node_of ns p).
Proof.
  induction p as [v ch|[f|d] c deps IH|x] using obj_ind'; intros Hm Hr.
  - exact Hm.
  - cbn [node_of]. apply made_user. rewrite made_obj_user in Hm. cbn [refs_of] in Hr.
    induction IH as [|d deps Hd _ IHd]; cbn [map]; [constructor|]. inversion Hm as [|? ? M1 M2]; subst. constructor.
    + apply Hd; [exact M1|]. intros y Hy. apply Hr. cbn. apply in_or_app. now left.
    + apply IHd; [exact M2|]. intros y Hy. apply Hr. cbn. apply in_or_app. now right.
  - cbn in Hm. subst deps. reflexivity.
  - cbn [node_of]. apply Hr. now left.
Qed.
Lemma made_vars zero (P : list obj) : laid_out P -> Forall (made_obj zero) P -> forall z, made zero (node_at P z).
Proof.
  intros HP Hm z. induction z as [z IH] using lt_wf_ind. destruct (nth_error P z) as [p|] eqn:Ep.
  - pose proof (proj2 (proj2 HP _ _ Ep)) as Hr. rewrite (node_at_eq _ _ _ Ep Hr). apply made_node_of.
    + rewrite Forall_forall in Hm. apply Hm. eapply nth_error_In; eauto.
    + intros y Hy. apply IH. now apply Hr.
  - apply nth_error_None in Ep. unfold node_at. rewrite nth_overflow by now rewrite nodes_length. reflexivity.
Qed.

(** A copy, elsewhere. *)
Fixpoint shifted (k : nat) (p : obj) : obj :=
  match p with
  | OValue v ch => OValue v ch
  | OCore g c deps => OCore g (c + k) (map (shifted k) deps)
  | ORef x => ORef x
  end.
Lemma shifted_cores k (p : obj) : cores (shifted k p) = map (fun gc => (fst gc, snd gc + k)) (cores p).
Proof.
  induction p as [v ch|g c deps IH|x] using obj_ind'; [reflexivity| |reflexivity]. cbn [shifted cores]. rewrite map_app. f_equal.
  induction IH as [|d deps Hd _ IHd]; [reflexivity|]. cbn [map flat_map]. now rewrite map_app, Hd, IHd.
Qed.
Lemma shifted_own k (p : obj) : own (shifted k p) = map (fun c => c + k) (own p).
Proof. unfold own. rewrite shifted_cores, !map_map. reflexivity. Qed.
Lemma shifted_refs k (p : obj) : refs_of (shifted k p) = refs_of p.
Proof.
  induction p as [v ch|g c deps IH|x] using obj_ind'; [reflexivity| |reflexivity]. cbn [shifted refs_of].
  induction IH as [|d deps Hd _ IHd]; [reflexivity|]. cbn [map flat_map]. now rewrite Hd, IHd.
Qed.
Lemma shifted_state k (h h' : heap) (p : obj) : (forall c, In c (own p) -> h' (c + k) = h c) -> state_at h' (shifted k p) = state_at h p.
Proof.
  induction p as [v ch|g c deps IH|x] using obj_ind'; intros H; [reflexivity| |reflexivity]. cbn [shifted state_at].
  rewrite own_core in H. rewrite (H c) by (apply in_or_app; right; now left). f_equal.
  assert (H' : forall c, In c (flat_map own deps) -> h' (c + k) = h c) by (intros; apply H; apply in_or_app; now left).
  clear H. induction IH as [|d deps Hd _ IHd]; [reflexivity|]. cbn [map flat_map] in *. f_equal.
  - apply Hd. intros. apply H'. apply in_or_app. now left.
  - apply IHd. intros. apply H'. apply in_or_app. now right.
Qed.
Lemma shifted_made zero k (p : obj) : made_obj zero p -> made_obj zero (shifted k p).
Proof.
  induction p as [v ch|[f|d] c deps IH|x] using obj_ind'; intros Hm; cbn [shifted]; [exact Hm| | |exact Hm].
  - apply made_obj_user. rewrite made_obj_user in Hm. induction IH as [|d deps Hd _ IHd]; cbn [map]; [constructor|].
    inversion Hm; subst. constructor; auto.
  - cbn in *. now subst deps.
Qed.

Section Layout.
Variable vf : fnobj fid did -> bool.
Hypothesis Hvf : steady U vf.
Notation zero := (int0 U).

(** A new object [p]: its caches lie between [B] and [B']. *)
Definition fresh (P : list obj) (B B' : nat) (h' : heap) (p : obj) : Prop :=
  B <= B' /\ NoDup (own p) /\ (forall c, In c (own p) -> B <= c < B') /\
  (forall g c v, In (g, c) (cores p) -> h' c = Some v -> (v = VVoid <-> vf g = true)) /\
  (forall y, In y (refs_of p) -> y < length P) /\ made_obj zero p.
Definition bounded (P : list obj) (B : nat) : Prop := forall c, In c (flat_map own P) -> c < B.

Lemma copy_laid (P : list obj) (h : heap) B x p : laid_out P -> steady_caches vf P h -> bounded P B -> Forall (made_obj zero) P ->
  nth_error P x = Some p ->
  exists h', (forall c, c < B -> h' c = h c) /\ fresh P B (B + B) h' (shifted B p) /\ state_at h' (shifted B p) = state_at h p.
Proof.
  intros HP Hs HB Hm Ep. exists (fun c => if c <? B then h c else h (c - B)).
  assert (Hin : In p P) by (eapply nth_error_In; eauto).
  assert (Hlt : forall c, In c (own p) -> c < B) by (intros c Hc; apply HB; apply in_flat_map; eauto).
  split; [intros c Hc; destruct (Nat.ltb_spec c B); [reflexivity|lia]|].
  assert (Eh : forall c, (if c + B <? B then h (c + B) else h (c + B - B)) = h c).
  { intros c. destruct (Nat.ltb_spec (c + B) B); [lia|]. f_equal. lia. }
  split; [|apply shifted_state; intros c _; apply Eh].
  split; [lia|]. split.
  { rewrite shifted_own. apply FinFun.Injective_map_NoDup; [intros a b E; lia|]. eapply own_nodup; eauto. }
  split. { rewrite shifted_own. intros c Hc. apply in_map_iff in Hc. destruct Hc as (c' & <- & Hc). specialize (Hlt _ Hc). lia. }
  split.
  { intros g c v Hi E. rewrite shifted_cores in Hi. apply in_map_iff in Hi. destruct Hi as ([g' c'] & E' & Hi). cbn in E'.
    injection E' as <- <-. rewrite Eh in E. apply (Hs g' c' v); [|exact E]. apply in_flat_map. eauto. }
  split.
  { rewrite shifted_refs. intros y Hy. pose proof (proj2 (proj2 HP _ _ Ep) _ Hy) as Hl.
    assert (x < length P) by (apply nth_error_Some; congruence). lia. }
  apply shifted_made. rewrite Forall_forall in Hm. auto.
Qed.

Lemma dep_laid (P : list obj) (h : heap) B d l : laid_out P -> steady_caches vf P h -> bounded P B -> Forall (made_obj zero) P ->
  sdep_of U (map (state_at h) P) d = Some l ->
  exists p h' B', (forall c, c < B -> h' c = h c) /\ fresh P B B' h' p /\ state_at h' p = l.
Proof.
  intros HP Hs HB Hm E. destruct d as [x|[x|d|v]]; cbn [sdep_of] in E.
  - rewrite nth_error_map in E. destruct (nth_error P x) as [q|] eqn:Eq; [|discriminate]. cbn in E. injection E as <-.
    exists (ORef x), h, B. split; [auto|]. split; [|reflexivity].
    split; [lia|]. split; [constructor|]. split; [intros c []|]. split; [intros g c v []|]. split; [|exact I].
    intros y [<-|[]]. apply nth_error_Some. congruence.
  - rewrite nth_error_map in E. destruct (nth_error P x) as [q|] eqn:Eq; [|discriminate]. cbn in E. injection E as <-.
    destruct (copy_laid P h B x q HP Hs HB Hm Eq) as (h' & H1 & H2 & H3). exists (shifted B q), h', (B + B). auto.
  - injection E as <-. exists (OCore (FnSample d) B [OValue (VAtom zero) true]), (fun c => if c =? B then None else h c), (S B).
    split; [intros c Hc; destruct (Nat.eqb_spec c B); [lia|reflexivity]|]. split.
    + split; [lia|]. split; [repeat constructor; intros []|]. split; [cbn; intros c [<-|[]]; lia|]. split.
      * intros g c v [E|[]] Ec. injection E as <- <-. rewrite Nat.eqb_refl in Ec. discriminate.
      * split; [intros y []|reflexivity].
    + cbn. now rewrite Nat.eqb_refl.
  - injection E as <-. exists (OValue v false), h, B. split; [auto|]. split; [|reflexivity].
    split; [lia|]. split; [constructor|]. split; [intros c []|]. split; [intros g c v0 []|]. split; [intros y []|reflexivity].
Qed.

Lemma steady_below (P : list obj) (h h' : heap) B : bounded P B -> (forall c, c < B -> h' c = h c) -> steady_caches vf P h -> steady_caches vf P h'.
Proof.
  intros HB Hh Hs g c v Hi E. apply (Hs g c v Hi). rewrite <- Hh; [exact E|]. apply HB. rewrite <- own_all.
  apply in_map_iff. exists (g, c). auto.
Qed.
Lemma states_below (P : list obj) (h h' : heap) B : bounded P B -> (forall c, c < B -> h' c = h c) -> map (state_at h') P = map (state_at h) P.
Proof. intros HB Hh. apply states_frame. intros c Hc. apply Hh. now apply HB. Qed.

Lemma deps_laid (P : list obj) ds : forall (h : heap) B ls, laid_out P -> steady_caches vf P h -> bounded P B -> Forall (made_obj zero) P ->
  sdeps_of U (map (state_at h) P) ds = Some ls ->
  exists ps h' B', (forall c, c < B -> h' c = h c) /\ map (state_at h') ps = ls /\ B <= B' /\
    NoDup (flat_map own ps) /\ (forall c, In c (flat_map own ps) -> B <= c < B') /\
    (forall g c v, In (g, c) (flat_map cores ps) -> h' c = Some v -> (v = VVoid <-> vf g = true)) /\
    (forall y, In y (flat_map refs_of ps) -> y < length P) /\ Forall (made_obj zero) ps.
Proof.
  induction ds as [|d ds IH]; intros h B ls HP Hs HB Hm E; cbn [sdeps_of] in E.
  - injection E as <-. exists [], h, B. split; [auto|]. split; [reflexivity|]. split; [lia|]. split; [constructor|].
    split; [intros c []|]. split; [intros g c v []|]. split; [intros y []|constructor].
  - destruct (sdep_of U (map (state_at h) P) d) as [l|] eqn:Ed; [|discriminate].
    destruct (sdeps_of U (map (state_at h) P) ds) as [ls'|] eqn:Eds; [|discriminate]. injection E as <-.
    destruct (dep_laid P h B d l HP Hs HB Hm Ed) as (p & h1 & B1 & F1 & (G1 & G2 & G3 & G4 & G5 & G6) & <-).
    rewrite <- (states_below P h h1 B HB F1) in Eds.
    destruct (IH h1 B1 ls' HP (steady_below P h h1 B HB F1 Hs)) as (ps & h2 & B2 & F2 & <- & K1 & K2 & K3 & K4 & K5 & K6); auto.
    { intros c Hc. specialize (HB _ Hc). lia. }
    exists (p :: ps), h2, B2. cbn [map flat_map].
    assert (Ep : state_at h2 p = state_at h1 p) by (apply state_frame; intros c Hc; apply F2; now apply G3).
    split; [intros c Hc; rewrite F2, F1; [reflexivity|lia|lia]|]. split; [now rewrite Ep|]. split; [lia|]. split.
    { apply NoDup_app_intro; auto. intros c H1 H2. specialize (G3 _ H1). specialize (K3 _ H2). lia. }
    split. { intros c Hc. apply in_app_or in Hc. destruct Hc as [Hc|Hc]; [specialize (G3 _ Hc)|specialize (K3 _ Hc)]; lia. }
    split.
    { intros g c v Hi Ec. apply in_app_or in Hi. destruct Hi as [Hi|Hi]; [|now apply (K4 g c v)]. apply (G4 g c v Hi).
      rewrite <- F2; [exact Ec|]. apply G3. unfold own. apply in_map_iff. exists (g, c). auto. }
    split; [|now constructor]. intros y Hy. apply in_app_or in Hy. destruct Hy; auto.
Qed.

Lemma extend (P : list obj) (h h' : heap) B B' p : laid_out P -> steady_caches vf P h -> bounded P B -> Forall (made_obj zero) P ->
  (forall c, c < B -> h' c = h c) -> fresh P B B' h' p -> (exists g c deps, p = OCore g c deps) ->
  laid_out (P ++ [p]) /\ steady_caches vf (P ++ [p]) h' /\ bounded (P ++ [p]) B' /\ Forall (made_obj zero) (P ++ [p]) /\
  map (state_at h') (P ++ [p]) = map (state_at h) P ++ [state_at h' p].
Proof.
  intros HP Hs HB Hm Hh (G1 & G2 & G3 & G4 & G5 & G6) Hc. split; [|split; [|split; [|split]]].
  - split.
    + rewrite flat_map_app. cbn [flat_map]. rewrite app_nil_r. apply NoDup_app_intro; [exact (proj1 HP)|exact G2|].
      intros c H1 H2. specialize (HB _ H1). specialize (G3 _ H2). lia.
    + intros x q Eq. destruct (Nat.lt_ge_cases x (length P)) as [Hl|Hl].
      * rewrite nth_error_app1 in Eq by exact Hl. exact (proj2 HP _ _ Eq).
      * rewrite nth_error_app2 in Eq by exact Hl. destruct (x - length P) as [|k]; [|destruct k; discriminate].
        injection Eq as <-. split; [exact Hc|]. intros y Hy. specialize (G5 _ Hy). lia.
  - intros g c v Hi E. rewrite flat_map_app in Hi. cbn [flat_map] in Hi. rewrite app_nil_r in Hi. apply in_app_or in Hi.
    destruct Hi as [Hi|Hi]; [|exact (G4 g c v Hi E)]. exact (steady_below P h h' B HB Hh Hs g c v Hi E).
  - intros c Hi. rewrite flat_map_app in Hi. cbn [flat_map] in Hi. rewrite app_nil_r in Hi. apply in_app_or in Hi.
    destruct Hi as [Hi|Hi]; [specialize (HB _ Hi)|specialize (G3 _ Hi)]; lia.
  - apply Forall_app. split; [exact Hm|]. constructor; [exact G6|constructor].
  - rewrite map_app. cbn [map]. now rewrite (states_below P h h' B HB Hh).
Qed.

Lemma run_laid p : forall (P : list obj) (h : heap) B w s outs,
  laid_out P -> steady_caches vf P h -> bounded P B -> Forall (made_obj zero) P ->
  srun U p (mkSState (map (state_at h) P) w) = Some (s, outs) ->
  exists P' h', laid_out P' /\ steady_caches vf P' h' /\ Forall (made_obj zero) P' /\ svars s = map (state_at h') P'.
Proof.
  induction p as [|o p IH]; intros P h B w s outs HP Hs HB Hm E; cbn [srun] in E.
  - injection E as <- <-. exists P, h. auto.
  - destruct (sexec U o (mkSState (map (state_at h) P) w)) as [[s1 out]|] eqn:E1; [|discriminate].
    destruct (srun U p s1) as [[s2 outs2]|] eqn:E2; [|discriminate]. injection E as <- <-.
    destruct o as [f ss|x|x|g].
    + cbn [sexec svars sworld] in E1. destruct (sdeps_of U (map (state_at h) P) ss) as [ls|] eqn:Ed; [|discriminate]. injection E1 as <- <-.
      destruct (deps_laid P ss h B ls HP Hs HB Hm Ed) as (ps & h1 & B1 & F1 & <- & K1 & K2 & K3 & K4 & K5 & K6).
      set (h2 := fun c => if c =? B1 then None else h1 c).
      assert (F2 : forall c, c < B1 -> h2 c = h1 c) by (intros c Hc; unfold h2; destruct (Nat.eqb_spec c B1); [lia|reflexivity]).
      destruct (extend P h h2 B (S B1) (OCore (FnUser f) B1 ps) HP Hs HB Hm) as (X1 & X2 & X3 & X4 & X5).
      { intros c Hc. rewrite F2, F1; [reflexivity|lia|lia]. }
      { split; [lia|]. rewrite own_core. split.
        - apply NoDup_app_intro; [exact K2|repeat constructor; intros []|]. intros c H1 [<-|[]]. specialize (K3 _ H1). lia.
        - split; [intros c Hc; apply in_app_or in Hc; destruct Hc as [Hc|[<-|[]]]; [specialize (K3 _ Hc)|]; lia|]. split.
          + intros g c v Hi Ec. cbn [cores] in Hi. apply in_app_or in Hi. destruct Hi as [Hi|[Hi|[]]].
            * apply (K4 g c v Hi). rewrite <- F2; [exact Ec|]. apply K3. rewrite <- own_all. apply in_map_iff. exists (g, c). auto.
            * injection Hi as <- <-. unfold h2 in Ec. rewrite Nat.eqb_refl in Ec. discriminate.
          + split; [exact K5|]. apply made_obj_user. exact K6. }
      { eauto. }
      eapply (IH (P ++ [OCore (FnUser f) B1 ps]) h2 (S B1)); eauto. rewrite X5. cbn [state_at].
      assert (Eh : h2 B1 = None) by (unfold h2; now rewrite Nat.eqb_refl). rewrite Eh.
      rewrite (states_frame h1 h2 ps) by (intros c Hc; apply F2; now apply K3). exact E2.
    + cbn [sexec svars sworld] in E1. rewrite nth_error_map in E1. destruct (nth_error P x) as [q|] eqn:Eq; [|discriminate].
      cbn in E1. injection E1 as <- <-. destruct (copy_laid P h B x q HP Hs HB Hm Eq) as (h1 & H1 & H2 & H3).
      destruct (extend P h h1 B (B + B) (shifted B q) HP Hs HB Hm H1 H2) as (X1 & X2 & X3 & X4 & X5).
      { destruct (proj1 (proj2 HP _ _ Eq)) as (g & c & deps & ->). cbn. eauto. }
      eapply (IH (P ++ [shifted B q]) h1 (B + B)); eauto. rewrite X5, H3. exact E2.
    + assert (Hx : x < length P).
      { cbn [sexec svars] in E1. rewrite nth_error_map in E1. apply nth_error_Some. intros Hn. now rewrite Hn in E1. }
      pose proof (api_shared P vf HP Hvf x h w Hx Hs) as HA.
      destruct (alone U (call_api U (node_at P x)) h w) as [[[r h1] w1] l1]. destruct HA as (HA & _ & Hs1).
      rewrite HA in E1. injection E1 as <- <-. eapply (IH P h1 B); eauto.
    + cbn in E1. injection E1 as <- <-. eapply (IH P h B); eauto.
Qed.

Theorem programs_laid_out p w s outs : srun U p (mkSState [] w) = Some (s, outs) ->
  exists P h, laid_out P /\ steady_caches vf P h /\ (forall z, made zero (node_at P z)) /\ svars s = map (state_at h) P.
Proof.
  intros E. destruct (run_laid p [] (fun _ => None) 0 w s outs) as (P & h & H1 & H2 & H3 & H4); auto.
  - split; [constructor|]. intros [|x] q Eq; discriminate.
  - intros g c v [].
  - intros c [].
  - exists P, h. split; [exact H1|]. split; [exact H2|]. split; [|exact H4]. now apply made_vars.
Qed.
End Layout.
End Share.
