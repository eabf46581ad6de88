(** Proofs about parts of a program. *)
From Coq Require Import List Bool Arith Lia.
From Verif Require Import Value TupleAlg LazyModel LazySpec LazySpec2 LazyProofs LazyGeneral LazyThms SliceSpec.
Import ListNotations.

Section Slice.
Context {A W fid did : Type}.
Notation op := (op A W fid did).
Notation lz := (lz A fid did).
Variable U : user A W fid did.

Definition wf (m : names) (n : nat) : Prop :=
  (forall x y, name m x y -> y < n) /\ (forall x x' y, name m x y -> name m x' y -> x = x').
Definition same (m : names) (s1 s2 : list lz) : Prop :=
  length m = length s1 /\ forall x y, name m x y -> exists l, nth_error s1 x = Some l /\ nth_error s2 y = Some l.

Lemma name_snoc m o x y : name (m ++ [o]) x y -> name m x y \/ x = length m /\ o = Some y.
Proof.
  unfold name. destruct (lt_dec x (length m)) as [H|H].
  - rewrite nth_error_app1 by exact H. auto.
  - rewrite nth_error_app2 by lia. destruct (x - length m) as [|[|k]] eqn:E; cbn; try discriminate.
    intros E'. injection E' as ->. right. split; [lia|reflexivity].
Qed.

Lemma name_lt m x y : name m x y -> x < length m.
Proof. unfold name. intros H. apply nth_error_Some. congruence. Qed.

Lemma wf_keep m n : wf m n -> wf (m ++ [Some n]) (S n).
Proof.
  intros [H1 H2]. split.
  - intros x y H. apply name_snoc in H as [H|[_ E]]; [apply H1 in H; lia|injection E as <-; lia].
  - intros x x' y H H'. apply name_snoc in H as [H|[-> E]]; apply name_snoc in H' as [H'|[-> E']].
    + exact (H2 _ _ _ H H').
    + injection E' as <-. apply H1 in H. lia.
    + injection E as <-. apply H1 in H'. lia.
    + reflexivity.
Qed.
Lemma wf_skip m n : wf m n -> wf (m ++ [None]) n.
Proof.
  intros [H1 H2]. split.
  - intros x y H. apply name_snoc in H as [H|[_ E]]; [now apply H1 in H|discriminate].
  - intros x x' y H H'. apply name_snoc in H as [H|[_ E]]; [|discriminate].
    apply name_snoc in H' as [H'|[_ E]]; [|discriminate]. exact (H2 _ _ _ H H').
Qed.

Lemma nth_snoc {X} (l : list X) a x y : nth_error l x = Some y -> nth_error (l ++ [a]) x = Some y.
Proof. intros H. rewrite nth_error_app1; [exact H|]. apply nth_error_Some. congruence. Qed.
Lemma nth_end {X} (l : list X) a : nth_error (l ++ [a]) (length l) = Some a.
Proof. rewrite nth_error_app2 by lia. now rewrite Nat.sub_diag. Qed.

Lemma same_keep m n s1 s2 l : n = length s2 -> same m s1 s2 -> same (m ++ [Some n]) (s1 ++ [l]) (s2 ++ [l]).
Proof.
  intros -> [HL H]. split; [rewrite !app_length; cbn; lia|]. intros x y Hx. apply name_snoc in Hx as [Hx|[-> E]].
  - destruct (H x y Hx) as (l' & H1 & H2). exists l'. split; now apply nth_snoc.
  - injection E as <-. exists l. rewrite HL. split; apply nth_end.
Qed.
Lemma same_skip m s1 s2 l : same m s1 s2 -> same (m ++ [None]) (s1 ++ [l]) s2.
Proof.
  intros [HL H]. split; [rewrite !app_length; cbn; lia|]. intros x y Hx. apply name_snoc in Hx as [Hx|[_ E]]; [|discriminate].
  destruct (H x y Hx) as (l' & H1 & H2). exists l'. split; [now apply nth_snoc|exact H2].
Qed.

Lemma update_length {X} n (x : X) l : length (update n x l) = length l.
Proof. revert n. induction l as [|a l IH]; intros [|n]; cbn; auto. Qed.
Lemma update_same {X} n (x y : X) l : nth_error l n = Some y -> nth_error (update n x l) n = Some x.
Proof. revert n. induction l as [|a l IH]; intros [|n] H; try discriminate H; [reflexivity|]. exact (IH n H). Qed.
Lemma update_other {X} n k (x : X) l : n <> k -> nth_error (update n x l) k = nth_error l k.
Proof. revert n k. induction l as [|a l IH]; intros [|n] [|k] H; cbn; try reflexivity; try lia. apply IH. lia. Qed.

Lemma same_update m n s1 s2 x y l : wf m n -> name m x y -> same m s1 s2 ->
  same m (update x l s1) (update y l s2).
Proof.
  intros [_ Hi] Hx [HL H]. split; [now rewrite update_length|]. intros x' y' Hx'.
  destruct (Nat.eq_dec x' x) as [->|Hne].
  - unfold name in Hx, Hx'. assert (y' = y) by congruence. subst y'. destruct (H x y Hx) as (l' & H1 & H2).
    exists l. split; [exact (update_same _ _ _ _ H1)|exact (update_same _ _ _ _ H2)].
  - assert (y' <> y) by (intros ->; exact (Hne (Hi _ _ _ Hx' Hx))).
    destruct (H x' y' Hx') as (l' & H1 & H2). exists l'. now rewrite !update_other by auto.
Qed.
Lemma same_absent m s1 s2 x l : absent m x -> same m s1 s2 -> same m (update x l s1) s2.
Proof.
  intros Hx [HL H]. split; [now rewrite update_length|]. intros x' y' Hx'.
  assert (x <> x') by (intros <-; unfold name, absent in *; congruence).
  destruct (H x' y' Hx') as (l' & H1 & H2). exists l'. now rewrite update_other by auto.
Qed.

Lemma deps_renamed m s1 s2 ss ss' : same m s1 s2 -> Forall2 (renamed m) ss ss' ->
  deps_of (A:=A) (fid:=fid) (did:=did) s2 ss' = deps_of s1 ss.
Proof.
  intros [_ H] Hf. induction Hf as [|s s' ss ss' Hs Hf IH]; [reflexivity|]. cbn [deps_of]. rewrite IH.
  destruct Hs as [x y Hx|d|v]; try reflexivity. destruct (H x y Hx) as (l & H1 & H2). cbn [dep_of]. now rewrite H1, H2.
Qed.

(** Read-only functions leave the world as it is. *)
Section Readonly.
Hypothesis Hro : readonly_user U.
Lemma readonly_core g c args w : snd (fst (core U g c args w)) = w.
Proof.
  unfold core. destruct (negb (is_some c) || _) eqn:E.
  - assert (Hc : snd (fst (call_fn U g (fst (transform as_tuple args (pure1 lr_value) tt)) w)) = w).
    { destruct g as [f|d]; cbn.
      - pose proof (proj1 Hro f (fst (transform as_tuple args (pure1 lr_value) tt)) w) as H.
        now destruct (sem U f _ w).
      - pose proof (proj2 Hro d w) as H. now destruct (dsem U d w). }
    destruct (call_fn U g _ w) as [[[v|] w'] lg]; cbn in Hc; subst; [|reflexivity].
    now destruct (opt_neq U c v).
  - now destruct c.
Qed.
Lemma readonly_step l : forall w, snd (fst (step U l w)) = w.
Proof.
  induction l as [v ch|g c ds IH] using lz_ind'; intros w; [reflexivity|]. cbn [step].
  assert (Hs : snd (fst (steps_with (step U) ds w)) = w).
  { revert w. induction IH as [|d ds Hd _ IHs]; intros w; [reflexivity|]. cbn [steps_with].
    specialize (Hd w). destruct (step U d w) as [[[[x| |] d'] w1] l1]; cbn in Hd; subst; try reflexivity.
    specialize (IHs w). destruct (steps_with (step U) ds w) as [[[rs ds'] w2] l2]. exact IHs. }
  destruct (steps_with (step U) ds w) as [[[[rs| |] ds'] w1] l1]; cbn in Hs; subst; try reflexivity.
  pose proof (readonly_core g c (ctad_tuple (fun _ => None) rs) w) as H.
  destruct (core U g c _ w) as [[[r c'] w2] l2]. exact H.
Qed.
End Readonly.

Variable calls : Prop.
Hypothesis Hcalls : calls -> readonly_user U.
Notation part := (part (A:=A) (W:=W) (fid:=fid) (did:=did) calls).

Lemma part_run m n p ks q : part m n p ks q -> forall s1 s2 s1' outs1,
  wf m n -> n = length (vars s2) -> same m (vars s1) (vars s2) -> world s1 = world s2 ->
  run U p s1 = Some (s1', outs1) ->
  exists s2', run U q s2 = Some (s2', marked ks outs1) /\ world s2' = world s1'.
Proof.
  induction 1 as [m n|m n f ss ss' p ks q Hss H IH|m n x y p ks q Hx H IH|m n x y p ks q Hx H IH|m n h p ks q H IH
                 |m n f ss p ks q H IH|m n x p ks q H IH|m n x p ks q Hk Hx H IH];
    intros s1 s2 s1' outs1 Hwf Hn Hs Hw E; cbn [run exec] in *.
  - injection E as <- <-. exists s2. auto.
  - rewrite (deps_renamed _ _ _ _ _ Hs Hss). destruct (deps_of (vars s1) ss) as [os|]; [|discriminate].
    destruct (run U p _) as [[se outs]|] eqn:Er; [|discriminate]. injection E as <- <-.
    destruct (IH (mkState (vars s1 ++ [mk_lazy U f os]) (world s1)) (mkState (vars s2 ++ [mk_lazy U f os]) (world s2)) _ _ (wf_keep _ _ Hwf)
      ltac:(cbn; rewrite app_length; cbn; lia) (same_keep _ _ _ _ _ Hn Hs) Hw Er) as (s2' & E2 & Hw2).
    exists s2'. now rewrite E2.
  - destruct (proj2 Hs x y Hx) as (l & H1 & H2). rewrite H1 in E. rewrite H2.
    destruct (run U p _) as [[se outs]|] eqn:Er; [|discriminate]. injection E as <- <-.
    destruct (IH (mkState (vars s1 ++ [l]) (world s1)) (mkState (vars s2 ++ [l]) (world s2)) _ _ (wf_keep _ _ Hwf)
      ltac:(cbn; rewrite app_length; cbn; lia) (same_keep _ _ _ _ _ Hn Hs) Hw Er) as (s2' & E2 & Hw2).
    exists s2'. now rewrite E2.
  - destruct (proj2 Hs x y Hx) as (l & H1 & H2). rewrite H1 in E. rewrite H2. rewrite <- Hw.
    destruct (step U l (world s1)) as [[[r l'] w'] lg] eqn:Es.
    destruct (run U p _) as [[se outs]|] eqn:Er; [|discriminate]. injection E as <- <-.
    destruct (IH (mkState (update x l' (vars s1)) w') (mkState (update y l' (vars s2)) w') _ _ Hwf
      ltac:(cbn; now rewrite update_length) (same_update _ _ _ _ _ _ _ Hwf Hx Hs) eq_refl Er) as (s2' & E2 & Hw2).
    exists s2'. now rewrite E2.
  - destruct (run U p _) as [[se outs]|] eqn:Er; [|discriminate]. injection E as <- <-.
    destruct (IH (mkState (vars s1) (h (world s1))) (mkState (vars s2) (h (world s2))) _ _ Hwf Hn Hs (f_equal h Hw) Er) as (s2' & E2 & Hw2).
    exists s2'. now rewrite E2.
  - destruct (deps_of (vars s1) ss) as [os|]; [|discriminate].
    destruct (run U p _) as [[se outs]|] eqn:Er; [|discriminate]. injection E as <- <-.
    exact (IH (mkState (vars s1 ++ [mk_lazy U f os]) (world s1)) s2 _ _ (wf_skip _ _ Hwf) Hn (same_skip _ _ _ _ Hs) Hw Er).
  - destruct (nth_error (vars s1) x) as [l|]; [|discriminate].
    destruct (run U p _) as [[se outs]|] eqn:Er; [|discriminate]. injection E as <- <-.
    exact (IH (mkState (vars s1 ++ [l]) (world s1)) s2 _ _ (wf_skip _ _ Hwf) Hn (same_skip _ _ _ _ Hs) Hw Er).
  - destruct (nth_error (vars s1) x) as [l|]; [|discriminate].
    pose proof (readonly_step (Hcalls Hk) l (world s1)) as Hr.
    destruct (step U l (world s1)) as [[[r l'] w'] lg]. cbn in Hr. subst w'.
    destruct (run U p _) as [[se outs]|] eqn:Er; [|discriminate]. injection E as <- <-.
    exact (IH (mkState (update x l' (vars s1)) (world s1)) s2 _ _ Hwf Hn (same_absent _ _ _ _ _ Hx Hs) Hw Er).
Qed.

Lemma part_runs p ks q w s outs : part [] 0 p ks q -> run U p (mkState [] w) = Some (s, outs) ->
  exists s', run U q (mkState [] w) = Some (s', marked ks outs) /\ world s' = world s.
Proof.
  intros H. apply (part_run _ _ _ _ _ H); try reflexivity.
  - split; intros [|x]; discriminate.
  - split; [reflexivity|]. intros [|x]; discriminate.
Qed.
End Slice.

Section Laws.
Context {A W fid did : Type}.
Variable U : user A W fid did.

(** C85 (1) *)
Lemma unused p ks q w s outs : part (A:=A) False [] 0 p ks q -> run U p (mkState [] w) = Some (s, outs) ->
  exists s', run U q (mkState [] w) = Some (s', marked ks outs) /\ world s' = world s.
Proof. apply part_runs. tauto. Qed.

Hypothesis Hro : readonly_user U.
(** C85 (2) *)
Lemma independent p ks q w s outs : part (A:=A) True [] 0 p ks q -> run U p (mkState [] w) = Some (s, outs) ->
  exists s', run U q (mkState [] w) = Some (s', marked ks outs) /\ world s' = world s.
Proof. now apply part_runs. Qed.

(** C85 (3) *)
Lemma same_part p1 ks1 p2 ks2 q w s1 outs1 s2 outs2 :
  part (A:=A) True [] 0 p1 ks1 q -> part True [] 0 p2 ks2 q ->
  run U p1 (mkState [] w) = Some (s1, outs1) -> run U p2 (mkState [] w) = Some (s2, outs2) ->
  marked ks1 outs1 = marked ks2 outs2.
Proof.
  intros H1 H2 E1 E2. destruct (independent _ _ _ _ _ _ H1 E1) as (s1' & R1 & _).
  destruct (independent _ _ _ _ _ _ H2 E2) as (s2' & R2 & _). congruence.
Qed.

Lemma update_swap {X} (x y : nat) (a b : X) : x <> y -> forall l, update x a (update y b l) = update y b (update x a l).
Proof.
  intros H l. revert x y H. induction l as [|c l IH]; intros [|x] [|y] H; cbn; try reflexivity; try lia.
  f_equal. apply IH. lia.
Qed.

(** C85 (4) *)
Lemma swap x y p s s' outs : x <> y -> run U (Call x :: Call y :: p) s = Some (s', outs) ->
  exists o1 o2 os, outs = o1 :: o2 :: os /\ run U (Call y :: Call x :: p) s = Some (s', o2 :: o1 :: os).
Proof.
  intros Hne. cbn [run exec].
  destruct (nth_error (vars s) x) as [lx|] eqn:Ex; [|discriminate].
  pose proof (readonly_step U Hro lx (world s)) as Hx.
  destruct (step U lx (world s)) as [[[rx lx'] wx] gx] eqn:Sx. cbn in Hx. subst wx. cbn [vars world].
  rewrite update_other by auto. destruct (nth_error (vars s) y) as [ly|] eqn:Ey; [|discriminate].
  pose proof (readonly_step U Hro ly (world s)) as Hy.
  destruct (step U ly (world s)) as [[[ry ly'] wy] gy] eqn:Sy. cbn in Hy. subst wy. cbn [vars world].
  rewrite update_other, Ex, Sx by auto. rewrite (update_swap x y) by auto.
  destruct (run U p _) as [[se os]|]; [|discriminate]. intros E. injection E as <- <-.
  now exists (Some (api_result rx), gx), (Some (api_result ry), gy), os.
Qed.
End Laws.

(** ** Examples *)

(** A counter. *)
Definition count_user : user nat nat nat nat :=
  mkUser (fun _ _ w => (FRet (Some (VAtom w)), S w)) (fun _ w => (VRet (VAtom w), S w)) Nat.eqb 0.

Lemma swap_effects : exists (U : user nat nat nat nat) x y p s s1 outs1 s2 outs2, x <> y /\
  run U (p ++ [Call x; Call y]) s = Some (s1, outs1) /\ run U (p ++ [Call y; Call x]) s = Some (s2, outs2) /\
  nth_error outs2 (S (length p)) <> nth_error outs1 (length p) /\
  option_map fst (nth_error outs1 (length p)) = Some (Some (Ok (Some (VAtom 0)))) /\
  option_map fst (nth_error outs2 (S (length p))) = Some (Some (Ok (Some (VAtom 1)))).
Proof.
  exists count_user, 0, 1, [New 0 []; New 0 []], (mkState [] 0). do 4 eexists. split; [discriminate|].
  split; [vm_compute; reflexivity|]. split; [vm_compute; reflexivity|]. split; [vm_compute; discriminate|].
  split; reflexivity.
Qed.
