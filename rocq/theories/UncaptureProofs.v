(** Lemmas about Uncapture.v. *)
From Coq Require Import List Bool Arith Lia.
From Verif Require Import Uncapture.
Import ListNotations.

Section P.
Context {S V R : Type} (fn : S -> list V -> S * list V * R).
(** A call does not change the number of its arguments. *)
Hypothesis fn_length : forall s args s' args' r,
  fn s args = (s', args', r) -> length args' = length args.

Lemma firstn_removelast {X} n (l : list X) : length l = Datatypes.S n -> removelast l = firstn n l.
Proof.
  intros H. rewrite removelast_firstn_len. f_equal. lia.
Qed.

Lemma skipn_last {X} n (l : list X) d : length l = Datatypes.S n -> skipn n l = [last l d].
Proof.
  intros H. destruct l as [|x l] using rev_ind; [discriminate|].
  rewrite app_length, Nat.add_1_r in H. injection H as H.
  rewrite last_last, skipn_app, <- H, skipn_all, Nat.sub_diag. reflexivity.
Qed.

Lemma call_chain vs s args :
  call fn (uncapture vs (Plain s)) args
  = let '(s', out, r) := fn s (args ++ vs) in
    (uncapture (skipn (length args) out) (Plain s'), firstn (length args) out, r).
Proof.
  revert args; induction vs as [|v vs IH]; intros args; cbn [uncapture uncapture1 call].
  - rewrite app_nil_r. destruct (fn s args) as [[s' out] r] eqn:E.
    pose proof (fn_length _ _ _ _ _ E) as L.
    rewrite <- L, skipn_all, firstn_all. reflexivity.
  - unfold uncapture1. cbn [call]. rewrite IH. rewrite <- app_assoc. cbn [app].
    destruct (fn s (args ++ v :: vs)) as [[s' out] r] eqn:E.
    pose proof (fn_length _ _ _ _ _ E) as L. rewrite app_length in L. cbn in L.
    rewrite app_length. cbn [length]. rewrite Nat.add_1_r.
    assert (L1 : length (firstn (Datatypes.S (length args)) out) = Datatypes.S (length args))
      by (rewrite firstn_length; lia).
    assert (E1 : removelast (firstn (Datatypes.S (length args)) out) = firstn (length args) out).
    { rewrite (firstn_removelast (length args)) by auto. rewrite firstn_firstn. f_equal. lia. }
    assert (E2 : skipn (length args) out
                 = last (firstn (Datatypes.S (length args)) out) v :: skipn (Datatypes.S (length args)) out).
    { rewrite <- (firstn_skipn (Datatypes.S (length args)) out) at 1.
      rewrite skipn_app, (skipn_last (length args) _ v) by auto.
      rewrite L1. replace (length args - Datatypes.S (length args)) with 0 by lia. reflexivity. }
    rewrite E1, E2. cbn [uncapture]. unfold uncapture1. do 3 f_equal.
    (* the tags *)
    assert (T : forall us ws, length us = length ws ->
               unique_tag (uncapture us (Plain (V := V) s)) = unique_tag (uncapture ws (Plain (V := V) s'))).
    { induction us as [|u us IHu]; intros [|w ws] Hl; try discriminate; cbn; auto. }
    rewrite (T vs (skipn (Datatypes.S (length args)) out)); [reflexivity|].
    rewrite skipn_length. lia.
Qed.

Lemma calls_chain argss s vs :
  calls fn (uncapture vs (Plain s)) argss
  = let '(s', vs', rs) := expected_calls fn s vs argss in (uncapture vs' (Plain s'), rs).
Proof.
  revert s vs; induction argss as [|args rest IH]; intros s vs; cbn; auto.
  rewrite call_chain. destruct (fn s (args ++ vs)) as [[s1 out] r].
  rewrite IH. now destruct (expected_calls fn s1 (skipn (length args) out) rest) as [[s2 vs2] rs].
Qed.

End P.

(** Objects built by any sequence of [>>]. *)
Inductive built {S V} : invocable S V -> Prop :=
| built_plain s : built (Plain s)
| built_uncapture vs f : built f -> built (uncapture vs f).

Lemma tags_uncapture {S V} vs (f : invocable S V) :
  tags (uncapture vs f) = rev (seq (unique_tag f + 1) (length vs)) ++ tags f /\
  unique_tag (uncapture vs f) = unique_tag f + length vs.
Proof.
  induction vs as [|v vs [IH1 IH2]].
  - cbn. split; auto.
  - cbn [uncapture uncapture1 tags length unique_tag]. unfold uncapture1. cbn [tags unique_tag].
    rewrite IH1, IH2. split; [|lia].
    replace (Datatypes.S (length vs)) with (length vs + 1) by lia.
    rewrite seq_app, rev_app_distr. cbn. f_equal. lia.
Qed.

Lemma built_tags {S V} (o : invocable S V) :
  built o -> NoDup (tags o) /\ Forall (fun t => 1 <= t <= unique_tag o) (tags o).
Proof.
  induction 1 as [s|vs f _ [IH1 IH2]]; [repeat constructor|].
  destruct (tags_uncapture vs f) as [E1 E2]. rewrite E1, E2.
  rewrite Forall_forall in IH2. split.
  - apply NoDup_rev in IH1. apply NoDup_rev in IH1. rewrite rev_involutive in IH1.
    assert (H : forall l m : list nat, NoDup l -> NoDup m -> (forall x, In x l -> ~ In x m) -> NoDup (l ++ m)).
    { induction l as [|x l IHl]; intros m Hl Hm Hd; cbn; auto.
      inversion Hl; subst. constructor.
      - intros Hx. apply in_app_or in Hx as [Hx|Hx]; auto. apply (Hd x); auto. now left.
      - apply IHl; auto. intros y Hy. apply Hd. now right. }
    apply H; auto.
    + apply NoDup_rev, seq_NoDup.
    + intros x Hx Hm. apply in_rev in Hx. apply in_seq in Hx. apply IH2 in Hm. lia.
  - apply Forall_forall. intros x Hx. apply in_app_or in Hx as [Hx|Hx].
    + apply in_rev in Hx. apply in_seq in Hx. lia.
    + apply IH2 in Hx. lia.
Qed.

(** An example: a function that counts its calls in its state, adds the number
    of the call to its last argument and returns all arguments it got. *)
Definition ex_counter (s : nat) (args : list nat) : nat * list nat * list nat :=
  (s + 1,
   (fix bump l := match l with [] => [] | [x] => [x + s] | x :: l' => x :: bump l' end) args,
   args).

Lemma ex_counter_length s args s' args' r :
  ex_counter s args = (s', args', r) -> length args' = length args.
Proof.
  unfold ex_counter. intros [= <- <- <-].
  induction args as [|x [|y l] IH]; cbn in *; auto.
Qed.

Lemma ex_C44 :
  (forall s args s' args' r, ex_counter s args = (s', args', r) -> length args' = length args) /\
  snd (calls ex_counter (uncapture [20; 30] (Plain 5)) [[1]; [2]; []])
  = [([1], [1; 20; 30]); ([2], [2; 20; 35]); ([], [20; 41])] /\
  built (uncapture [7] (uncapture [20; 30] (Plain (V := nat) 5))) /\
  tags (uncapture [7] (uncapture [20; 30] (Plain (V := nat) 5))) = [3; 2; 1].
Proof.
  repeat split; try apply ex_counter_length. repeat constructor.
Qed.
