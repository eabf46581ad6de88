(** Lemmas about TupleAlg.v. *)
From Coq Require Import List Bool Arith Lia.
From Verif Require Import Value TupleAlg TupleSpec.
Import ListNotations.

Lemma map_eff_pure {X Y} (f : X -> Y) l : map_eff (pure1 f) l tt = (map f l, tt).
Proof. induction l as [|x xs IH]; cbn; [reflexivity|]. now rewrite IH. Qed.

Lemma transform_pure {X Y} look (f : X -> Y) l :
  transform look l (pure1 f) tt = (ctad_tuple look (map f l), tt).
Proof. unfold transform. now rewrite map_eff_pure. Qed.

Lemma any_pure {X} (f : X -> bool) l : any l (pure1 f) tt = (existsb f l, tt).
Proof. induction l as [|x xs IH]; cbn; [reflexivity|]. destruct (f x); cbn; auto. Qed.

Lemma ctad_none {X} (l : list X) : ctad_tuple (fun _ => None) l = l.
Proof. destruct l as [|x [|y l]]; reflexivity. Qed.

Lemma ctad_regular {X} (look : X -> option (list X)) l :
  (forall x, l = [x] -> look x = None) -> ctad_tuple look l = l.
Proof. intros H. destruct l as [|x [|y l]]; cbn; auto. now rewrite (H x eq_refl). Qed.

(** The element a [map_eff] applies its callable to, and the states in between. *)
Lemma map_eff_length {S X Y} (p : X -> S -> Y * S) l s : length (fst (map_eff p l s)) = length l.
Proof.
  revert s; induction l as [|x xs IH]; intros s; cbn; [reflexivity|].
  destruct (p x s) as [y s1]. specialize (IH s1).
  destruct (map_eff p xs s1) as [ys s2]; cbn in *. now rewrite IH.
Qed.

Lemma get_pack_seq {X} (t : list X) k n :
  k + n <= length t -> get_pack t (seq k n) = Some (firstn n (skipn k t)).
Proof.
  revert k; induction n as [|n IH]; intros k Hk; cbn; [reflexivity|].
  unfold tuple_get. destruct (nth_error t k) as [x|] eqn:E.
  - rewrite IH by lia.
    assert (Hs : skipn k t = x :: skipn (S k) t).
    { clear -E. revert k E; induction t as [|y t IHt]; intros [|k] E; cbn in *; try discriminate.
      - now injection E as ->.
      - now rewrite (IHt _ E). }
    now rewrite Hs.
  - apply nth_error_None in E. lia.
Qed.

Lemma get_pack_all {X} (t : list X) : get_pack t (make_index_sequence (length t)) = Some t.
Proof.
  unfold make_index_sequence. rewrite get_pack_seq by lia.
  cbn. now rewrite firstn_all.
Qed.

Lemma items_of_seq {X} (t : list X) k n :
  k + n <= length t ->
  items_of t (seq k n) = Some (map (fun '(i, x) => mkItem i x) (combine (seq k n) (firstn n (skipn k t)))).
Proof.
  revert k; induction n as [|n IH]; intros k Hk; cbn; [reflexivity|].
  unfold tuple_get. destruct (nth_error t k) as [x|] eqn:E.
  - rewrite IH by lia.
    assert (Hs : skipn k t = x :: skipn (S k) t).
    { clear -E. revert k E; induction t as [|y t IHt]; intros [|k] E; cbn in *; try discriminate.
      - now injection E as ->.
      - now rewrite (IHt _ E). }
    now rewrite Hs.
  - apply nth_error_None in E. lia.
Qed.

Lemma items_of_all {X} (t : list X) :
  items_of t (make_index_sequence (length t))
  = Some (map (fun '(i, x) => mkItem i x) (combine (seq 0 (length t)) t)).
Proof.
  unfold make_index_sequence. rewrite items_of_seq by lia.
  cbn. now rewrite firstn_all.
Qed.

(** ** In-order application *)

Lemma in_order_nil {S X Y} (p : X -> S -> Y * S) s : in_order p [] s [] s.
Proof.
  split; [reflexivity|]. exists (fun _ => s). repeat split.
  all: destruct i; discriminate.
Qed.

Lemma in_order_cons {S X Y} (p : X -> S -> Y * S) x l s y s1 ys s' :
  p x s = (y, s1) -> in_order p l s1 ys s' -> in_order p (x :: l) s (y :: ys) s'.
Proof.
  intros Hp [Hl [st (H0 & Hn & Hst)]]. split; [cbn; now rewrite Hl|].
  exists (fun i => match i with 0 => s | S j => st j end). repeat split.
  - exact Hn.
  - destruct i as [|i]; cbn in *.
    + injection H as ->. now rewrite Hp.
    + now apply Hst.
  - destruct i as [|i]; cbn in *.
    + injection H as ->. now rewrite Hp, H0.
    + now apply Hst.
Qed.

Lemma map_eff_in_order {S X Y} (p : X -> S -> Y * S) l s :
  in_order p l s (fst (map_eff p l s)) (snd (map_eff p l s)).
Proof.
  revert s; induction l as [|x l IH]; intros s; cbn; [apply in_order_nil|].
  destruct (p x s) as [y s1] eqn:E. specialize (IH s1).
  destruct (map_eff p l s1) as [ys s2]; cbn in *. eapply in_order_cons; eauto.
Qed.

(** In-order application determines results and final state. *)
Lemma in_order_unique {S X Y} (p : X -> S -> Y * S) l s ys s' :
  in_order p l s ys s' -> map_eff p l s = (ys, s').
Proof.
  revert s ys; induction l as [|x l IH]; intros s ys [Hl [st (H0 & Hn & Hst)]]; cbn.
  - destruct ys; [|discriminate]. cbn in Hn. now subst.
  - destruct ys as [|y ys]; [discriminate|].
    destruct (Hst 0 x eq_refl) as [H1 H2]. cbn in H1, H2. rewrite H0 in H1, H2.
    injection H1 as H1.
    destruct (p x s) as [y' s1] eqn:E. cbn in H1, H2. subst y' .
    rewrite (IH s1 ys); [reflexivity|]. split; [now injection Hl|].
    exists (fun i => st (i + 1)). repeat split; auto.
    + cbn in Hn. now rewrite Nat.add_1_r.
    + apply (Hst (Datatypes.S i) x0) in H. cbn in H. rewrite Nat.add_1_r. apply H.
    + apply (Hst (Datatypes.S i) x0) in H. cbn in H. rewrite !Nat.add_1_r in *. apply H.
Qed.

Lemma map_eff_logging {S X Y} (p : X -> S -> Y * S) l s log :
  map_eff (logging p) l (s, log)
  = (fst (map_eff p l s), (snd (map_eff p l s), log ++ l)).
Proof.
  revert s log; induction l as [|x l IH]; intros s log; cbn.
  - now rewrite app_nil_r.
  - destruct (p x s) as [y s1]; cbn. rewrite IH.
    destruct (map_eff p l s1) as [ys s2]; cbn. now rewrite <- app_assoc.
Qed.

Lemma transform_in_order {S X Y} (look : Y -> option (list Y)) (p : X -> S -> Y * S) data s :
  exists ys, in_order p data s ys (snd (transform look data p s)) /\
    ((forall y, ys = [y] -> look y = None) -> fst (transform look data p s) = ys).
Proof.
  exists (fst (map_eff p data s)). unfold transform.
  pose proof (map_eff_in_order p data s) as H.
  destruct (map_eff p data s) as [ys s']; cbn in *. split; [exact H|]. apply ctad_regular.
Qed.

Lemma transform_log {S X Y} (look : Y -> option (list Y)) (p : X -> S -> Y * S) data s log :
  snd (snd (transform look data (logging p) (s, log))) = log ++ data.
Proof. unfold transform. rewrite map_eff_logging. reflexivity. Qed.

Lemma any_in_order {S X} (p : X -> S -> bool * S) data s :
  exists k ys,
    k <= length data /\
    in_order p (firstn k data) s ys (snd (any data p s)) /\
    (fst (any data p s) = true -> exists l, ys = l ++ [true] /\ Forall (eq false) l) /\
    (fst (any data p s) = false -> k = length data /\ Forall (eq false) ys).
Proof.
  revert s; induction data as [|x data IH]; intros s; cbn.
  - exists 0, []. repeat split; auto; try discriminate. apply in_order_nil.
  - destruct (p x s) as [[] s1] eqn:E; cbn.
    + exists 1, [true]. repeat split; try discriminate; try lia.
      * apply in_order_cons with (s1 := s1); auto. cbn. apply in_order_nil.
      * exists []. now split.
    + destruct (IH s1) as (k & ys & Hk & Ho & Ht & Hf).
      exists (Datatypes.S k), (false :: ys). split; [lia|]. split; [|split].
      * cbn. eapply in_order_cons; eauto.
      * intros H. destruct (Ht H) as (l & -> & Hl). exists (false :: l). split; auto.
      * intros H. destruct (Hf H) as (-> & Hl). split; auto.
Qed.

Lemma any_log {S X} (p : X -> S -> bool * S) data s log :
  exists k, k <= length data /\
    any data (logging p) (s, log)
    = (fst (any data p s), (snd (any data p s), log ++ firstn k data)) /\
    (fst (any data p s) = false -> k = length data).
Proof.
  revert s log; induction data as [|x data IH]; intros s log; cbn.
  - exists 0. rewrite app_nil_r. auto.
  - destruct (p x s) as [[] s1]; cbn.
    + exists 1. repeat split; try lia.
    + destruct (IH s1 (log ++ [x])) as (k & Hk & -> & Hf).
      exists (Datatypes.S k). cbn. rewrite <- app_assoc. repeat split; auto; lia.
Qed.

Lemma any_pure_iff {X} (f : X -> bool) l :
  fst (any l (pure1 f) tt) = true <-> exists x, In x l /\ f x = true.
Proof. rewrite any_pure. cbn. apply existsb_exists. Qed.

Lemma apply_all {S X R} (f : list X -> S -> R * S) t s : apply f t s = Some (f t s).
Proof. unfold apply, apply_impl. now rewrite get_pack_all. Qed.

Lemma nth_error_combine {X Y} (a : list X) (b : list Y) i :
  nth_error (combine a b) i
  = match nth_error a i, nth_error b i with Some x, Some y => Some (x, y) | _, _ => None end.
Proof.
  revert b i; induction a as [|x a IH]; intros [|y b] [|i]; cbn; auto.
  now destruct (nth_error a i).
Qed.

Lemma nth_error_seq k n i : nth_error (seq k n) i = if i <? n then Some (k + i) else None.
Proof.
  revert k i; induction n as [|n IH]; intros k [|i]; auto.
  - cbn. now rewrite Nat.add_0_r.
  - change (nth_error (seq k (S n)) (S i)) with (nth_error (seq (S k) n) i).
    rewrite IH. change (S i <? S n) with (i <? n).
    destruct (i <? n); auto. f_equal; lia.
Qed.

Lemma enumerate_pack_all {S X R} (f : list (Item X) -> S -> R * S) pack s :
  exists items,
    enumerate_pack f pack s = Some (f items s) /\
    length items = length pack /\
    forall i it, nth_error items i = Some it ->
      index it = i /\ nth_error pack i = Some (value it).
Proof.
  unfold enumerate_pack. rewrite items_of_all.
  exists (map (fun '(i, x) => mkItem i x) (combine (seq 0 (length pack)) pack)).
  split; [reflexivity|]. split.
  - rewrite map_length, combine_length, seq_length. lia.
  - intros i it H. rewrite nth_error_map, nth_error_combine, nth_error_seq in H.
    destruct (i <? length pack); [|discriminate].
    destruct (nth_error pack i) as [x|]; [|discriminate].
    cbn in H. injection H as <-. cbn. auto.
Qed.

Lemma enumerate_n_all {S R} (n : nat) (f : list (Item nat) -> S -> R * S) s :
  exists items,
    enumerate_n n f s = Some (f items s) /\
    length items = n /\
    forall i, i < n -> nth_error items i = Some (mkItem i i).
Proof.
  unfold enumerate_n. destruct (enumerate_pack_all f (make_index_sequence n) s) as (items & H & Hl & Hi).
  unfold make_index_sequence in *. rewrite seq_length in Hl.
  exists items. repeat split; auto. intros i Hlt.
  destruct (nth_error items i) as [[j v]|] eqn:E.
  - destruct (Hi i _ E) as [H1 H2]. cbn in *. subst j.
    rewrite nth_error_seq in H2. apply Nat.ltb_lt in Hlt. rewrite Hlt in H2.
    now injection H2 as <-.
  - apply nth_error_None in E. lia.
Qed.
