(** Proofs about the special member functions of pigro's classes. *)
From Coq Require Import List Bool Arith Lia.
From Verif Require Import Layout ClassLayout ClassLayoutSpec ClassLazy ClassLazySpec ClassUncapture Special SpecialSpec.
Import ListNotations.

Section Special.
Variable user_has : trait -> cls -> bool.
Notation has := (has user_has).

Notation ok := (ok user_has).

Lemma empty_class k args bs ms : is_empty (Class k args bs ms) =
  forallb is_empty bs && match ms with [] => true | _ => false end.
Proof.
  unfold is_empty. cbn [layout fempty]. f_equal.
  induction bs as [|b bs IH]; [reflexivity|]. cbn [map forallb]. now rewrite IH.
Qed.

Lemma empty_element tag t : is_empty (element_cls tag t) = is_empty t.
Proof.
  unfold element_cls, overload_cls. destruct (is_empty t) eqn:E; rewrite empty_class; [reflexivity|].
  cbn [forallb]. now rewrite !empty_class.
Qed.

Lemma empty_elements ts : forall tag, forallb is_empty (elements_cls tag ts) = forallb is_empty ts.
Proof.
  induction ts as [|t ts IH]; intros tag; [reflexivity|]. cbn [elements_cls forallb].
  now rewrite empty_element, IH.
Qed.

Lemma empty_wrap k args c : is_empty (Class k args [c] []) = is_empty c.
Proof. rewrite empty_class. cbn [forallb]. now rewrite !andb_true_r. Qed.

Lemma empty_compressed ts : is_empty (compressed_cls ts) = forallb is_empty ts.
Proof.
  unfold compressed_cls, recursive_cls, overload_cls. rewrite !empty_wrap, empty_class, andb_true_r.
  apply empty_elements.
Qed.

Lemma empty_bind k f t : is_empty (bind_cls k f t) = is_empty f && is_empty t.
Proof.
  unfold bind_cls, recursive_cls, overload_cls. rewrite empty_wrap, empty_class, andb_true_r.
  cbn [forallb]. now rewrite !empty_element, empty_class, !andb_true_r.
Qed.

Lemma has_element p tag t : has p (element_cls tag t) =
  if is_empty t then true else if constructs p then has p t else false.
Proof.
  unfold element_cls. destruct (is_empty t); [now destruct p|].
  unfold overload_cls, tuple_cls. destruct p; cbn; now rewrite ?andb_true_r.
Qed.

Lemma has_bind p k f t : captures k = false -> (match k with KLambda _ => True | _ => False end) ->
  has p (bind_cls k f t) =
  if constructs p then ok p f && ok p t else is_empty f && is_empty t.
Proof.
  intros Hk Hl. unfold bind_cls, recursive_cls, overload_cls. cbn [Special.has forallb].
  rewrite !has_element. destruct k; try contradiction. rewrite Hk. rewrite !andb_true_r.
  unfold SpecialSpec.ok. destruct (constructs p), (is_empty f), (is_empty t); cbn; now rewrite ?andb_true_r, ?andb_false_r.
Qed.

Lemma has_elements p ts : forall tag, forallb (has p) (elements_cls tag ts) =
  if constructs p then forallb (ok p) ts else forallb is_empty ts.
Proof.
  induction ts as [|t ts IH]; intros tag; [now destruct (constructs p)|].
  cbn [elements_cls forallb]. rewrite has_element, IH. unfold SpecialSpec.ok.
  destruct (constructs p), (is_empty t); reflexivity.
Qed.

Lemma has_compressed p ts : has p (compressed_cls ts) =
  match p with
  | DefaultC => forallb (has DefaultC) ts
  | _ => if constructs p then forallb (ok p) ts else forallb is_empty ts
  end.
Proof.
  unfold compressed_cls, recursive_cls, overload_cls. cbn [Special.has].
  destruct p; try reflexivity; cbn [forallb Special.has]; rewrite !has_elements, !andb_true_r; reflexivity.
Qed.

Lemma all_empty_ok p ts : forallb is_empty ts = true -> forallb (ok p) ts = true.
Proof.
  rewrite !forallb_forall. intros H x Hx. unfold SpecialSpec.ok. now rewrite (H x Hx).
Qed.

Lemma ok_compressed p ts : constructs p = true -> ok p (compressed_cls ts) = forallb (ok p) ts.
Proof.
  intros Hp. unfold SpecialSpec.ok at 1. rewrite empty_compressed, has_compressed.
  replace (match p with DefaultC => _ | _ => _ end) with (forallb (ok p) ts) by (destruct p; try discriminate; reflexivity).
  destruct (forallb is_empty ts) eqn:E; [|reflexivity]. cbn. symmetry. now apply all_empty_ok.
Qed.

Lemma ok_lambda p k args : (match k with KLambda _ => True | _ => False end) -> ok p (Class k args [] []) = true.
Proof. reflexivity. Qed.

Lemma ok_bind p n f t : constructs p = true -> n <> 4 -> ok p (bind_cls (KLambda n) f t) = ok p f && ok p t.
Proof.
  intros Hp Hn. unfold SpecialSpec.ok at 1. rewrite empty_bind, has_bind, Hp; [|cbn; now apply Nat.eqb_neq|exact I].
  unfold SpecialSpec.ok. destruct (is_empty f), (is_empty t); reflexivity.
Qed.

Lemma ok_adapter p k f : constructs p = true -> (match k with KLambda _ => True | _ => False end) ->
  ok p (void_adapter_cls k f) = ok p f.
Proof.
  intros Hp Hk. unfold void_adapter_cls, front_lambda. rewrite ok_bind by (auto; discriminate).
  rewrite ok_lambda, ok_compressed by assumption. cbn [forallb andb]. apply andb_true_r.
Qed.

Lemma ok_core p cache f deps : constructs p = true -> is_empty cache = false ->
  ok p (lazy_core_cls cache f deps) = ok p cache && (ok p f && forallb (ok p) deps).
Proof.
  intros Hp Hc. unfold lazy_core_cls, back_lambda. rewrite ok_bind, ok_compressed by (auto; discriminate).
  cbn [forallb]. f_equal. unfold SpecialSpec.ok. rewrite empty_class, Hc. cbn. destruct p; try discriminate; apply andb_true_r.
Qed.

Lemma ok_unwrap p f : constructs p = true -> ok p (unwrap_cls f) = ok p f.
Proof.
  intros Hp.
  assert (E : ok p (bind_cls back_lambda (Class nullptr_lambda [f] [] []) (compressed_cls [f])) = ok p f).
  { unfold back_lambda. rewrite ok_bind, ok_compressed by (auto; discriminate).
    rewrite ok_lambda by exact I. cbn [forallb andb]. apply andb_true_r. }
  revert E. unfold unwrap_cls, recursive_cls, overload_cls.
  set (b := bind_cls back_lambda _ _). intros <-. clearbody b.
  unfold SpecialSpec.ok. rewrite empty_wrap, empty_class. cbn [forallb]. rewrite empty_class. cbn [forallb Special.has].
  rewrite !andb_true_r. reflexivity.
Qed.

Lemma ok_value p v b : constructs p = true -> is_empty b = true -> ok p (lazy_value_cls v b) = ok p v.
Proof.
  intros Hp Hb. unfold lazy_value_cls, back_lambda. rewrite ok_bind, ok_compressed by (auto; discriminate).
  rewrite ok_lambda by exact I. cbn [forallb andb]. unfold SpecialSpec.ok at 2. rewrite Hb. cbn. apply andb_true_r.
Qed.

Lemma ok_sampled p int cache g : constructs p = true -> is_empty cache = false ->
  ok p (sampled_cls int cache g) = ok p cache && (ok p g && ok p int).
Proof.
  intros Hp Hc. unfold sampled_cls. rewrite ok_core by assumption. f_equal. f_equal.
  - unfold back_lambda. rewrite ok_bind, ok_compressed by (auto; discriminate).
    rewrite ok_lambda by exact I. cbn [forallb andb]. apply andb_true_r.
  - cbn [forallb]. rewrite ok_value by (auto; reflexivity). apply andb_true_r.
Qed.

Section Ind.
  Variable P : lazy_type -> Prop.
  Hypothesis Hlazy : forall cache f deps, Forall P deps -> P (TLazy cache f deps).
  Hypothesis Hplain : forall cache g, P (TPlain cache g).
  Hypothesis Hvalue : forall v, P (TValue v).
  Fixpoint lazy_type_rect' (t : lazy_type) : P t :=
    match t with
    | TLazy cache f deps => Hlazy cache f deps
        ((fix go (l : list lazy_type) : Forall P l :=
            match l with [] => Forall_nil P | x :: l' => Forall_cons x (lazy_type_rect' x) (go l') end) deps)
    | TPlain cache g => Hplain cache g
    | TValue v => Hvalue v
    end.
End Ind.

Lemma ok_type p int t : constructs p = true -> caches_ok t ->
  ok p (type_cls int t) = forallb (ok p) (kept int t).
Proof.
  intros Hp. induction t as [cache f deps IH|cache g|v] using lazy_type_rect'; intros Hc.
  - destruct Hc as [Hc Hd]. cbn [type_cls kept forallb]. unfold lazy_cls.
    rewrite ok_adapter, ok_unwrap, ok_core, ok_adapter by (auto; exact I).
    f_equal. f_equal. clear Hc. revert Hd.
    induction IH as [|t ts Ht _ IH]; intros Hd; [reflexivity|].
    cbn [map forallb flat_map]. rewrite forallb_app, Ht, IH by apply Hd. reflexivity.
  - cbn [type_cls kept forallb]. rewrite ok_sampled by assumption. now rewrite andb_true_r.
  - cbn [type_cls kept forallb]. rewrite ok_value by (auto; reflexivity). now rewrite andb_true_r.
Qed.

(** ** Lazy functions are not empty, unless they are empty values *)
Lemma empty_lambda k args : is_empty (Class k args [] []) = true.
Proof. reflexivity. Qed.

Lemma empty_core cache f deps : is_empty (lazy_core_cls cache f deps) = false.
Proof. unfold lazy_core_cls. now rewrite empty_bind, empty_class. Qed.

Lemma empty_lazy cache f deps : is_empty (lazy_cls cache f deps) = false.
Proof.
  unfold lazy_cls, void_adapter_cls. rewrite empty_bind, empty_compressed, empty_lambda. cbn [forallb].
  unfold unwrap_cls, recursive_cls, overload_cls. rewrite empty_wrap, empty_class. cbn [forallb].
  rewrite empty_bind, empty_compressed. cbn [forallb]. rewrite empty_core.
  now rewrite !andb_false_r.
Qed.

Lemma empty_value v b : is_empty b = true -> is_empty (lazy_value_cls v b) = is_empty v.
Proof.
  intros Hb. unfold lazy_value_cls. rewrite empty_bind, empty_compressed, empty_lambda. cbn [forallb andb].
  rewrite Hb. cbn. apply andb_true_r.
Qed.

Lemma empty_type int t : is_empty (type_cls int t) = match t with TValue v => is_empty v | _ => false end.
Proof.
  destruct t; cbn [type_cls].
  - apply empty_lazy.
  - apply empty_core.
  - now apply empty_value.
Qed.

(** C83 (1) *)
Lemma type_copy p int t : constructs p = true -> caches_ok t ->
  has p (type_cls int t) = forallb (ok p) (kept int t).
Proof.
  intros Hp Hc. rewrite <- (ok_type p int t Hp Hc). unfold SpecialSpec.ok. rewrite empty_type.
  destruct t as [cache f deps|cache g|v]; try reflexivity. destruct (is_empty v) eqn:E; [|reflexivity].
  cbn [type_cls]. unfold lazy_value_cls, back_lambda. rewrite has_bind, Hp by (reflexivity || exact I).
  rewrite ok_lambda, ok_compressed by auto. cbn [forallb]. unfold SpecialSpec.ok. rewrite E. reflexivity.
Qed.

(** C83 (2) *)
Lemma type_assign p int t : assigns p = true \/ p = DefaultC ->
  has p (type_cls int t) = match t with TValue v => is_empty v | _ => false end.
Proof.
  intros Hp. assert (Hn : constructs p = false) by (destruct p, Hp; auto; discriminate).
  rewrite <- (empty_type int t).
  destruct t as [cache f deps|cache g|v]; cbn [type_cls].
  - unfold lazy_cls, void_adapter_cls. rewrite has_bind, Hn by (reflexivity || exact I). now rewrite <- empty_bind with (k := front_lambda).
  - unfold sampled_cls, lazy_core_cls. rewrite has_bind, Hn by (reflexivity || exact I). now rewrite <- empty_bind with (k := back_lambda).
  - unfold lazy_value_cls. rewrite has_bind, Hn by (reflexivity || exact I). now rewrite <- empty_bind with (k := back_lambda).
Qed.

(** ** uncapture.h *)
Lemma has_uncaptured p tag t : has p (uncaptured_cls tag t) =
  match p with DefaultC => if is_empty t then false else has p t | _ => ok p t end.
Proof.
  unfold uncaptured_cls, ok. destruct (is_empty t); [now destruct p|].
  destruct p; cbn; now rewrite ?andb_true_r.
Qed.

Lemma chain_has p ts f : p <> DefaultC -> has p (chain_cls ts f) = forallb (ok p) ts && has p f.
Proof.
  intros Hp. induction ts as [|t ts IH]; [reflexivity|]. cbn [chain_cls forallb]. unfold capture_cls.
  cbn [Special.has forallb]. rewrite has_uncaptured, IH.
  destruct p; try congruence; rewrite ?andb_true_r; now rewrite andb_assoc.
Qed.

Lemma chain_default t ts f : has DefaultC (chain_cls (t :: ts) f) = false.
Proof. reflexivity. Qed.

End Special.

(** ** Constructors *)
Lemma chosen_ctor n direct a :
  chosen n direct a =
  if s_rvalue a && negb (s_const a) then Some FromRvalue
  else if direct && Nat.eqb n 1 && xorb (s_const a) (negb (s_rvalue a)) then Some FromElements
  else Some FromConst.
Proof.
  destruct a as [[] []], direct; unfold chosen; cbn; destruct n as [|[|n]]; reflexivity.
Qed.

Definition all_traits (_ : trait) (_ : cls) : bool := true.

Lemma tuple_not_assignable : exists user_has ts, forallb (has user_has CopyA) ts = true /\
  has user_has CopyA (compressed_cls ts) = false.
Proof. exists all_traits, [Scalar 4 4]. split; reflexivity. Qed.

(** C83 (4) *)
Lemma bound_has user_has p k f t : k = front_lambda \/ k = back_lambda ->
  has user_has p (bind_cls k f t) =
  if constructs p then ok user_has p f && ok user_has p t else is_empty f && is_empty t.
Proof. intros [-> | ->]; now apply has_bind. Qed.
