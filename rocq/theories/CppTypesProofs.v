(** Lemmas about CppTypes.v and the statements of PropsTypes.v. *)
From Coq Require Import List Bool Arith Lia.
From Verif Require Import CppTypes.
Import ListNotations.

Section P.
Context {B : Type} (beq : forall x y : B, {x = y} + {x <> y}) (is_empty : B -> bool).
Implicit Types (t T Like : ty B) (e : expr B).

Lemma beq_refl b : (if beq b b then true else false) = true.
Proof. destruct (beq b b); congruence. Qed.

(** An expression never has reference type. *)
Definition proper e : Prop := ref (etype e) = NoRef.

Lemma forward_like_spec Like e :
  proper e ->
  forward_like beq Like e =
    if (match ecat e with LV => false | _ => is_lref Like end)
       || (cst (etype e) && negb (cst Like)) || (vol (etype e) && negb (vol Like))
    then None
    else Some (mkTy (base (etype e)) (cst Like) (vol Like) (if is_lref Like then LRef else RRef)).
Proof.
  destruct e as [[b c v r] k], Like as [b' c' v' r']. unfold proper; cbn. intros ->.
  unfold forward_like, std_forward, binds.
  destruct k, r', c, c', v, v'; cbn; rewrite ?beq_refl; cbn; rewrite ?beq_refl; cbn; reflexivity.
Qed.

Lemma as_nonconst_spec e :
  proper e ->
  call_expr (as_nonconst e)
  = mkExpr (mkTy (base (etype e)) false false NoRef) (match ecat e with LV => LV | _ => XV end).
Proof.
  destruct e as [[b c v r] k]. unfold proper; cbn. intros ->. now destruct k.
Qed.

Lemma make_element_spec T :
  make_element beq is_empty T
  = Some (if is_empty (base T) then ElEmpty (base T)
          else ElValue (if is_lref T then T else remove_reference T)).
Proof.
  destruct T as [b c v r]. unfold make_element, std_forward, binds, compressed_tuple_element.
  destruct r, c, v; repeat (cbn; rewrite ?beq_refl); destruct (is_empty b);
    repeat (unfold std_forward, binds; cbn; rewrite ?beq_refl); reflexivity.
Qed.

Lemma get_empty V CT T q c :
  is_empty (base T) = true ->
  get beq is_empty V CT T q c = Some (mkTy (base T) false false NoRef).
Proof.
  intros H. unfold get. rewrite make_element_spec, H. destruct q, c; reflexivity.
Qed.

(** The result of [get] for an element that is not of empty class. *)
Definition get_result T (q : bool) (c : cat) : option (ty B) :=
  if q && vol T then None
  else Some (mkTy (base T) (q || cst T) (vol T)
               (match c with
                | LV => LRef
                | _ => if is_lref T && negb q then LRef else RRef
                end)).

Lemma get_nonempty V CT T q c :
  is_empty (base T) = false ->
  get beq is_empty V CT T q c = get_result T q c.
Proof.
  intros H. unfold get. rewrite make_element_spec, H.
  destruct T as [b k v r]. cbn in H.
  destruct q, c, r, k, v; cbn;
    repeat (unfold mutable_lambda, forward_like, std_forward, binds; cbn; rewrite ?beq_refl);
    reflexivity.
Qed.

Lemma get_value_spec V CT T q c :
  ref T = NoRef -> is_empty (base T) = false ->
  get beq is_empty V CT T q c
  = if q && vol T then None else Some (std_get T (q, c)).
Proof.
  intros Hr He. rewrite get_nonempty by auto. unfold get_result.
  destruct T as [b k v r]. cbn in Hr. subst r. destruct q, c, v, k; reflexivity.
Qed.

Lemma get_reference_spec V CT T q c :
  ref T <> NoRef -> is_empty (base T) = false -> vol T = false ->
  get beq is_empty V CT T q c
  = Some (mkTy (base T) (q || cst T) false
            (match c with
             | LV => LRef
             | _ => match ref T with LRef => if q then RRef else LRef | _ => RRef end
             end)).
Proof.
  intros Hr He Hv. rewrite get_nonempty by auto. unfold get_result.
  destruct T as [b k v r]. cbn in *. subst v. destruct q, c, r, k; try reflexivity; congruence.
Qed.

Lemma get_like_std_iff V CT T q c :
  ref T <> NoRef -> is_empty (base T) = false -> vol T = false ->
  (get beq is_empty V CT T q c = Some (std_get T (q, c))
   <-> q = false \/ (cst T = true /\ (ref T = LRef -> c = LV))).
Proof.
  intros Hr He Hv. rewrite get_reference_spec by auto.
  destruct T as [b k v r]. cbn in *. subst v.
  destruct q, c, r, k; cbn; try congruence;
    split; intros H; try (left; reflexivity);
    try (right; split; [reflexivity|intros; congruence]); try discriminate; try reflexivity;
    destruct H as [H|[H H']]; try discriminate; try (specialize (H' eq_refl); discriminate).
Qed.

Lemma all_some_spec {X} (l : list (option X)) :
  match all_some l with
  | Some xs => l = map Some xs
  | None => In None l
  end.
Proof.
  induction l as [|[x|] l IH]; cbn; auto.
  destruct (all_some l); cbn; [now rewrite IH|auto].
Qed.

Lemma values_type (r : ty B) :
  match std_forward beq (fwd_param (call_expr r)) (name_expr (fwd_param (call_expr r))) with
  | Some r' => Some (fwd_param (call_expr r'))
  | None => None
  end = Some (match ref r with NoRef => add_rref r | _ => r end).
Proof.
  destruct r as [b c v k]. unfold std_forward, binds.
  destruct k, c, v; cbn; rewrite ?beq_refl; reflexivity.
Qed.

Lemma to_tuple_spec V CT Ts q c :
  (to_tuple beq is_empty V CT Ts q c = None <->
   exists T, In T Ts /\ get beq is_empty V CT T q c = None) /\
  forall rs, to_tuple beq is_empty V CT Ts q c = Some rs ->
    length rs = length Ts /\
    forall i T, nth_error Ts i = Some T ->
      exists r, get beq is_empty V CT T q c = Some r /\
        nth_error rs i = Some (match ref r with NoRef => add_rref r | _ => r end).
Proof.
  unfold to_tuple.
  pose proof (all_some_spec (map (fun T => match get beq is_empty V CT T q c with
            | Some r =>
                match std_forward beq (fwd_param (call_expr r)) (name_expr (fwd_param (call_expr r))) with
                | Some r' => Some (fwd_param (call_expr r'))
                | None => None
                end
            | None => None
            end) Ts)) as H.
  cbv zeta. destruct (all_some _) as [xs|].
  - split.
    + split; [discriminate|]. intros (T & Hin & HT).
      apply in_split in Hin as (l1 & l2 & ->). rewrite map_app in H. cbn in H. rewrite HT in H.
      assert (In None (map Some xs)) as Hn by (rewrite <- H; apply in_or_app; right; now left).
      apply in_map_iff in Hn as (x & Hx & _). discriminate.
    + intros rs [= <-]. split.
      * apply (f_equal (@length _)) in H. now rewrite !map_length in H.
      * intros i T HT. apply (f_equal (fun l => nth_error l i)) in H.
        rewrite !nth_error_map, HT in H. cbn in H.
        destruct (get beq is_empty V CT T q c) as [r|].
        -- exists r. split; auto. rewrite values_type in H.
           destruct (nth_error xs i); [|discriminate]. cbn in H. now injection H as <-.
        -- destruct (nth_error xs i); discriminate.
  - split; [split; auto|discriminate]. intros _.
    apply in_map_iff in H as (T & HT & Hin). exists T. split; auto.
    destruct (get beq is_empty V CT T q c) as [r|]; auto.
    rewrite values_type in HT. discriminate.
Qed.

Lemma tuple_protocol q (Ts : list (ty B)) :
  tuple_size Ts = length Ts /\
  (forall I, tuple_element false I Ts = nth_error Ts I) /\
  (forall I, tuple_element true I Ts = option_map add_const (nth_error Ts I)) /\
  (forall I, tuple_element q I Ts = None <-> tuple_size Ts <= I) /\
  tuple_like q Ts = true.
Proof.
  repeat split.
  - intros I. unfold tuple_element. now destruct (nth_error Ts I).
  - unfold tuple_element. intros H. apply nth_error_None. now destruct (nth_error Ts I).
  - unfold tuple_element. intros H. apply nth_error_None in H. now rewrite H.
  - unfold tuple_like. apply forallb_forall. intros I HI. apply in_seq in HI.
    unfold tuple_element. destruct (nth_error Ts I) eqn:E; auto.
    apply nth_error_None in E. unfold tuple_size in HI. lia.
Qed.

Lemma recursive_own {O A R : Type} (F : qual -> O -> list A -> option R) this q c args r :
  F (mkQual q (match c with LV => false | _ => true end)) this args = Some r ->
  recursive_operator F this q c args = Some r.
Proof.
  intros H. unfold recursive_operator, recursive_call.
  destruct q, c; cbn; rewrite H; exact H.
Qed.

Lemma recursive_only {O A R : Type} (F : qual -> O -> list A -> option R) this q c args :
  match recursive_operator F this q c args with
  | Some r => exists q', F q' this args = Some r /\ (q = true -> qconst q' = true) /\
                (c = LV -> qrv q' = false) /\
                (q' = mkQual q (match c with LV => false | _ => true end) \/
                 F (mkQual q (match c with LV => false | _ => true end)) this args = None)
  | None => forall q', (q = true -> qconst q' = true) -> (c = LV -> qrv q' = false) ->
              (c <> LV -> qrv q' = true \/ qconst q' = true) ->
              F q' this args = None
  end.
Proof.
  unfold recursive_operator, recursive_call.
  destruct q, c; cbn;
    repeat match goal with
           | |- context [match F ?p this args with _ => _ end] =>
               let E := fresh "E" in destruct (F p this args) eqn:E; cbn
           end;
    repeat match goal with E : F _ this args = Some _ |- _ => progress rewrite E end.
  all: try (eexists; split; [eassumption|]; cbn; repeat split; try discriminate; auto; fail).
  all: try (intros [[] []]; cbn; intros H1 H2 H3; auto;
    try (specialize (H1 eq_refl); discriminate);
    try (specialize (H2 eq_refl); discriminate);
    destruct H3; discriminate).
Qed.

End P.

(** ** Examples *)

(** Class 0 is empty; 100 and 101 stand for the tuple classes. *)
Definition ex_empty (b : nat) : bool := b =? 0.
Definition ex_get := get Nat.eq_dec ex_empty 100 101.

Lemma ex_C28 :
  (* forward_like<const X &>(int lvalue) = const int & *)
  proper (mkExpr (mkTy 7 false false NoRef) LV) /\
  forward_like Nat.eq_dec (mkTy 1 true false LRef) (mkExpr (mkTy 7 false false NoRef) LV)
  = Some (mkTy 7 true false LRef) /\
  (* forward_like<X>(int lvalue) = int && *)
  forward_like Nat.eq_dec (mkTy 1 false false NoRef) (mkExpr (mkTy 7 false false NoRef) LV)
  = Some (mkTy 7 false false RRef) /\
  (* forward_like<X &>(int rvalue) is rejected *)
  forward_like Nat.eq_dec (mkTy 1 false false LRef) (mkExpr (mkTy 7 false false NoRef) XV) = None /\
  (* forward_like<X &>(const int lvalue) is rejected *)
  forward_like Nat.eq_dec (mkTy 1 false false LRef) (mkExpr (mkTy 7 true false NoRef) LV) = None.
Proof. now repeat split. Qed.

Lemma ex_C29 :
  ex_get (mkTy 7 false false NoRef) false LV = Some (mkTy 7 false false LRef) /\
  ex_get (mkTy 7 false false NoRef) false XV = Some (mkTy 7 false false RRef) /\
  ex_get (mkTy 7 false false NoRef) true LV = Some (mkTy 7 true false LRef) /\
  ex_get (mkTy 7 false false NoRef) true XV = Some (mkTy 7 true false RRef) /\
  ex_get (mkTy 7 true false NoRef) false LV = Some (mkTy 7 true false LRef) /\
  ex_get (mkTy 7 false true NoRef) true LV = None.
Proof. now repeat split. Qed.

Lemma ex_C30 :
  (* compressed_tuple<int &>: the last two differ from std::get *)
  ex_get (mkTy 7 false false LRef) false LV = Some (mkTy 7 false false LRef) /\
  ex_get (mkTy 7 false false LRef) false XV = Some (mkTy 7 false false LRef) /\
  ex_get (mkTy 7 false false LRef) true LV = Some (mkTy 7 true false LRef) /\
  std_get (mkTy 7 false false LRef) (true, LV) = mkTy 7 false false LRef /\
  ex_get (mkTy 7 false false LRef) true XV = Some (mkTy 7 true false RRef) /\
  std_get (mkTy 7 false false LRef) (true, XV) = mkTy 7 false false LRef.
Proof. now repeat split. Qed.

Lemma ex_C31 :
  proper (mkExpr (mkTy 7 true true NoRef) XV) /\
  as_nonconst (mkExpr (mkTy 7 true true NoRef) XV) = mkTy 7 false false RRef /\
  as_nonconst (mkExpr (mkTy 7 true false NoRef) LV) = mkTy 7 false false LRef.
Proof. now repeat split. Qed.

Lemma ex_C32 :
  to_tuple Nat.eq_dec ex_empty 100 101
    [mkTy 7 false false NoRef; mkTy 0 false false NoRef; mkTy 8 false false LRef] false XV
  = Some [mkTy 7 false false RRef; mkTy 0 false false RRef; mkTy 8 false false LRef] /\
  to_tuple Nat.eq_dec ex_empty 100 101 [mkTy 7 false false NoRef; mkTy 8 false true NoRef] true LV = None.
Proof. now split. Qed.

Lemma ex_C33 :
  tuple_size [mkTy 7 false false NoRef; mkTy 8 false false LRef] = 2 /\
  tuple_element false 1 [mkTy 7 false false NoRef; mkTy 8 false false LRef] = Some (mkTy 8 false false LRef) /\
  tuple_element true 0 [mkTy 7 false false NoRef; mkTy 8 false false LRef] = Some (mkTy 7 true false NoRef) /\
  tuple_element true 2 [mkTy 7 false false NoRef; mkTy 8 false false LRef] = None.
Proof. now repeat split. Qed.

(** The callable of the test "perfect_forwarding" (tests/recursive.test.cpp), returning
    also the object and the arguments; and one whose call operator is const and
    takes no rvalues. *)
Definition ex_foo (q : qual) (this : nat) (args : list nat) : option (nat * nat * list nat) :=
  Some ((match qconst q, qrv q with
         | false, false => 1 | false, true => 2 | true, false => 3 | true, true => 4 end), this, args).
Definition ex_bar (q : qual) (this : nat) (args : list nat) : option (nat * nat * list nat) :=
  match qconst q, qrv q with true, false => Some (3, this, args) | _, _ => None end.

Lemma ex_C34 :
  recursive_operator ex_foo 9 false LV [5; 6] = Some (1, 9, [5; 6]) /\
  recursive_operator ex_foo 9 false XV [5; 6] = Some (2, 9, [5; 6]) /\
  recursive_operator ex_foo 9 true LV [5; 6] = Some (3, 9, [5; 6]) /\
  recursive_operator ex_foo 9 true PRV [5; 6] = Some (4, 9, [5; 6]) /\
  recursive_operator ex_bar 9 false XV [5; 6] = Some (3, 9, [5; 6]) /\
  recursive_operator (fun q (this : nat) (args : list nat) => if qconst q then None else Some this)
    9 true LV [5; 6] = None.
Proof. now repeat split. Qed.
