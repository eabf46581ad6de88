(** The properties about types, const/volatile and value categories (C28-C34).
    Statements only: each is closed by a lemma proved elsewhere.  After each
    theorem an example shows concrete cases.

    [beq] decides equality of unqualified types, [is_empty] is
    [std::is_empty], [V] and [CT] are the classes of the stored [std::tuple]
    and of the compressed_tuple (their choice does not matter). *)
From Coq Require Import List Bool Arith.
From Verif Require Import CppTypes CppTypesProofs.
Import ListNotations.

(** C28 *)
Theorem C28_forward_like :
  forall (B : Type) (beq : forall x y : B, {x = y} + {x <> y}) (Like : ty B) (e : expr B),
  proper e ->
  forward_like beq Like e =
    if (match ecat e with LV => false | _ => is_lref Like end)
       || (cst (etype e) && negb (cst Like)) || (vol (etype e) && negb (vol Like))
    then None
    else Some (mkTy (base (etype e)) (cst Like) (vol Like) (if is_lref Like then LRef else RRef)).
Proof. exact @forward_like_spec. Qed.
Print Assumptions C28_forward_like.

Example C28_case :
  proper (mkExpr (mkTy 7 false false NoRef) LV) /\
  forward_like Nat.eq_dec (mkTy 1 true false LRef) (mkExpr (mkTy 7 false false NoRef) LV)
  = Some (mkTy 7 true false LRef) /\
  forward_like Nat.eq_dec (mkTy 1 false false NoRef) (mkExpr (mkTy 7 false false NoRef) LV)
  = Some (mkTy 7 false false RRef) /\
  forward_like Nat.eq_dec (mkTy 1 false false LRef) (mkExpr (mkTy 7 false false NoRef) XV) = None /\
  forward_like Nat.eq_dec (mkTy 1 false false LRef) (mkExpr (mkTy 7 true false NoRef) LV) = None.
Proof. exact ex_C28. Qed.

(** C29: like [std::get], except that a volatile element of a const tuple is
    rejected. *)
Theorem C29_get_value_element :
  forall (B : Type) (beq : forall x y : B, {x = y} + {x <> y}) (is_empty : B -> bool)
    (V CT : B) (T : ty B) (is_cst : bool) (c : cat),
  ref T = NoRef -> is_empty (base T) = false ->
  get beq is_empty V CT T is_cst c
  = if is_cst && vol T then None else Some (std_get T (is_cst, c)).
Proof. exact @get_value_spec. Qed.
Print Assumptions C29_get_value_element.

Example C29_case :
  ex_get (mkTy 7 false false NoRef) false LV = Some (mkTy 7 false false LRef) /\
  ex_get (mkTy 7 false false NoRef) false XV = Some (mkTy 7 false false RRef) /\
  ex_get (mkTy 7 false false NoRef) true LV = Some (mkTy 7 true false LRef) /\
  ex_get (mkTy 7 false false NoRef) true XV = Some (mkTy 7 true false RRef) /\
  ex_get (mkTy 7 true false NoRef) false LV = Some (mkTy 7 true false LRef) /\
  ex_get (mkTy 7 false true NoRef) true LV = None.
Proof. exact ex_C29. Qed.

(** C30: the exact result for elements declared as references ... *)
Theorem C30_get_reference_element :
  forall (B : Type) (beq : forall x y : B, {x = y} + {x <> y}) (is_empty : B -> bool)
    (V CT : B) (T : ty B) (is_cst : bool) (c : cat),
  ref T <> NoRef -> is_empty (base T) = false -> vol T = false ->
  get beq is_empty V CT T is_cst c
  = Some (mkTy (base T) (is_cst || cst T) false
            (match c with
             | LV => LRef
             | _ => match ref T with LRef => if is_cst then RRef else LRef | _ => RRef end
             end)).
Proof. exact @get_reference_spec. Qed.
Print Assumptions C30_get_reference_element.

(** ... and exactly when it is that of [std::get]. *)
Theorem C30_get_like_std_iff :
  forall (B : Type) (beq : forall x y : B, {x = y} + {x <> y}) (is_empty : B -> bool)
    (V CT : B) (T : ty B) (is_cst : bool) (c : cat),
  ref T <> NoRef -> is_empty (base T) = false -> vol T = false ->
  (get beq is_empty V CT T is_cst c = Some (std_get T (is_cst, c))
   <-> is_cst = false \/ (cst T = true /\ (ref T = LRef -> c = LV))).
Proof. exact @get_like_std_iff. Qed.
Print Assumptions C30_get_like_std_iff.

Example C30_case :
  ex_get (mkTy 7 false false LRef) false LV = Some (mkTy 7 false false LRef) /\
  ex_get (mkTy 7 false false LRef) false XV = Some (mkTy 7 false false LRef) /\
  ex_get (mkTy 7 false false LRef) true LV = Some (mkTy 7 true false LRef) /\
  std_get (mkTy 7 false false LRef) (true, LV) = mkTy 7 false false LRef /\
  ex_get (mkTy 7 false false LRef) true XV = Some (mkTy 7 true false RRef) /\
  std_get (mkTy 7 false false LRef) (true, XV) = mkTy 7 false false LRef.
Proof. exact ex_C30. Qed.

(** C31: the expression [as_nonconst(e)]. *)
Theorem C31_as_nonconst :
  forall (B : Type) (e : expr B),
  proper e ->
  call_expr (as_nonconst e)
  = mkExpr (mkTy (base (etype e)) false false NoRef) (match ecat e with LV => LV | _ => XV end).
Proof. exact @as_nonconst_spec. Qed.
Print Assumptions C31_as_nonconst.

Example C31_case :
  proper (mkExpr (mkTy 7 true true NoRef) XV) /\
  as_nonconst (mkExpr (mkTy 7 true true NoRef) XV) = mkTy 7 false false RRef /\
  as_nonconst (mkExpr (mkTy 7 true false NoRef) LV) = mkTy 7 false false LRef.
Proof. exact ex_C31. Qed.

(** C32 *)
Theorem C32_to_tuple :
  forall (B : Type) (beq : forall x y : B, {x = y} + {x <> y}) (is_empty : B -> bool)
    (V CT : B) (Ts : list (ty B)) (is_cst : bool) (c : cat),
  (to_tuple beq is_empty V CT Ts is_cst c = None <->
   exists T, In T Ts /\ get beq is_empty V CT T is_cst c = None) /\
  forall rs, to_tuple beq is_empty V CT Ts is_cst c = Some rs ->
    length rs = length Ts /\
    forall i T, nth_error Ts i = Some T ->
      exists r, get beq is_empty V CT T is_cst c = Some r /\
        nth_error rs i = Some (match ref r with NoRef => add_rref r | _ => r end).
Proof. exact @to_tuple_spec. Qed.
Print Assumptions C32_to_tuple.

Example C32_case :
  to_tuple Nat.eq_dec ex_empty 100 101
    [mkTy 7 false false NoRef; mkTy 0 false false NoRef; mkTy 8 false false LRef] false XV
  = Some [mkTy 7 false false RRef; mkTy 0 false false RRef; mkTy 8 false false LRef] /\
  to_tuple Nat.eq_dec ex_empty 100 101 [mkTy 7 false false NoRef; mkTy 8 false true NoRef] true LV = None.
Proof. exact ex_C32. Qed.

(** The get results of elements of empty class are values, hence the dangling
    rvalue references in [to_tuple]. *)
Theorem C32_empty_element :
  forall (B : Type) (beq : forall x y : B, {x = y} + {x <> y}) (is_empty : B -> bool)
    (V CT : B) (T : ty B) (is_cst : bool) (c : cat),
  is_empty (base T) = true ->
  get beq is_empty V CT T is_cst c = Some (mkTy (base T) false false NoRef).
Proof. exact @get_empty. Qed.
Print Assumptions C32_empty_element.

(** C33 *)
Theorem C33_tuple_protocol :
  forall (B : Type) (is_cst : bool) (Ts : list (ty B)),
  tuple_size Ts = length Ts /\
  (forall I, tuple_element false I Ts = nth_error Ts I) /\
  (forall I, tuple_element true I Ts = option_map add_const (nth_error Ts I)) /\
  (forall I, tuple_element is_cst I Ts = None <-> tuple_size Ts <= I) /\
  tuple_like is_cst Ts = true.
Proof. exact @tuple_protocol. Qed.
Print Assumptions C33_tuple_protocol.

Example C33_case :
  tuple_size [mkTy 7 false false NoRef; mkTy 8 false false LRef] = 2 /\
  tuple_element false 1 [mkTy 7 false false NoRef; mkTy 8 false false LRef] = Some (mkTy 8 false false LRef) /\
  tuple_element true 0 [mkTy 7 false false NoRef; mkTy 8 false false LRef] = Some (mkTy 7 true false NoRef) /\
  tuple_element true 2 [mkTy 7 false false NoRef; mkTy 8 false false LRef] = None.
Proof. exact ex_C33. Qed.

(** C34: if [F] accepts the object as qualified in the call expression, this is
    what is called ... *)
Theorem C34_recursive_passes_itself :
  forall (O A R : Type) (F : qual -> O -> list A -> option R) this is_cst c args r,
  F (mkQual is_cst (match c with LV => false | _ => true end)) this args = Some r ->
  recursive_operator F this is_cst c args = Some r.
Proof. exact @recursive_own. Qed.
Print Assumptions C34_recursive_passes_itself.

(** ... otherwise const may be added or an rvalue passed as a const lvalue; the
    call is rejected only if no such way is accepted. *)
Theorem C34_recursive_otherwise :
  forall (O A R : Type) (F : qual -> O -> list A -> option R) this is_cst c args,
  match recursive_operator F this is_cst c args with
  | Some r => exists q, F q this args = Some r /\ (is_cst = true -> qconst q = true) /\
                (c = LV -> qrv q = false) /\
                (q = mkQual is_cst (match c with LV => false | _ => true end) \/
                 F (mkQual is_cst (match c with LV => false | _ => true end)) this args = None)
  | None => forall q, (is_cst = true -> qconst q = true) -> (c = LV -> qrv q = false) ->
              (c <> LV -> qrv q = true \/ qconst q = true) ->
              F q this args = None
  end.
Proof. exact @recursive_only. Qed.
Print Assumptions C34_recursive_otherwise.

Example C34_case :
  recursive_operator ex_foo 9 false LV [5; 6] = Some (1, 9, [5; 6]) /\
  recursive_operator ex_foo 9 false XV [5; 6] = Some (2, 9, [5; 6]) /\
  recursive_operator ex_foo 9 true LV [5; 6] = Some (3, 9, [5; 6]) /\
  recursive_operator ex_foo 9 true PRV [5; 6] = Some (4, 9, [5; 6]) /\
  recursive_operator ex_bar 9 false XV [5; 6] = Some (3, 9, [5; 6]) /\
  recursive_operator (fun q (this : nat) (args : list nat) => if qconst q then None else Some this)
    9 true LV [5; 6] = None.
Proof. exact ex_C34. Qed.
