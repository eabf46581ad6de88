(** The property about which calls of bound functions compile (C65).  Statements only.

    [invoke] says what becomes of [std::invoke(f, args...)] for the user's callables,
    [converts] which types can be returned where another one is declared, [gets] what
    the types of [get<I>(t)...] are. *)
From Coq Require Import List Bool Arith.
From Verif Require Import CppTypes CppTypesProofs BindTypes BindTypesSpec BindTypesThms.
Import ListNotations.

(** C65 (1): [bind_back(f, back...)(front...)] is viable exactly if [f] can be invoked with
    all arguments perfectly forwarded, and then has the type of that call; it is an
    error unless [f] can also be invoked with the bound ones, and itself, as lvalues. *)
Theorem C65_bind_back :
  forall (B : Type) (beq : forall x y : B, {x = y} + {x <> y})
    (invoke : expr B -> list (expr B) -> verdict B) converts (V : B) f back front,
  proper f -> Forall (@proper B) back -> Forall (@proper B) front ->
  bind_back_call beq invoke converts V f back front = spec_bind_back invoke converts f back front.
Proof. exact @bind_back_spec. Qed.
Print Assumptions C65_bind_back.

(** ... so if everything bound is an lvalue, it compiles exactly if the direct call
    does. *)
Theorem C65_bind_back_lvalues :
  forall (B : Type) (beq : forall x y : B, {x = y} + {x <> y})
    (invoke : expr B -> list (expr B) -> verdict B) converts,
  (forall t : ty B, converts t t = true) ->
  forall (V : B) f back front,
  proper f -> Forall (@proper B) back -> Forall (@proper B) front ->
  ecat f = LV -> Forall (fun e => ecat e = LV) back ->
  bind_back_call beq invoke converts V f back front
  = match invoke f (map fwd front ++ back) with Accepted R => Accepted R | v => v end.
Proof. exact @bind_back_lvalues. Qed.
Print Assumptions C65_bind_back_lvalues.

(** ... and for function objects that are not templates: exactly the parameters [T &&],
    and [T] that cannot be copied, make a viable call with something bound from an
    rvalue an error. *)
Theorem C65_bind_back_function :
  forall (B : Type) (beq : forall x y : B, {x = y} + {x <> y}) copyable converts (V : B)
    (o : fobj B) f back front,
  (forall t : ty B, converts t t = true) ->
  proper f -> Forall (@proper B) back -> Forall (@proper B) front ->
  bind_back_call beq (fobj_invoke beq copyable o) converts V f back front
  = if callee_ok beq o (fwd f) && takes_all beq copyable (fparams o) (map fwd front ++ map fwd back)
    then if (rvalue f && match fref o with RRef => true | _ => false end)
            || lost copyable (skipn (length front) (fparams o)) back
         then HardError else Accepted (fret o)
    else NotViable.
Proof. exact @bind_back_function. Qed.
Print Assumptions C65_bind_back_function.

(** [f(int, const int &)]: viable with 1 bound, and with an [int] variable; not with
    another class, nor with another number of arguments. *)
Example C65_case_bind_back :
  bt_bind_back bt_reads (bt_lv 3) [bt_rv 1] [bt_rv 1] = Accepted (bt_ty 1) /\
  bt_bind_back bt_reads (bt_rv 3) [bt_lv 1] [bt_lv 1] = Accepted (bt_ty 1) /\
  bt_bind_back bt_reads (bt_lv 3) [bt_rv 2] [bt_lv 1] = NotViable /\
  bt_bind_back bt_reads (bt_lv 3) [bt_rv 1] [] = NotViable /\
  (* f(unique_ptr, int): the front argument is forwarded *)
  bt_bind_back (bt_fun [bt_ty 2; bt_ty 1]) (bt_lv 3) [bt_rv 1] [bt_rv 2] = Accepted (bt_ty 1) /\
  bt_bind_back (bt_fun [bt_ty 2; bt_ty 1]) (bt_lv 3) [bt_rv 1] [bt_lv 2] = NotViable.
Proof. now repeat split. Qed.

(** A viable call need not compile: [f(int, int &&)] or [f(int, unique_ptr)] with the second
    argument bound ... *)
Theorem C65_viable_compiles_refuted :
  exists (p : ty nat) (e : expr nat),
    bind_back_decl Nat.eq_dec (bt_invoke (bt_fun [bt_ty 1; p])) (bt_lv 3) [e] [bt_rv 1] = Accepted (bt_ty 1) /\
    bt_bind_back (bt_fun [bt_ty 1; p]) (bt_lv 3) [e] [bt_rv 1] = HardError.
Proof. exists (bt_ty 2), (bt_rv 2). now split. Qed.
Print Assumptions C65_viable_compiles_refuted.

(** ... and one whose body would compile need not be viable: [f(int, int &)] with a bound
    rvalue. *)
Theorem C65_body_compiles_refuted :
  exists (p : ty nat) (e : expr nat),
    bt_invoke (bt_fun [bt_ty 1; p]) (bt_lv 3) [fwd (bt_rv 1); lval e] = Accepted (bt_ty 1) /\
    bt_bind_back (bt_fun [bt_ty 1; p]) (bt_lv 3) [e] [bt_rv 1] = NotViable.
Proof. exists (mkTy 1 false false LRef), (bt_rv 1). now split. Qed.
Print Assumptions C65_body_compiles_refuted.

(** C65 (2): calls of [t >> f] and [t << f], const or not and of any category: viable if [f]
    as an lvalue can be invoked with the elements of [t] as an lvalue and the arguments
    (forwarded for [>>], copied for [<<]); the call made is on the members, which are
    const in a const binder, and for [>>] has the arguments as lvalues. *)
Theorem C65_binder :
  forall (B : Type) (beq : forall x y : B, {x = y} + {x <> y})
    (invoke : expr B -> list (expr B) -> verdict B) converts,
  (forall t : ty B, converts t t = true) ->
  forall gets (V : B) is_empty (CT : B) idx_t s F T is_cst c args,
  proper F -> proper T -> Forall (@proper B) args ->
  binder_call beq invoke converts gets V is_empty CT idx_t s F T is_cst c args
  = spec_binder invoke converts gets is_empty idx_t s F T is_cst args.
Proof. exact @binder_spec. Qed.
Print Assumptions C65_binder.

(** If the binder is not const, [<<] makes the call that it asks for, and so does [>>] for
    lvalue arguments: it compiles exactly if it is viable. *)
Theorem C65_binder_lvalues :
  forall (B : Type) (beq : forall x y : B, {x = y} + {x <> y})
    (invoke : expr B -> list (expr B) -> verdict B) converts,
  (forall t : ty B, converts t t = true) ->
  forall gets (V : B) is_empty (CT : B) idx_t s F T c args,
  proper F -> proper T -> Forall (@proper B) args ->
  (forall e, e = F \/ e = T -> is_empty (base (etype e)) = true -> cst (etype e) = false /\ vol (etype e) = false) ->
  (s = Front -> Forall (fun e => ecat e = LV) args) ->
  (forall i, i < 2 -> asked invoke gets s (lval F) (lval T) [tag idx_t i] <> HardError) ->
  binder_call beq invoke converts gets V is_empty CT idx_t s F T false c args
  = asked invoke gets s (lval F) (lval T) args.
Proof. exact @binder_lvalues. Qed.
Print Assumptions C65_binder_lvalues.

(** An accepted call has the type of the invocation asked for. *)
Theorem C65_binder_type :
  forall (B : Type) (beq : forall x y : B, {x = y} + {x <> y})
    (invoke : expr B -> list (expr B) -> verdict B) converts,
  (forall t : ty B, converts t t = true) ->
  forall gets (V : B) is_empty (CT : B) idx_t s F T is_cst c args R,
  proper F -> proper T -> Forall (@proper B) args ->
  binder_call beq invoke converts gets V is_empty CT idx_t s F T is_cst c args = Accepted R ->
  asked invoke gets s (lval F) (lval T) args = Accepted R.
Proof. exact @accepted_type. Qed.
Print Assumptions C65_binder_type.

(** C65 (3): function objects with a const call operator and parameters [T] that can be
    copied or [const T &] can be bound and called in every way: it compiles exactly if
    the classes of elements and arguments, in this order for [>>] and the other for
    [<<], are those of the parameters; otherwise the call is not viable. *)
Theorem C65_binder_reads :
  forall (B : Type) (beq : forall x y : B, {x = y} + {x <> y}) copyable converts gets (V : B)
    is_empty (CT : B) idx_t s (o : fobj B) F T is_cst c args bs,
  (forall t : ty B, converts t t = true) ->
  reads_only copyable o -> holds gets (base (etype T)) bs ->
  is_fine F -> is_fine T -> Forall is_fine args ->
  binder_call beq (fobj_invoke beq copyable o) converts gets V is_empty CT idx_t s F T is_cst c args
  = if beq (base (etype F)) (fclass o) then
      if list_eq_dec beq (classes s args bs) (map base (fparams o)) then Accepted (fret o) else NotViable
    else NotViable.
Proof. exact @binder_reads. Qed.
Print Assumptions C65_binder_reads.

(** [std::tuple] has its elements as the standard says. *)
Theorem C65_std_tuples :
  forall (B : Type) (Ts : list (ty B)) (t : expr B),
  std_gets Ts t = Some (map (element_type (cst (etype t)) (ecat t)) Ts).
Proof. exact @std_gets_elements. Qed.
Print Assumptions C65_std_tuples.

(** Both kinds of tuples have their elements, const or not. *)
Theorem C65_tuples :
  forall (B : Type) (beq : forall x y : B, {x = y} + {x <> y}) is_empty (V CT tuple : B) (Ts : list (ty B)),
  Forall (fun T : ty B => vol T = false) Ts ->
  holds (std_gets Ts) tuple (map base Ts) /\
  holds (compressed_gets beq is_empty V CT Ts) tuple (map base Ts).
Proof. intros. split; [now apply std_holds|now apply compressed_holds]. Qed.
Print Assumptions C65_tuples.

(** [compressed_tuple{ 1 } >> f] and [compressed_tuple{ 1 } << f] for [f(int, const int &)],
    const and not. *)
Example C65_case_binder :
  reads_only bt_copyable bt_reads /\ holds bt_gets 4 [1] /\
  (forall s q c, bt_binder bt_reads s (bt_rv 3) (bt_rv 4) q c [bt_rv 1] = Accepted (bt_ty 1)) /\
  (forall s q c, bt_binder bt_reads s (bt_rv 3) (bt_rv 4) q c [] = NotViable) /\
  (* f(unique_ptr, int): bound from the right, it can be given an rvalue *)
  bt_binder (bt_fun [bt_ty 2; bt_ty 1]) Back (bt_rv 3) (bt_rv 4) false LV [bt_rv 2] = Accepted (bt_ty 1) /\
  (* f(int, int &): bound from the left, it can be given a variable *)
  bt_binder (bt_fun [bt_ty 1; mkTy 1 false false LRef]) Front (bt_rv 3) (bt_rv 4) false LV [bt_lv 1]
  = Accepted (bt_ty 1).
Proof.
  split; [apply ex_bt_reads|]. split; [apply ex_bt_reads|].
  split; [intros [] [] []; reflexivity|]. split; [intros [] [] []; reflexivity|]. now split.
Qed.

(** Arguments of [t >> f] are not forwarded: [f(int, unique_ptr)] is viable with an rvalue
    but does not compile. *)
Theorem C65_forwards_refuted :
  exists (o : fobj nat) args,
    binder_decl Nat.eq_dec (bt_invoke o) bt_gets Front (bt_rv 3) (bt_rv 4) args = Accepted (bt_ty 1) /\
    bt_binder o Front (bt_rv 3) (bt_rv 4) false LV args = HardError.
Proof. exists (bt_fun [bt_ty 1; bt_ty 2]), [bt_rv 2]. now split. Qed.
Print Assumptions C65_forwards_refuted.

(** Those of [t << f] never are variables: [f(int &, int)] cannot be called with one. *)
Theorem C65_variables_refuted :
  exists (o : fobj nat) args,
    bt_invoke o (bt_lv 3) (args ++ [bt_lv 1]) = Accepted (bt_ty 1) /\
    bt_binder o Back (bt_rv 3) (bt_rv 4) false LV args = NotViable.
Proof. exists (bt_fun [mkTy 1 false false LRef; bt_ty 1]), [bt_lv 1]. now split. Qed.
Print Assumptions C65_variables_refuted.

(** A const binder of a [mutable] function is viable: [>>] does not compile, [<<] does. *)
Theorem C65_const_binder_refuted :
  exists (o : fobj nat) args,
    binder_decl Nat.eq_dec (bt_invoke o) bt_gets Front (bt_rv 3) (bt_rv 4) args = Accepted (bt_ty 1) /\
    bt_binder o Front (bt_rv 3) (bt_rv 4) false LV args = Accepted (bt_ty 1) /\
    bt_binder o Front (bt_rv 3) (bt_rv 4) true LV args = HardError /\
    bt_binder o Back (bt_rv 3) (bt_rv 4) true LV args = Accepted (bt_ty 1).
Proof. exists (bt_mutable [bt_ty 1; bt_ty 1]), [bt_lv 1]. now repeat split. Qed.
Print Assumptions C65_const_binder_refuted.

(** A call that would compile need not: every call also asks whether the function could
    be invoked with an [idx<i>] in place of the arguments, which can be an error of its own. *)
Theorem C65_probe_refuted :
  exists (invoke : expr nat -> list (expr nat) -> verdict nat) args,
    asked invoke bt_gets Front (bt_lv 3) (bt_lv 4) args = Accepted (bt_ty 1) /\
    made invoke bt_conv bt_gets Front (bt_lv 3) (bt_lv 4) args = Accepted (bt_ty 1) /\
    binder_call Nat.eq_dec invoke bt_conv bt_gets 100 bt_empty 101 bt_idx Front (bt_rv 3) (bt_rv 4) false LV args
    = HardError.
Proof. exists bt_template, [bt_lv 1]. now repeat split. Qed.
Print Assumptions C65_probe_refuted.
