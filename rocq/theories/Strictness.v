(** The two readings of lifetimes compared: a program either has undefined behaviour
    in the strict reading, or does the same in both. *)
From Coq Require Import List Bool Arith Lia.
From Verif Require Import Value Machine MachineSpec MachineLib Composed.
Import ListNotations.

Section Strictness.
Context {A W F S : Type}.
Notation value := (val A).
Notation obj := (obj A F S).
Notation mstate := (mstate A W F S).
Notation M := (M A W F S).
Variable ve : value -> bool.
Variable b : bool.
Variable U : muser A W F S.
Implicit Type st : mstate.

Notation Cs := (mkCfg true b).
Notation Cl := (mkCfg false b).

Definition undefined {X} (p : outcome X * mstate) : Prop := fst p = Err Undefined.

(** [m1] is undefined or does what [m2] does. *)
Definition below {X} (m1 m2 : M X) : Prop := forall st, undefined (m1 st) \/ m1 st = m2 st.

Lemma below_refl {X} (m : M X) : below m m.
Proof. intros st. now right. Qed.

Lemma below_bind {X Y} (m1 m2 : M X) (k1 k2 : X -> M Y) :
  below m1 m2 -> (forall x, below (k1 x) (k2 x)) -> below (bind m1 k1) (bind m2 k2).
Proof.
  intros Hm Hk st. destruct (Hm st) as [H|H].
  - left. unfold undefined, bind in *. destruct (m1 st) as [[x|e] st']; cbn in *; congruence.
  - unfold bind. rewrite H. destruct (m2 st) as [[x|e] st'].
    + apply Hk.
    + now right.
Qed.

Lemma below_scoped {X} (m1 m2 : M X) : below m1 m2 -> below (scoped m1) (scoped m2).
Proof.
  intros H st. rewrite !scoped_eq. unfold undefined, closing. cbn [fst snd].
  destruct (H st) as [Hu|Hu]; [left; exact Hu|right]. now rewrite Hu.
Qed.

Lemma below_mapM {X Y} (f1 f2 : X -> M Y) l : (forall x, below (f1 x) (f2 x)) -> below (mapM f1 l) (mapM f2 l).
Proof.
  intros H. induction l as [|x l IH]; [apply below_refl|]. cbn [mapM].
  apply below_bind; [apply H|]. intros y. apply below_bind; [apply IH|]. intros ys. apply below_refl.
Qed.

Lemma below_alive r : below (alive Cs r) (alive Cl r).
Proof.
  intros st. unfold alive, undefined. destruct (nth_error (store st) (fst r)) as [[[|] o]|]; cbn; auto.
Qed.

Ltac below := repeat match goal with
  | |- below ?m ?m => apply below_refl
  | |- below (alive _ _) (alive _ _) => apply below_alive
  | |- below (scoped _) (scoped _) => apply below_scoped
  | |- below (bind _ _) (bind _ _) => apply below_bind; [|intros ?]
  | |- below (mapM _ _) (mapM _ _) => apply below_mapM; intros ?
  end.

Lemma below_read r : below (read ve Cs r) (read ve Cl r).
Proof. unfold read. below. destruct (obj_empty ve x); below. Qed.

Lemma below_write r x : below (write Cs r x) (write Cl r x).
Proof. unfold write. below. Qed.

Lemma below_to_obj r : below (to_obj ve Cs r) (to_obj ve Cl r).
Proof. destruct r; cbn [to_obj]; [below|apply below_read|below]. Qed.

Lemma below_by_value a : below (by_value ve Cs a) (by_value ve Cl a).
Proof. unfold by_value. below. apply below_read. Qed.

Lemma below_param a : below (param ve Cs a) (param ve Cl a).
Proof. unfold param. cbn [byref]. destruct b; [below|apply below_by_value]. Qed.

Lemma below_capture a : below (capture ve Cs a) (capture ve Cl a).
Proof. unfold capture. destruct (acat a); below. apply below_read. Qed.

Lemma below_element r i : below (element ve Cs r i) (element ve Cl r i).
Proof. unfold element. below. Qed.

Lemma below_get r i : below (get ve Cs r i) (get ve Cl r i).
Proof. unfold get. below. destruct (kind_of x); below. apply below_element. Qed.

Lemma below_elements r : below (elements ve Cs r) (elements ve Cl r).
Proof. unfold elements. below. apply below_get. Qed.

Lemma below_bind_elem r i : below (bind_elem ve Cs r i) (bind_elem ve Cl r i).
Proof. unfold bind_elem. below. apply below_element. Qed.

Lemma below_write_args : forall args vs, below (write_args Cs args vs) (write_args Cl args vs).
Proof.
  induction args as [|a args IH]; intros [|v vs]; cbn [write_args]; try apply below_refl.
  apply below_bind; [|intros _; apply IH]. destruct (acat a); below; apply below_write.
Qed.

Lemma below_call_user r f s args : below (call_user ve Cs U r f s args) (call_user ve Cl U r f s args).
Proof.
  unfold call_user. below.
  - apply below_read.
  - destruct x1 as [[s' vs'] u]. below; [apply below_write|apply below_write_args].
Qed.

Section Calls.
Variable i1 i2 : ref -> list arg -> M (result A F S).
Hypothesis Hi : forall r args, below (i1 r args) (i2 r args).

Lemma below_call_null r : below (call_null i1 r) (call_null i2 r).
Proof. unfold call_null. below. apply Hi. Qed.

Lemma below_result_value o : below (result_value ve Cs o) (result_value ve Cl o).
Proof.
  destruct o as [[] [|[x|x] [|y [|]]]]; cbn [result_value]; try apply below_refl. apply below_read.
Qed.

Lemma below_front r args : below (call_front_tuple ve Cs i1 r args) (call_front_tuple ve Cl i2 r args).
Proof.
  unfold call_front_tuple. below; try apply below_bind_elem; try apply below_elements; auto.
  apply below_capture.
Qed.

Lemma below_back r args : below (call_back_tuple ve Cs i1 r args) (call_back_tuple ve Cl i2 r args).
Proof.
  unfold call_back_tuple. cbn [byref].
  below; try apply below_bind_elem; try apply below_elements; auto.
  destruct b; below; [apply below_capture|apply below_read].
Qed.

Lemma below_reg args : below (call_reg ve Cs i1 args) (call_reg ve Cl i2 args).
Proof.
  destruct args; cbn [call_reg]; below; try apply below_param; try apply below_by_value; auto.
  destruct x1; below; apply below_to_obj.
Qed.

Lemma below_unreg args : below (call_unreg ve Cs i1 args) (call_unreg ve Cl i2 args).
Proof.
  destruct args; cbn [call_unreg]; below; try apply below_param; try apply below_by_value; auto.
  destruct x1 as [[[[]| | | | | | | | | | | | | | | | | | | |] ?]| |]; below; apply below_to_obj.
Qed.

Lemma below_unwrap_call args : below (call_unwrap_call ve Cs i1 args) (call_unwrap_call ve Cl i2 args).
Proof.
  destruct args as [|? [|? [|? [|]]]]; cbn [call_unwrap_call]; try apply below_refl.
  below; [apply below_param|apply below_call_null|apply below_to_obj].
Qed.

Lemma below_unwrap r args : below (call_unwrap ve Cs i1 r args) (call_unwrap ve Cl i2 r args).
Proof.
  destruct args as [|? [|]]; cbn [call_unwrap]; [|apply Hi|apply below_refl].
  below; [apply below_call_null|apply below_to_obj|apply below_result_value].
Qed.

Lemma below_core r args : below (call_core ve Cs U i1 r args) (call_core ve Cl U i2 r args).
Proof.
  destruct args as [|? [|]]; cbn [call_core]; try apply below_refl.
  apply below_scoped. apply below_bind; [apply below_param|intros f].
  apply below_bind; [below; apply below_param|intros ds].
  apply below_bind; [below; [apply below_call_null|apply below_to_obj]|intros rs].
  apply below_bind; [apply below_read|intros c].
  apply below_bind; [apply below_refl|intros flags].
  apply below_bind; [|intros ch].
  - match goal with |- context [if ?x then _ else _] => destruct x end; [|apply below_refl].
    apply below_scoped.
    apply below_bind; [below; apply below_result_value|intros vs].
    apply below_bind; [apply below_refl|intros t].
    apply below_bind; [apply below_refl|intros es].
    apply below_bind; [apply Hi|intros x].
    apply below_bind; [apply below_to_obj|intros o].
    apply below_bind; [apply below_refl|intros ch].
    apply below_bind; [apply below_write|intros _]. apply below_refl.
  - apply below_bind; [apply below_read|intros c']. apply below_refl.
Qed.

Lemma below_lazy_val args : below (call_lazy_val ve Cs args) (call_lazy_val ve Cl args).
Proof.
  destruct args as [|? [|? [|? [|]]]]; cbn [call_lazy_val]; try apply below_refl.
  below; [apply below_param|apply below_by_value|apply below_read].
Qed.

Lemma below_sample args : below (call_sample ve Cs i1 args) (call_sample ve Cl i2 args).
Proof.
  destruct args as [|? [|? [|]]]; cbn [call_sample]; try apply below_refl.
  below; [apply below_by_value|apply below_param|apply Hi|apply below_to_obj].
Qed.

End Calls.

Theorem below_invoke : forall n r args, below (invoke ve Cs U n r args) (invoke ve Cl U n r args).
Proof.
  induction n as [|n IH]; intros r args; [apply below_refl|]. cbn [invoke].
  apply below_bind; [apply below_alive|intros _].
  apply below_bind; [apply below_refl|intros o].
  destruct (kind_of o); try apply below_refl.
  - apply below_call_user.
  - unfold call_bind_front. below. apply IH.
  - unfold call_bind_back. below. apply IH.
  - now apply below_front.
  - now apply below_back.
  - now apply below_reg.
  - now apply below_unreg.
  - now apply below_unwrap_call.
  - now apply below_unwrap.
  - now apply below_core.
  - apply below_lazy_val.
  - now apply below_sample.
  - unfold call_ref_wrap. below. apply IH.
Qed.

End Strictness.

Section Undefined.
Context {A W F S : Type}.
Notation value := (val A).
Notation obj := (obj A F S).
Notation mstate := (mstate A W F S).
Notation data := (@Machine.data A F S).
Variable ve : value -> bool.
Variable U : muser A W F S.
Implicit Type st : mstate.

Notation Cs := (mkCfg true false).
Notation Cl := (mkCfg false false).

Lemma readable_lenient (e : lexp A F S) : readable_deps ve Cl U e.
Proof.
  induction e as [f s deps IH] using lexp_ind'. cbn [readable_deps].
  induction IH as [|d deps Hd _ IH]; [exact I|]. split; [|split; [|exact IH]].
  - intros. now left.
  - destruct d; [exact Hd|now left|exact I].
Qed.

(** Strictly, the call of a node with [nullptr] is undefined or yields a [LazyResult]
    that refers to a dead object. *)
Lemma strict_call_undefined e m st r v w' l :
  8 + fuel_for e <= m ->
  holds (store st) r (lazy_obj U e) ->
  ecall U e (mworld st) = (Done v, w', l) ->
  data_empty ve v = false ->
  fst (invoke ve Cs U m r [] st) = Err Undefined.
Proof.
  intros Hm Hr He Hv. rewrite dep_obj_eq in Hr. unfold wrap_obj in Hr.
  destruct m as [|[|[|[|m]]]]; try lia.
  destruct (front_tuple_call ve Cs U (2 + m) r [] st (Node KUnreg []) [unwrap_obj (inner_obj U e)] [] Hr)
    as (cells & x & es & bs & Hi & Hx & Hes & Hb & _).
  { constructor. }
  cbv zeta in *.
  set (st' := mkSt (store st ++ cells) (mworld st) (trace st)) in *.
  inversion Hes as [|ua ? es' ? Hua He']; subst. inversion He'; subst. inversion Hb; subst.
  change (Datatypes.S (Datatypes.S (Datatypes.S (Datatypes.S m)))) with (2 + (2 + m)).
  rewrite Hi. clear Hi. change (2 + m) with (Datatypes.S (Datatypes.S m)).
  rewrite (invoke_S _ _ _ _ _ _ _ _ Hx). cbn [kind_of LVs map app call_unreg].
  rewrite scoped_eq. unfold param. cbn [byref].
  erewrite bind_done by (apply by_value_ok; exact Hua).
  cbn [mapM]. rewrite bind_ret. cbn [map].
  set (st1 := mkSt (store st' ++ [(true, unwrap_obj (inner_obj U e))]) (mworld st') (trace st')).
  assert (Hu : holds (store st1) (length (store st'), []) (unwrap_obj (inner_obj U e))) by apply holds_new.
  assert (G : fst (invoke ve Cs U (Datatypes.S m) (length (store st'), []) [] st1) = Err Undefined).
  { rewrite (invoke_S _ _ _ _ _ _ _ _ Hu). cbn [kind_of unwrap_obj call_unwrap].
    rewrite scoped_eq. unfold call_null. rewrite bind_assoc. erewrite bind_done by reflexivity.
    set (st2 := mkSt (store st1 ++ [(true, null)]) (mworld st1) (trace st1)).
    pose proof (unwrap_null_ok ve Cl U eq_refl (fun _ => True) (fun _ _ H => H) (fuel_for e) (inner_obj U e) (ecall U e)
                  (inner_ok_readable ve Cl U eq_refl (fun _ => True) (fun _ _ H => H) e (readable_lenient e)) m st2
                  (length (store st'), []) (mkArg (length (store st1), []) RV) ltac:(lia)) as H1.
    specialize (H1 ltac:(cbn [st2 store]; apply holds_app; exact Hu) ltac:(apply holds_new) Logic.I).
    cbn [st2 st1 st' mworld] in H1. rewrite He in H1. destruct H1 as (c1 & rr & b0 & H1 & _ & Hd).
    destruct (below_invoke ve false U m (length (store st'), []) [mkArg (length (store st1), []) RV] st2) as [H2|H2].
    - unfold closing. cbn [fst]. unfold undefined in H2. unfold bind.
      destruct (invoke ve Cs U m (length (store st'), []) [mkArg (length (store st1), []) RV] st2) as [o s2].
      cbn [fst] in H2. subst o. reflexivity.
    - erewrite bind_done by (rewrite H2; exact H1).
      cbn [to_obj]. rewrite bind_ret. unfold closing. cbn [fst].
      match goal with |- fst (bind (result_value ve Cs (result_obj rr b0)) _ ?s) = _ =>
        rewrite (read_result ve Cs s rr b0 v) end.
      + cbn [fst]. unfold seen. cbn [strict andb].
        cbn [Machine.data obj_empty kind_empty]. rewrite Hv. reflexivity.
      + exact Hd. }
  unfold closing. cbn [fst]. unfold bind. fold st1.
  destruct (invoke ve Cs U (Datatypes.S m) (length (store st'), []) [] st1) as [o s2].
  cbn [fst] in G. subst o. reflexivity.
Qed.

End Undefined.
