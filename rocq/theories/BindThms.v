(** Calls through [bind_back], [>>] and [<<], with captures and tuple elements of any
    kind. *)
From Coq Require Import List Bool Arith Lia FinFun.
From Verif Require Import Value Machine MachineSpec MachineLib MachineFrame Composed BindSpec.
Import ListNotations.

Lemma NoDup_app_r {X} (a b : list X) : NoDup (a ++ b) -> NoDup b.
Proof. induction a as [|x a IH]; cbn; intros H; [exact H|]. inversion H; auto. Qed.
Lemma NoDup_app_l {X} (a b : list X) : NoDup (a ++ b) -> NoDup a.
Proof.
  induction a as [|x a IH]; cbn; intros H; [constructor|]. inversion H as [|? ? H1 H2]; subst.
  constructor; [|auto]. intros Hin. apply H1. apply in_or_app. now left.
Qed.

Lemma NoDup_app_intro {X} (a b : list X) :
  NoDup a -> NoDup b -> (forall x, In x a -> In x b -> False) -> NoDup (a ++ b).
Proof.
  induction 1 as [|x a Hx _ IH]; intros Hb H; [exact Hb|]. cbn. constructor.
  - intros Hin. apply in_app_or in Hin. destruct Hin as [Hin|Hin]; [easy|]. apply (H x); [now left|exact Hin].
  - apply IH; [exact Hb|]. intros y H1 H2. apply (H y); [now right|exact H2].
Qed.

Section Bind.
Context {A W F S : Type}.
Notation value := (val A).
Notation obj := (obj A F S).
Notation slot := (slot A F S).
Notation cell := (bool * obj)%type.
Notation mstate := (mstate A W F S).
Notation mevent := (mevent A F).
Notation data := (@Machine.data A F S).
Variable ve : value -> bool.
Variable C : config.
Variable U : muser A W F S.
Implicit Type st : mstate.
Implicit Types (sto : list cell) (c d : slot) (cs ss ms : list slot) (o : obj) (os : list obj).

Lemma place_holds sto r k ms i c o :
  holds sto r (Node k ms) -> nth_error ms i = Some c -> slot_holds sto c o ->
  holds sto (place r i c) o.
Proof.
  intros H Hi Hc. destruct c as [y|y]; cbn in *; [subst y|exact Hc].
  eapply holds_member; [exact H|exact Hi].
Qed.

Lemma access_place st r k ms i c :
  holds (store st) r (Node k ms) -> nth_error ms i = Some c ->
  access r i st = (Done (place r i c), st).
Proof.
  intros H Hi. unfold access. erewrite bind_done by (eapply peek_ok; exact H).
  cbn [members]. rewrite Hi. destruct c; reflexivity.
Qed.

Lemma access_places st r k ms : holds (store st) r (Node k ms) ->
  forall cs pre, ms = pre ++ cs ->
  mapM (access r) (seq (length pre) (length cs)) st = (Done (places r (length pre) cs), st).
Proof.
  intros H cs. induction cs as [|c cs IH]; intros pre E; [reflexivity|].
  cbn [length seq mapM places].
  erewrite bind_done.
  2:{ eapply access_place; [exact H|]. rewrite E, nth_error_app2, Nat.sub_diag by lia. reflexivity. }
  erewrite bind_done.
  2:{ specialize (IH (pre ++ [c])). rewrite app_length, Nat.add_1_r in IH. apply IH.
      now rewrite <- app_assoc. }
  reflexivity.
Qed.

(** A call of a [bind_back] closure is a call of the bound function, through the
    references that were captured. *)
Theorem bind_back_direct n r args st c cs :
  holds (store st) r (Node KBindBack (c :: cs)) ->
  invoke ve C U (Datatypes.S n) r args st =
  invoke ve C U n (place r 0 c) (args ++ LVs (places r 1 cs)) st.
Proof.
  intros H. rewrite (invoke_S _ _ _ _ _ _ _ _ H). cbn [kind_of members length].
  unfold call_bind_back. erewrite bind_done by (eapply access_place; [exact H|reflexivity]).
  replace (Datatypes.S (length cs) - 1) with (length cs) by lia.
  erewrite bind_done by (apply (access_places st r _ _ H cs [c] eq_refl)). reflexivity.
Qed.

Lemma bind_front_direct n r args st c cs :
  holds (store st) r (Node KBindFront (c :: cs)) ->
  invoke ve C U (Datatypes.S n) r args st =
  invoke ve C U n (place r 0 c) (RVs (places r 1 cs) ++ args) st.
Proof.
  intros H. rewrite (invoke_S _ _ _ _ _ _ _ _ H). cbn [kind_of members length].
  unfold call_bind_front. erewrite bind_done by (eapply access_place; [exact H|reflexivity]).
  replace (Datatypes.S (length cs) - 1) with (length cs) by lia.
  erewrite bind_done by (apply (access_places st r _ _ H cs [c] eq_refl)). reflexivity.
Qed.

Lemma capture_is st a (o : obj) : holds (store st) (aref a) o -> capture ve C a st = (Done (captured a o), st).
Proof.
  intros H. destruct (capture_ok ve C st a o H) as (c & E & _ & Ec). rewrite E, Ec.
  unfold captured. now destruct (acat a).
Qed.

Lemma captures_are st : forall args (os : list obj),
  Forall2 (fun a o => holds (store st) (aref a) o) args os ->
  mapM (capture ve C) args st = (Done (captures args os), st).
Proof.
  induction 1 as [|a o args os Ha _ IH]; [reflexivity|]. cbn [mapM captures].
  erewrite bind_done by (apply capture_is; exact Ha). erewrite bind_done by exact IH. reflexivity.
Qed.

Theorem bind_back_makes st fa f bs os :
  holds (store st) (aref fa) f -> Forall2 (fun a o => holds (store st) (aref a) o) bs os ->
  bind_back ve C fa bs st = (Done (Node KBindBack (captured fa f :: captures bs os)), st).
Proof.
  intros Hf Hb. unfold bind_back. erewrite bind_done by (apply capture_is; exact Hf).
  erewrite bind_done by (apply captures_are; exact Hb). reflexivity.
Qed.

(** ** Elements *)

(** A new temporary. *)
Definition fresh (n0 n1 : nat) (a : arg) : Prop :=
  acat a = RV /\ snd (aref a) = [] /\ n0 <= fst (aref a) < n1.

(** The argument that is passed for an object in slot [c]: the object, or a new copy
    if it is of an empty class. *)
Definition passed (n0 n1 : nat) (a : arg) (p : ref) (o : obj) : Prop :=
  a = mkArg p LV \/ (obj_empty ve o = true /\ fresh n0 n1 a).

(** A slot that holds an object of an empty class. *)
Definition own_empty c : Prop := match c with SVal o => obj_empty ve o = true | SRef _ => False end.

Lemma passed_mono n0 n1 m0 m1 a p o : m0 <= n0 -> n1 <= m1 -> passed n0 n1 a p o -> passed m0 m1 a p o.
Proof. intros H1 H2 [H|(E & Ec & Es & H)]; [now left|right]. repeat (split; auto); lia. Qed.

Lemma element_slot st r k ms i c o :
  holds (store st) r (Node k ms) -> nth_error ms i = Some c -> slot_holds (store st) c o ->
  exists a cells,
    bind (element ve C r i) (fun e => as_arg e) st =
      (Done a, mkSt (store st ++ cells) (mworld st) (trace st)) /\
    holds (store st ++ cells) (aref a) o /\
    passed (length (store st)) (length (store st ++ cells)) a (place r i c) o /\
    (obj_empty ve o = false -> a = mkArg (place r i c) LV) /\
    (own_empty c -> fresh (length (store st)) (length (store st ++ cells)) a).
Proof.
  intros H Hi Hc. unfold element. rewrite bind_assoc.
  erewrite bind_done by (eapply alive_ok; exact H). rewrite bind_assoc.
  erewrite bind_done by (eapply peek_ok; exact H). cbn [members]. rewrite Hi.
  pose proof (place_holds _ _ _ _ _ _ _ H Hi Hc) as Hp.
  destruct c as [y|y]; cbn [slot_holds place] in *.
  - subst y. destruct (obj_empty ve o) eqn:Eo; rewrite bind_ret; cbn [as_arg].
    + erewrite bind_done by reflexivity. eexists _, [(true, o)]. split; [reflexivity|].
      split; [apply holds_new|].
      assert (Hf : fresh (length (store st)) (length (store st ++ [(true, o)])) (mkArg (length (store st), []) RV)).
      { unfold fresh. cbn [aref acat fst snd]. rewrite app_length. cbn [length]. repeat (split; auto); lia. }
      split; [|split; [discriminate|auto]]. right. split; [exact Eo|exact Hf].
    + exists (mkArg (at_ r i) LV), []. rewrite app_nil_r, st_eta. split; [reflexivity|].
      split; [exact Hp|]. split; [now left|]. split; [reflexivity|]. cbn. congruence.
  - rewrite bind_ret. cbn [as_arg]. exists (mkArg y LV), []. rewrite app_nil_r, st_eta.
    split; [reflexivity|]. split; [exact Hp|]. split; [now left|]. split; [reflexivity|easy].
Qed.

Lemma bind_elem_slot st r k ms i c o :
  holds (store st) r (Node k ms) -> nth_error ms i = Some c -> slot_holds (store st) c o ->
  exists a cells,
    bind_elem ve C r i st =
      (Done (aref a), mkSt (store st ++ cells) (mworld st) (trace st)) /\
    holds (store st ++ cells) (aref a) o /\
    passed (length (store st)) (length (store st ++ cells)) a (place r i c) o /\
    (obj_empty ve o = false -> a = mkArg (place r i c) LV).
Proof.
  intros H Hi Hc. destruct (element_slot st r k ms i c o H Hi Hc) as (a & cells & E & H1 & H2 & H3 & _).
  exists a, cells. split; [|auto]. unfold bind_elem.
  rewrite <- (bind_assoc (element ve C r i) (fun e => as_arg e) (fun a => ret (aref a))).
  erewrite bind_done by exact E. reflexivity.
Qed.

Lemma slot_holds_grow (sto l : list cell) c o : slot_holds sto c o -> slot_holds (sto ++ l) c o.
Proof. destruct c; cbn; auto using holds_app. Qed.

Lemma get_slot st t k ss i c o :
  k = KCT \/ k = KTuple ->
  holds (store st) t (Node k ss) -> nth_error ss i = Some c -> slot_holds (store st) c o ->
  exists a cells,
    bind (get ve C t i) (fun e => as_arg e) st =
      (Done a, mkSt (store st ++ cells) (mworld st) (trace st)) /\
    holds (store st ++ cells) (aref a) o /\
    passed (length (store st)) (length (store st ++ cells)) a (place t i c) o /\
    (k = KCT -> own_empty c -> fresh (length (store st)) (length (store st ++ cells)) a).
Proof.
  intros Hk H Hi Hc. unfold get. rewrite bind_assoc.
  erewrite bind_done by (eapply peek_ok; exact H). cbn [kind_of].
  destruct Hk as [-> | ->].
  - destruct (element_slot st t KCT ss i c o H Hi Hc) as (a & cells & E & H1 & H2 & _ & H3). exists a, cells. auto.
  - rewrite bind_assoc. erewrite bind_done by (eapply alive_ok; exact H).
    rewrite bind_assoc. erewrite bind_done by (eapply access_place; eassumption). rewrite bind_ret.
    cbn [as_arg]. exists (mkArg (place t i c) LV), []. rewrite app_nil_r, st_eta.
    split; [reflexivity|]. split; [eapply place_holds; eassumption|]. split; [now left|discriminate].
Qed.

Lemma NoDup_passed (n0 n1 n2 : nat) a p o es ps os :
  n0 <= n1 -> n1 <= n2 ->
  Forall (fun q : ref => fst q < n0) (p :: ps) -> NoDup (p :: ps) ->
  passed n0 n1 a p o -> Forall3 (passed n1 n2) es ps os -> NoDup (map aref es) ->
  NoDup (aref a :: map aref es).
Proof.
  intros H1 H2 Hlt Hn Ha He Hd. constructor; [|exact Hd].
  inversion Hlt as [|? ? Hlp Hlps]; subst. inversion Hn as [|? ? Hnp Hnps]; subst.
  intros Hin. apply in_map_iff in Hin. destruct Hin as (b & Eb & Hin).
  clear Hd Hlt Hn Hnps.
  induction He as [|b' q o' es ps os Hb' _ IH]; [easy|].
  inversion Hlps as [|? ? Hlq Hlqs]; subst.
  destruct Hin as [->|Hin]; [|apply IH; auto; intros Hx; apply Hnp; now right].
  destruct Ha as [->|(_ & _ & _ & Ha)], Hb' as [->|(_ & _ & _ & Hb')]; cbn [aref] in *.
  - apply Hnp. now left.
  - subst. lia.
  - subst. lia.
  - rewrite Eb in Hb'. lia.
Qed.

Lemma elements_slots_from k0 t all : forall ss os k st,
  (k0 = KCT \/ k0 = KTuple) ->
  holds (store st) t (Node k0 all) ->
  (forall i, nth_error all (k + i) = nth_error ss i) ->
  Forall2 (slot_holds (store st)) ss os ->
  exists es cells,
    mapM (fun i => bind (get ve C t i) (fun e => as_arg e)) (seq k (length ss)) st =
      (Done es, mkSt (store st ++ cells) (mworld st) (trace st)) /\
    Forall2 (fun a o => holds (store st ++ cells) (aref a) o) es os /\
    Forall3 (passed (length (store st)) (length (store st ++ cells))) es (places t k ss) os /\
    (Forall (fun q : ref => fst q < length (store st)) (places t k ss) -> NoDup (places t k ss) ->
     NoDup (map aref es)) /\
    (k0 = KCT -> Forall own_empty ss -> Forall (fresh (length (store st)) (length (store st ++ cells))) es).
Proof.
  induction ss as [|c ss IH]; intros os k st Hk H Hn Hs; inversion Hs as [|? o ? os' Hc Hs']; subst.
  - exists [], []. rewrite app_nil_r, st_eta. repeat split; constructor.
  - cbn [length seq mapM places].
    assert (H0 : nth_error all k = Some c) by (specialize (Hn 0); rewrite Nat.add_0_r in Hn; exact Hn).
    destruct (get_slot st t k0 all k c o Hk H H0 Hc) as (a & c1 & E1 & Ha & Hp & Hfr).
    set (st1 := mkSt (store st ++ c1) (mworld st) (trace st)).
    destruct (IH os' (Datatypes.S k) st1 Hk) as (es & c2 & E2 & He & Hps & Hd & Hfrs).
    + cbn [st1 store]. now apply holds_app.
    + intros i. specialize (Hn (Datatypes.S i)). cbn [nth_error] in Hn. rewrite <- Hn. f_equal. lia.
    + cbn [st1 store]. clear - Hs'. induction Hs'; constructor; auto using slot_holds_grow.
    + exists (a :: es), (c1 ++ c2). cbn [st1 store mworld trace] in *.
      rewrite <- app_assoc in *. split; [|split; [|split; [|split]]].
      * erewrite bind_done by exact E1. fold st1. erewrite bind_done by exact E2.
        unfold ret. cbn [st1 store mworld trace]. reflexivity.
      * constructor; [|exact He]. rewrite app_assoc. now apply holds_app.
      * constructor.
        -- eapply passed_mono; [| |exact Hp]; rewrite ?app_length; lia.
        -- eapply Forall3_impl; [|exact Hps]. intros x y z Hx. eapply passed_mono; [| |exact Hx]; rewrite !app_length; lia.
      * intros Hlt Hnd. cbn [map]. eapply NoDup_passed with (n1 := length (store st ++ c1)); try eassumption.
        -- rewrite app_length. lia.
        -- rewrite app_assoc, (app_length _ c2). apply Nat.le_add_r.
        -- apply Hd; [|now inversion Hnd]. inversion Hlt as [|? ? Hl1 Hl2]; subst.
           eapply Forall_impl; [|exact Hl2]. intros q Hq. cbn beta in *. rewrite app_length. lia.
      * intros Ek Hoe. inversion Hoe as [|? ? Ho1 Ho2]; subst. constructor.
        -- destruct (Hfr eq_refl Ho1) as (E2' & E3 & L3). repeat (split; auto); rewrite !app_length in *; lia.
        -- eapply Forall_impl; [|apply Hfrs; auto]. intros b (E2' & E3 & L3). repeat (split; auto); rewrite !app_length in *; lia.
Qed.

Lemma elements_slots st t k ss os :
  k = KCT \/ k = KTuple ->
  holds (store st) t (Node k ss) -> Forall2 (slot_holds (store st)) ss os ->
  exists es cells,
    elements ve C t st = (Done es, mkSt (store st ++ cells) (mworld st) (trace st)) /\
    Forall2 (fun a o => holds (store st ++ cells) (aref a) o) es os /\
    Forall3 (passed (length (store st)) (length (store st ++ cells))) es (places t 0 ss) os /\
    (Forall (fun q : ref => fst q < length (store st)) (places t 0 ss) -> NoDup (places t 0 ss) ->
     NoDup (map aref es)) /\
    (k = KCT -> Forall own_empty ss -> Forall (fresh (length (store st)) (length (store st ++ cells))) es).
Proof.
  intros Hk H Hs. unfold elements.
  erewrite bind_done by (eapply peek_ok; exact H). cbn [members].
  apply (elements_slots_from k t ss ss os 0 st Hk H); [reflexivity|exact Hs].
Qed.

Lemma places_lt r : forall cs k n, fst r < n -> Forall (fun c => match c with SRef q => fst q < n | _ => True end) cs ->
  Forall (fun q : ref => fst q < n) (places r k cs).
Proof.
  induction cs as [|c cs IH]; intros k n Hr H; [constructor|].
  inversion H as [|? ? H1 H2]; subst. cbn [places]. constructor; [|now apply IH].
  destruct c; cbn; auto.
Qed.

Lemma slots_lt sto ss os : Forall2 (slot_holds sto) ss os ->
  Forall (fun c => match c with SRef q => fst q < length sto | _ => True end) ss.
Proof.
  induction 1 as [|c o ss os H _ IH]; constructor; auto. destruct c; [exact I|]. eapply holds_lt; exact H.
Qed.

Lemma at_inj r i j : at_ r i = at_ r j -> i = j.
Proof. unfold at_. intros E. injection E as E. apply app_inv_head in E. congruence. Qed.

Lemma places_own r : forall cs k, Forall own_empty cs -> NoDup (places r k cs).
Proof.
  assert (G : forall cs k j, Forall own_empty cs -> j < k -> ~ In (at_ r j) (places r k cs)).
  { induction cs as [|c cs IH]; intros k j H Hj; [easy|]. inversion H as [|? ? H1 H2]; subst.
    destruct c; [|easy]. cbn [places place]. intros [E|Hin].
    - apply at_inj in E. lia.
    - revert Hin. apply IH; auto. }
  induction cs as [|c cs IH]; intros k H; [constructor|]. inversion H as [|? ? H1 H2]; subst.
  destruct c; [|easy]. cbn [places place]. constructor; [apply G; auto|now apply IH].
Qed.

Lemma empty_slots k ss : obj_empty ve (Node k ss) = true -> Forall own_empty ss.
Proof.
  cbn [obj_empty]. intros H. apply andb_true_iff in H. destruct H as [_ H].
  induction ss as [|c ss IH]; constructor; destruct c; try discriminate;
    apply andb_true_iff in H; destruct H as [H1 H2]; auto.
Qed.

Lemma own_slots sto ss os : Forall own_empty ss -> Forall2 (slot_holds sto) ss os ->
  Forall (fun o => obj_empty ve o = true) os.
Proof.
  intros H. revert os. induction H as [|c ss Hc _ IH]; intros os H; inversion H; subst; constructor; auto.
  destruct c; [|easy]. cbn in *. now subst.
Qed.

Lemma captures_slots sto : forall args os,
  Forall2 (fun a o => holds sto (aref a) o) args os -> Forall2 (slot_holds sto) (captures args os) os.
Proof.
  induction 1 as [|a o args os Ha _ IH]; [constructor|]. cbn [captures]. constructor; [|exact IH].
  unfold captured. destruct (acat a); cbn; auto.
Qed.

Lemma places_hold sto r k ms : holds sto r (Node k ms) ->
  forall cs pre os, ms = pre ++ cs -> Forall2 (slot_holds sto) cs os ->
  Forall2 (holds sto) (places r (length pre) cs) os.
Proof.
  intros H cs. induction cs as [|c cs IH]; intros pre os E Hs; inversion Hs as [|? o ? os' Hc Hcs]; subst; [constructor|].
  cbn [places]. constructor.
  - eapply place_holds; [exact H| |exact Hc]. rewrite nth_error_app2, Nat.sub_diag by lia. reflexivity.
  - specialize (IH (pre ++ [c]) os'). rewrite app_length, Nat.add_1_r in IH. apply IH; auto. now rewrite <- app_assoc.
Qed.

Lemma places_captures r : forall args os k,
  length args = length os -> Forall (fun a => acat a <> RV) args -> places r k (captures args os) = map aref args.
Proof.
  induction args as [|a args IH]; intros [|o os] k E H; try discriminate; [reflexivity|].
  inversion H as [|? ? H1 H2]; subst. cbn [captures places map]. f_equal; [|apply IH; auto].
  unfold captured. destruct (acat a); try reflexivity. now elim H1.
Qed.

Lemma Forall2_len {X Y} (R : X -> Y -> Prop) xs ys : Forall2 R xs ys -> length xs = length ys.
Proof. induction 1; cbn; congruence. Qed.

Lemma aref_LVs rs : map aref (LVs rs) = rs.
Proof. unfold LVs. rewrite map_map. cbn. apply map_id. Qed.

(** [t >> f], whatever is captured and whatever the elements are. *)
Theorem front_call n r args st c d f k ss os avs :
  k = KCT \/ k = KTuple ->
  holds (store st) r (Node KFrontTuple [c; d]) ->
  slot_holds (store st) c f -> slot_holds (store st) d (Node k ss) ->
  Forall2 (slot_holds (store st)) ss os ->
  Forall2 (fun a o => holds (store st) (aref a) o) args avs ->
  exists cells x es bs,
    let L := length (store st) in
    let st' := mkSt (store st ++ cells) (mworld st) (trace st) in
    let L' := length (store st') in
    invoke ve C U (2 + n) r args st = closing L (invoke ve C U n (aref x) (es ++ LVs bs) st') /\
    holds (store st') (aref x) f /\
    Forall2 (fun a o => holds (store st') (aref a) o) es os /\
    Forall2 (holds (store st')) bs avs /\
    passed L L' x (place r 0 c) f /\
    Forall3 (passed L L') es (places (place r 1 d) 0 ss) os /\
    (Forall (fun a => acat a <> RV) args ->
     bs = map aref args /\
     (NoDup (places (place r 1 d) 0 ss ++ map aref args) -> NoDup (map aref (es ++ LVs bs)))).
Proof.
  intros Hk H Hc Hd Hs Ha. change (2 + n) with (Datatypes.S (1 + n)).
  rewrite (invoke_S _ _ _ _ _ _ _ _ H). cbn [kind_of members length].
  unfold call_front_tuple. rewrite scoped_eq.
  destruct (bind_elem_slot st r _ _ 0 c f H eq_refl Hc) as (x & c1 & Hx & Hxh & Hxp & _).
  erewrite bind_done by exact Hx.
  set (st1 := mkSt (store st ++ c1) (mworld st) (trace st)).
  assert (H1 : holds (store st1) r (Node KFrontTuple [c; d])) by (now apply holds_app).
  destruct (bind_elem_slot st1 r _ _ 1 d (Node k ss) H1 eq_refl (slot_holds_grow _ _ _ _ Hd))
    as (t & c2 & Ht & Hth & Htp & Hte).
  erewrite bind_done by exact Ht.
  set (st2 := mkSt (store st1 ++ c2) (mworld st1) (trace st1)).
  assert (Ha2 : Forall2 (fun a o => holds (store st2) (aref a) o) args avs).
  { cbn [st2 st1 store]. apply Forall2_holds_app. apply Forall2_holds_app; auto. }
  erewrite bind_done by (apply captures_are; exact Ha2).
  erewrite bind_done by reflexivity.
  set (cs := captures args avs).
  set (st3 := mkSt (store st2 ++ [(true, Node KBindBack (SRef (aref x) :: cs))]) (mworld st2) (trace st2)).
  assert (Ht3 : holds (store st3) (aref t) (Node k ss)) by (now apply holds_app).
  assert (Hs3 : Forall2 (slot_holds (store st3)) ss os).
  { clear - Hs. cbn [st3 st2 st1 store]. induction Hs; constructor; auto. now do 3 apply slot_holds_grow. }
  destruct (elements_slots st3 (aref t) k ss os Hk Ht3 Hs3) as (es & c4 & Hes & Hef & Hep & Hen & Hfr).
  erewrite bind_done by exact Hes.
  set (st4 := mkSt (store st3 ++ c4) (mworld st3) (trace st3)).
  assert (Hb : holds (store st4) (length (store st2), []) (Node KBindBack (SRef (aref x) :: cs))).
  { cbn [st4 store]. apply holds_app. apply holds_new. }
  pose proof (bind_back_direct n _ es st4 (SRef (aref x)) cs Hb) as Hi. cbn [place] in Hi.
  exists (c1 ++ c2 ++ [(true, Node KBindBack (SRef (aref x) :: cs))] ++ c4), x, es,
         (places (length (store st2), []) 1 cs).
  assert (Est : mkSt (store st ++ c1 ++ c2 ++ [(true, Node KBindBack (SRef (aref x) :: cs))] ++ c4)
                  (mworld st) (trace st) = st4).
  { unfold st4, st3, st2, st1. cbn [store mworld trace]. f_equal. now rewrite <- !app_assoc. }
  cbv zeta. rewrite Est.
  assert (Hlen : length (store st) <= length (store st3) /\ length (store st3) <= length (store st4) /\
                 length (store st ++ c1) <= length (store st4)).
  { cbn [st4 st3 st2 st1 store]. rewrite !app_length. lia. }
  assert (Hcs4 : Forall2 (slot_holds (store st4)) cs avs).
  { apply captures_slots. cbn [st4 st3 store]. now do 2 apply Forall2_holds_app. }
  assert (Hps : Forall3 (passed (length (store st)) (length (store st4))) es (places (place r 1 d) 0 ss) os).
  { destruct (obj_empty ve (Node k ss)) eqn:Ee.
    - assert (Hown := empty_slots _ _ Ee). assert (Hos := own_slots _ _ _ Hown Hs).
      destruct Hk as [-> | ->]; [|discriminate].
      specialize (Hfr eq_refl Hown).
      assert (El : length es = length os) by (eapply Forall2_len; exact Hef).
      assert (El2 : length ss = length os) by (eapply Forall2_len; exact Hs).
      clear - Hfr Hos El El2 Hlen st4. fold st4 in Hfr. change (store st3 ++ c4) with (store st4) in Hfr.
      set (p := place r 1 d). clearbody p st4. revert ss os El El2 Hos. generalize 0.
      induction Hfr as [|a es Hf _ IH]; intros i ss [|o os] E1 E2 Ho; try discriminate.
      + destruct ss; [constructor|discriminate].
      + destruct ss as [|c0 ss]; [discriminate|]. cbn [places]. inversion Ho as [|? ? Ho1 Ho2]; subst. constructor.
        * right. split; [exact Ho1|]. destruct Hf as (Hf0 & Hf1 & Hf2). repeat (split; auto); lia.
        * apply IH; auto.
    - rewrite (Hte eq_refl) in *. cbn [aref] in *.
      eapply Forall3_impl; [|exact Hep]. intros a p o Hp. eapply passed_mono; [| |exact Hp]; [lia|].
      cbn [st4 store]. lia. }
  split; [|split; [|split; [|split; [|split; [|split]]]]].
  - f_equal. exact Hi.
  - cbn [st4 st3 st2 st1 store]. now do 3 apply holds_app.
  - exact Hef.
  - apply (places_hold _ _ _ _ Hb cs [SRef (aref x)] avs eq_refl Hcs4).
  - eapply passed_mono; [| |exact Hxp]; [lia|]. lia.
  - exact Hps.
  - intros Hnrv.
    assert (Ebs : places (length (store st2), []) 1 cs = map aref args).
    { apply places_captures; [eapply Forall2_len; exact Ha|exact Hnrv]. }
    split; [exact Ebs|]. rewrite Ebs. intros Hnd.
    rewrite map_app, aref_LVs.
    assert (Hlt0 : Forall (fun q : ref => fst q < length (store st)) (map aref args)).
    { clear - Ha. induction Ha; cbn; constructor; auto. eapply holds_lt; eassumption. }
    assert (Hes_nd : NoDup (map aref es)).
    { apply Hen.
      - apply places_lt; [eapply holds_lt; exact Ht3|]. eapply slots_lt; exact Hs3.
      - destruct (obj_empty ve (Node k ss)) eqn:Ee.
        + apply places_own. eapply empty_slots; exact Ee.
        + rewrite (Hte eq_refl) in *. cbn [aref]. eapply NoDup_app_l; exact Hnd. }
    clear - Hps Hes_nd Hnd Hlt0.
    apply NoDup_app_intro; [exact Hes_nd|eapply NoDup_app_r; exact Hnd|].
    intros q Hq1 Hq2.
    assert (Hql : fst q < length (store st)) by (rewrite Forall_forall in Hlt0; now apply Hlt0).
    assert (Hqp : In q (places (place r 1 d) 0 ss)).
    { clear - Hps Hq1 Hql. induction Hps as [|a p o es ps os Hp _ IH]; [easy|].
      cbn [map] in Hq1. destruct Hq1 as [<-|Hq1]; [|right; now apply IH].
      destruct Hp as [->|(_ & _ & _ & Hp)]; [now left|lia]. }
    clear - Hqp Hq2 Hnd. induction (places (place r 1 d) 0 ss) as [|p ps IH]; [easy|].
    inversion Hnd as [|? ? Hn1 Hn2]; subst. destruct Hqp as [->|Hqp]; [|now apply IH].
    apply Hn1. apply in_or_app. now right.
Qed.

(** The elements, when the tuple itself may have been copied. *)
Lemma elements_passed L1 L2 L3 t d r k ss os es sto :
  k = KCT \/ k = KTuple ->
  L1 <= L2 ->
  Forall2 (slot_holds sto) ss os -> length es = length os ->
  (obj_empty ve (Node k ss) = false -> t = mkArg (place r 1 d) LV) ->
  Forall3 (passed L2 L3) es (places (aref t) 0 ss) os ->
  (k = KCT -> Forall own_empty ss -> Forall (fresh L2 L3) es) ->
  Forall3 (passed L1 L3) es (places (place r 1 d) 0 ss) os.
Proof.
  intros Hk HL Hs El Hte Hep Hfr. destruct (obj_empty ve (Node k ss)) eqn:Ee.
  - assert (Hown := empty_slots _ _ Ee). assert (Hos := own_slots _ _ _ Hown Hs).
    destruct Hk as [-> | ->]; [|discriminate].
    specialize (Hfr eq_refl Hown).
    assert (El2 : length ss = length os) by (eapply Forall2_len; exact Hs).
    clear - Hfr Hos El El2 HL.
    set (p := place r 1 d). clearbody p. revert ss os El El2 Hos. generalize 0.
    induction Hfr as [|a es Hf _ IH]; intros i ss [|o os] E1 E2 Ho; try discriminate.
    + destruct ss; [constructor|discriminate].
    + destruct ss as [|c0 ss]; [discriminate|]. cbn [places]. inversion Ho as [|? ? Ho1 Ho2]; subst. constructor.
      * right. split; [exact Ho1|]. destruct Hf as (Hf0 & Hf1 & Hf2). repeat (split; auto); lia.
      * apply IH; auto.
  - rewrite (Hte eq_refl) in *. cbn [aref] in *.
    eapply Forall3_impl; [|exact Hep]. intros a p o Hp. eapply passed_mono; [| |exact Hp]; lia.
Qed.

Lemma elements_NoDup sto t d r k ss os es :
  holds sto (aref t) (Node k ss) -> Forall2 (slot_holds sto) ss os ->
  (obj_empty ve (Node k ss) = false -> t = mkArg (place r 1 d) LV) ->
  (Forall (fun q : ref => fst q < length sto) (places (aref t) 0 ss) -> NoDup (places (aref t) 0 ss) ->
   NoDup (map aref es)) ->
  NoDup (places (place r 1 d) 0 ss) -> NoDup (map aref es).
Proof.
  intros Ht Hs Hte Hen Hnd. apply Hen.
  - apply places_lt; [eapply holds_lt; exact Ht|]. eapply slots_lt; exact Hs.
  - destruct (obj_empty ve (Node k ss)) eqn:Ee.
    + apply places_own. eapply empty_slots; exact Ee.
    + rewrite (Hte eq_refl) in *. exact Hnd.
Qed.

Lemma places_val r : forall os k, places r k (map SVal os) = map (at_ r) (seq k (length os)).
Proof. induction os as [|o os IH]; intros k; [reflexivity|]. cbn. now rewrite IH. Qed.

Lemma at_NoDup r : forall n k, NoDup (map (at_ r) (seq k n)).
Proof.
  intros n k. apply FinFun.Injective_map_NoDup; [|apply seq_NoDup]. intros i j. apply at_inj.
Qed.

(** [t << f], as written. *)
Theorem back_call n r args st c d f k ss os avs :
  byref C = false ->
  k = KCT \/ k = KTuple ->
  holds (store st) r (Node KBackTuple [c; d]) ->
  slot_holds (store st) c f -> slot_holds (store st) d (Node k ss) ->
  Forall2 (slot_holds (store st)) ss os ->
  Forall2 (fun a o => holds (store st) (aref a) o) args avs ->
  exists cells x es bs,
    let L := length (store st) in
    let st' := mkSt (store st ++ cells) (mworld st) (trace st) in
    let L' := length (store st') in
    invoke ve C U (2 + n) r args st = closing L (invoke ve C U n x (RVs bs ++ es) st') /\
    holds (store st') x f /\
    Forall2 (fun a o => holds (store st') (aref a) o) es os /\
    Forall2 (holds (store st')) bs avs /\
    L <= fst x /\ Forall (fun b : ref => L <= fst b) bs /\
    Forall3 (passed L L') es (places (place r 1 d) 0 ss) os /\
    (NoDup (places (place r 1 d) 0 ss) -> NoDup (map aref (RVs bs ++ es))).
Proof.
  intros Cb Hk H Hc Hd Hs Ha. change (2 + n) with (Datatypes.S (1 + n)).
  rewrite (invoke_S _ _ _ _ _ _ _ _ H). cbn [kind_of members length].
  unfold call_back_tuple. rewrite Cb, scoped_eq.
  destruct (bind_elem_slot st r _ _ 0 c f H eq_refl Hc) as (x & c1 & Hx & Hxh & Hxp & _).
  erewrite bind_done by exact Hx.
  set (st1 := mkSt (store st ++ c1) (mworld st) (trace st)).
  assert (H1 : holds (store st1) r (Node KBackTuple [c; d])) by (now apply holds_app).
  destruct (bind_elem_slot st1 r _ _ 1 d (Node k ss) H1 eq_refl (slot_holds_grow _ _ _ _ Hd))
    as (t & c2 & Ht & Hth & Htp & Hte).
  erewrite bind_done by exact Ht.
  set (st2 := mkSt (store st1 ++ c2) (mworld st1) (trace st1)).
  assert (Ha2 : Forall2 (holds (store st2)) (aref x :: map aref args) (f :: avs)).
  { cbn [st2 st1 store]. constructor; [now apply holds_app|]. apply Forall2_map_l.
    now do 2 apply Forall2_holds_app. }
  erewrite bind_done by (apply read_all; exact Ha2).
  erewrite bind_done by reflexivity. cbn [map].
  set (cs := map SVal avs).
  set (st3 := mkSt (store st2 ++ [(true, Node KBindFront (SVal f :: cs))]) (mworld st2) (trace st2)).
  assert (Ht3 : holds (store st3) (aref t) (Node k ss)) by (now apply holds_app).
  assert (Hs3 : Forall2 (slot_holds (store st3)) ss os).
  { clear - Hs. cbn [st3 st2 st1 store]. induction Hs; constructor; auto. now do 3 apply slot_holds_grow. }
  destruct (elements_slots st3 (aref t) k ss os Hk Ht3 Hs3) as (es & c4 & Hes & Hef & Hep & Hen & Hfr).
  erewrite bind_done by exact Hes.
  set (st4 := mkSt (store st3 ++ c4) (mworld st3) (trace st3)).
  set (b := (length (store st2), []) : ref).
  assert (Hb : holds (store st4) b (Node KBindFront (SVal f :: cs))).
  { cbn [st4 store]. apply holds_app. apply holds_new. }
  pose proof (bind_front_direct n b es st4 (SVal f) cs Hb) as Hi. cbn [place] in Hi.
  exists (c1 ++ c2 ++ [(true, Node KBindFront (SVal f :: cs))] ++ c4), (at_ b 0), es, (places b 1 cs).
  assert (Est : mkSt (store st ++ c1 ++ c2 ++ [(true, Node KBindFront (SVal f :: cs))] ++ c4)
                  (mworld st) (trace st) = st4).
  { unfold st4, st3, st2, st1. cbn [store mworld trace]. f_equal. now rewrite <- !app_assoc. }
  cbv zeta. rewrite Est.
  assert (Hlen : length (store st) <= length (store st2) /\ length (store st) <= length (store st3) /\
                 length (store st2) < length (store st3) /\ length (store st3) <= length (store st4)).
  { cbn [st4 st3 st2 st1 store]. rewrite !app_length. cbn [length]. lia. }
  assert (Hcs4 : Forall2 (slot_holds (store st4)) cs avs).
  { unfold cs. generalize (store st4). clear. intros sto. induction avs; cbn; constructor; auto. reflexivity. }
  assert (Hps : Forall3 (passed (length (store st)) (length (store st4))) es (places (place r 1 d) 0 ss) os).
  { eapply (elements_passed _ (length (store st3)) _ t d r k ss os es (store st3)); try eassumption.
    - lia.
    - eapply Forall2_len; exact Hef. }
  split; [|split; [|split; [|split; [|split; [|split; [|split]]]]]].
  - f_equal. exact Hi.
  - eapply holds_member; [exact Hb|reflexivity].
  - exact Hef.
  - apply (places_hold _ _ _ _ Hb cs [SVal f] avs eq_refl Hcs4).
  - cbn [b at_ fst]. lia.
  - unfold cs. rewrite places_val. clear - Hlen. apply Forall_forall. intros q Hq.
    apply in_map_iff in Hq. destruct Hq as (i & <- & _). cbn [at_ fst b]. lia.
  - exact Hps.
  - intros Hnd. rewrite map_app.
    assert (Eb : map aref (RVs (places b 1 cs)) = places b 1 cs).
    { unfold RVs. rewrite map_map. cbn. apply map_id. }
    rewrite Eb.
    assert (Hes_nd : NoDup (map aref es)).
    { eapply elements_NoDup; eassumption. }
    apply NoDup_app_intro; [unfold cs; rewrite places_val; apply at_NoDup|exact Hes_nd|].
    intros q Hq1 Hq2. unfold cs in Hq1. rewrite places_val in Hq1. apply in_map_iff in Hq1.
    destruct Hq1 as (i & <- & _).
    (* the elements live before or after the closure *)
    assert (G : Forall (fun a => fst (aref a) <> length (store st2)) es).
    { assert (Hlt : Forall (fun q : ref => fst q < length (store st)) (places (place r 1 d) 0 ss)).
      { apply places_lt; [|eapply slots_lt; exact Hs].
        destruct d; cbn; [eapply holds_lt; exact H|eapply holds_lt; exact Hd]. }
      assert (Hlt3 : Forall (fun q : ref => fst q <> length (store st2)) (places (aref t) 0 ss)).
      { assert (Htl : fst (aref t) < length (store st2)) by (eapply holds_lt; exact Hth).
        eapply Forall_impl; [|apply places_lt with (n := length (store st2)); [exact Htl|]].
        - intros q Hq. cbn beta in Hq. lia.
        - eapply Forall_impl; [|eapply slots_lt; exact Hs]. intros [?|q] Hq; [exact I|]. cbn in *. lia. }
      clear - Hep Hlt3 Hlen. fold st4 in Hep. induction Hep as [|a p o es ps os Hp _ IH]; constructor.
      - inversion Hlt3; subst. destruct Hp as [->|(_ & _ & _ & Hp)]; [assumption|]. lia.
      - inversion Hlt3; subst. now apply IH. }
    rewrite Forall_forall in G. apply in_map_iff in Hq2. destruct Hq2 as (a & Ea & Hin).
    apply (G _ Hin). rewrite Ea. reflexivity.
Qed.

End Bind.
