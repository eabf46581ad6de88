(** Bound functions from their construction on: bind_back, [t >> f] and [t << f]. *)
From Coq Require Import List Bool Arith Lia.
From Verif Require Import Value Machine MachineSpec MachineLib MachineFrame Composed BindSpec BindThms SeqThms MachineThms.
Import ListNotations.

Section Full.
Context {A W F S : Type}.
Notation value := (val A).
Notation obj := (obj A F S).
Notation slot := (slot A F S).
Notation cell := (bool * obj)%type.
Notation mstate := (mstate A W F S).
Notation data := (@Machine.data A F S).
Notation step := (step A).
Variable ve : value -> bool.
Variable C : config.
Variable U : muser A W F S.
Implicit Type st : mstate.
Implicit Types (sto : list cell) (c d : slot) (cs ss ms : list slot) (o : obj) (os : list obj).
Local Open Scope machine_scope.

Lemma place_captured r i a o : place r i (captured a o) = home r i a.
Proof. unfold captured, home. now destruct (acat a). Qed.

Lemma places_homes r : forall args os i, length args = length os ->
  places r i (captures args os) = homes r i args.
Proof.
  induction args as [|a args IH]; intros [|o os] i E; try discriminate; [reflexivity|].
  cbn [captures places homes]. rewrite place_captured. f_equal. apply IH. now injection E.
Qed.

Lemma homes_NoDup r : forall args i,
  NoDup (map aref args) -> Forall (fun a => fst (aref a) < fst r) args -> NoDup (homes r i args).
Proof.
  assert (Hin : forall args i q, In q (homes r i args) ->
            (exists j, i <= j /\ q = at_ r j) \/ In q (map aref args)).
  { induction args as [|a args IH]; intros i q H; [easy|]. destruct H as [<-|H].
    - unfold home. destruct (acat a); [right; now left|right; now left|]. left. exists i. split; [lia|reflexivity].
    - destruct (IH _ _ H) as [(j & Hj & ->)|H']; [left; exists j; split; [lia|reflexivity]|right; now right]. }
  induction args as [|a args IH]; intros i Hn Hl; [constructor|].
  cbn [map] in Hn. inversion Hn as [|? ? H1 H2]; subst. inversion Hl as [|? ? L1 L2]; subst.
  cbn [homes]. constructor; [|now apply IH].
  intros H. apply Hin in H. unfold home in H. destruct (acat a).
  1,2: destruct H as [(j & _ & E)|H]; [rewrite E in L1; cbn in L1; lia|easy].
  destruct H as [(j & Hj & E)|H]; [apply at_inj in E; lia|].
  apply in_map_iff in H. destruct H as (b & E & Hb). rewrite Forall_forall in L2. specialize (L2 b Hb).
  rewrite E in L2. cbn in L2. lia.
Qed.

Lemma slots_like_refl ss : Forall2 slot_like ss ss.
Proof. induction ss as [|[?|?] ss IH]; constructor; auto; reflexivity || exact I. Qed.
Lemma slot_like_refl c : slot_like c c.
Proof. destruct c; reflexivity || exact I. Qed.

Lemma holds_new sto o : holds (sto ++ [(true, o)]) (length sto, []) o.
Proof. unfold holds. cbn [fst snd]. exists o. rewrite nth_error_app2, Nat.sub_diag by lia. split; reflexivity. Qed.

(** ** bind_back *)
Theorem bind_back_run n st fa f s bs bvs :
  holds (store st) (aref fa) (fun_obj f s) ->
  Forall2 (fun b v => holds (store st) (aref b) (data v)) bs bvs ->
  NoDup (map aref bs) ->
  exists r st1,
    bind (bind_back ve C fa bs) alloc st = (Done r, st1) /\
    mworld st1 = mworld st /\ trace st1 = trace st /\
    forall steps, in_range (length bvs) steps ->
    let '(os, s2, bvs2, w2, l2) := direct false true U f s bvs steps (mworld st) in
    exists sto2,
      run_steps ve C U (2 + n) r (homes r 1 bs) steps st1 = (os, mkSt sto2 w2 (trace st ++ l2)) /\
      holds sto2 (home r 0 fa) (fun_obj f s2) /\
      Forall2 (fun q v => holds sto2 q (data v)) (homes r 1 bs) bvs2.
Proof.
  intros Hf Hb Hn.
  assert (Hb' : Forall2 (fun a o => holds (store st) (aref a) o) bs (map data bvs)) by (now apply Forall2_map_r).
  pose proof (Forall2_len _ _ _ Hb') as Hlen.
  erewrite bind_done by (apply bind_back_makes; eassumption).
  set (o := Node KBindBack (captured fa (fun_obj f s) :: captures bs (map data bvs))).
  set (r := (length (store st), []) : ref).
  exists r, (mkSt (store st ++ [(true, o)]) (mworld st) (trace st)). split; [reflexivity|].
  split; [reflexivity|]. split; [reflexivity|]. intros steps Hs.
  assert (Hr : holds (store st ++ [(true, o)]) r o) by apply holds_new.
  assert (Hcs : Forall2 (slot_holds (store st ++ [(true, o)])) (captures bs (map data bvs)) (map data bvs)).
  { apply captures_slots. now apply (Forall2_holds_app aref). }
  assert (Hps := places_hold _ r KBindBack _ Hr (captures bs (map data bvs)) [captured fa (fun_obj f s)] _ eq_refl Hcs).
  cbn [length] in Hps. pose proof (places_homes r bs (map data bvs) 1 Hlen) as Ehs.
  assert (Hnd : NoDup (places r 1 (captures bs (map data bvs)))).
  { rewrite Ehs. apply homes_NoDup; [exact Hn|].
    clear - Hb. induction Hb as [|b v bs bvs H _ IH]; constructor; auto. eapply holds_lt; exact H. }
  pose proof (back_sequence ve C U f n r (captured fa (fun_obj f s)) (captures bs (map data bvs)) Hnd
                steps (mkSt (store st ++ [(true, o)]) (mworld st) (trace st)) s bvs) as H.
  cbn [store mworld trace] in H. rewrite Ehs in H.
  destruct (direct false true U f s bvs steps (mworld st)) as [[[[os s2] bvs2] w2] l2].
  destruct H as (sto2 & Er & (_ & Hf2 & Hp2)).
  - split; [|split].
    + eexists. split; [exact Hr|]. apply slots_like_refl.
    + eapply place_holds; [exact Hr|reflexivity|]. unfold captured. destruct (acat fa); cbn; try reflexivity; now apply holds_app.
    + exact Hps.
  - exact Hs.
  - rewrite place_captured in Hf2. rewrite Ehs in Hp2. exists sto2. split; [exact Er|]. split; [exact Hf2|].
    now apply Forall2_map_r.
Qed.

(** *** Lifetimes *)

Lemma nth_die_from ls : forall sto k i,
  nth_error (map (fun p : nat * cell => (fst (snd p) && negb (existsb (Nat.eqb (fst p)) ls), snd (snd p)))
               (combine (seq k (length sto)) sto)) i
  = option_map (fun x : cell => (fst x && negb (existsb (Nat.eqb (k + i)) ls), snd x)) (nth_error sto i).
Proof.
  induction sto as [|x sto IH]; intros k [|i]; cbn [length seq combine map nth_error option_map]; try reflexivity.
  - now rewrite Nat.add_0_r.
  - rewrite IH. now rewrite Nat.add_succ_r.
Qed.

Lemma nth_die ls sto i :
  nth_error (die ls sto) i = option_map (fun x : cell => (fst x && negb (existsb (Nat.eqb i) ls), snd x)) (nth_error sto i).
Proof. unfold die. apply nth_die_from. Qed.

Lemma die_length ls sto : length (die ls sto) = length sto.
Proof. unfold die. rewrite map_length, combine_length, seq_length. lia. Qed.

Lemma in_eqb ls i : existsb (Nat.eqb i) ls = true <-> In i ls.
Proof.
  rewrite existsb_exists. split.
  - intros (x & H & E). apply Nat.eqb_eq in E. now subst.
  - intros H. exists i. split; [exact H|]. apply Nat.eqb_refl.
Qed.

Lemma holds_alive ls sto r o : ~ In (fst r) ls -> holds sto r o -> holds (die ls sto) r o.
Proof.
  intros Hn (root & H1 & H2). exists root. split; [|exact H2]. rewrite nth_die, H1. cbn [option_map fst snd].
  destruct (existsb (Nat.eqb (fst r)) ls) eqn:E; [|reflexivity]. apply in_eqb in E. easy.
Qed.

Lemma holds_died ls sto r o : In (fst r) ls -> holds sto r o -> dangles (die ls sto) r o.
Proof.
  intros Hn (root & H1 & H2). exists root. split; [|exact H2]. rewrite nth_die, H1. cbn [option_map fst snd].
  apply in_eqb in Hn. now rewrite Hn.
Qed.

Lemma alive_dead st r o : strict C = true -> dangles (store st) r o -> alive C r st = (Err Undefined, st).
Proof. intros Hs (root & H1 & _). unfold alive. now rewrite H1, Hs. Qed.

Lemma call_dead n st r o args : strict C = true -> dangles (store st) r o ->
  invoke ve C U (Datatypes.S n) r args st = (Err Undefined, st).
Proof. intros Hs H. cbn [invoke]. erewrite bind_err by (eapply alive_dead; eassumption). reflexivity. Qed.

Lemma read_args_dead st : strict C = true ->
  forall args vs i a v,
  Forall2 (fun a v => holds (store st) (aref a) (data v) \/ dangles (store st) (aref a) (data v)) args vs ->
  nth_error args i = Some a -> nth_error vs i = Some v -> dangles (store st) (aref a) (data v) ->
  data_empty ve v = false ->
  mapM (fun a => bind (read ve C (aref a)) value_of) args st = (Err Undefined, st).
Proof.
  intros Hs args vs i a v H. revert i. induction H as [|b u args vs Hb _ IH]; intros [|i] Ea Ev Hd He; try discriminate.
  - injection Ea as ->. injection Ev as ->. cbn [mapM]. erewrite bind_err; [reflexivity|].
    erewrite bind_err; [reflexivity|]. eapply read_dead_strict; try eassumption. cbn. now rewrite He.
  - cbn [nth_error] in *. specialize (IH i Ea Ev Hd He). cbn [mapM].
    assert (G : read ve C (aref b) st = (Done (data u), st) \/ read ve C (aref b) st = (Err Undefined, st)).
    { destruct Hb as [Hb|Hb]; [left; now apply read_ok|].
      destruct (obj_empty ve (data u)) eqn:E; [left; apply read_dead; auto|right; eapply read_dead_strict; eassumption]. }
    destruct G as [G|G].
    + erewrite bind_done by (erewrite bind_done by exact G; reflexivity).
      erewrite bind_err by exact IH. reflexivity.
    + erewrite bind_err by (erewrite bind_err by exact G; reflexivity). reflexivity.
Qed.

Theorem bind_back_lifetimes n st fa f s bs bvs :
  holds (store st) (aref fa) (fun_obj f s) ->
  Forall2 (fun b v => holds (store st) (aref b) (data v)) bs bvs ->
  NoDup (map aref bs) ->
  exists r st1,
    bind (bind_back ve C fa bs) alloc st = (Done r, st1) /\
    forall ls, ~ In (fst r) ls ->
    let st2 := mkSt (die ls (store st1)) (mworld st1) (trace st1) in
    (strict C = true ->
     (referred_dead ls fa \/
      exists i b v, nth_error bs i = Some b /\ nth_error bvs i = Some v /\ referred_dead ls b /\ data_empty ve v = false) ->
     forall avs, exists sto', call_with ve C U (2 + n) r avs st2 = (Err Undefined, mkSt sto' (mworld st) (trace st))) /\
    (~ referred_dead ls fa -> Forall (fun b => ~ referred_dead ls b) bs ->
     forall steps, in_range (length bvs) steps ->
     let '(os, s2, bvs2, w2, l2) := direct false true U f s bvs steps (mworld st) in
     exists sto2,
       run_steps ve C U (2 + n) r (homes r 1 bs) steps st2 = (os, mkSt sto2 w2 (trace st ++ l2)) /\
       holds sto2 (home r 0 fa) (fun_obj f s2) /\
       Forall2 (fun q v => holds sto2 q (data v)) (homes r 1 bs) bvs2).
Proof.
  intros Hf Hb Hn.
  assert (Hb' : Forall2 (fun a o => holds (store st) (aref a) o) bs (map data bvs)) by (now apply Forall2_map_r).
  pose proof (Forall2_len _ _ _ Hb') as Hlen.
  erewrite bind_done by (apply bind_back_makes; eassumption).
  set (c := captured fa (fun_obj f s)). set (cs := captures bs (map data bvs)).
  set (o := Node KBindBack (c :: cs)).
  set (r := (length (store st), []) : ref).
  set (sto1 := store st ++ [(true, o)]).
  exists r, (mkSt sto1 (mworld st) (trace st)). split; [reflexivity|].
  intros ls Hls st2. cbn [store mworld trace] in st2.
  assert (Hr1 : holds sto1 r o) by apply holds_new.
  assert (Hr : holds (store st2) r o) by (now apply holds_alive).
  pose proof (places_homes r bs (map data bvs) 1 Hlen) as Ehs. fold cs in Ehs.
  assert (Hhl : forall a o' i, holds sto1 (aref a) o' -> nth_error (c :: cs) i = Some (captured a o') ->
            (referred_dead ls a /\ dangles (store st2) (home r i a) o') \/
            (~ referred_dead ls a /\ holds (store st2) (home r i a) o')).
  { intros a o' i Ha Hi. unfold home, referred_dead.
    assert (Hcase : acat a = RV \/ acat a <> RV) by (destruct (acat a); auto; right; discriminate).
    destruct Hcase as [E|E].
    - right. split; [now intros [H _]|]. rewrite E. eapply holds_member; [exact Hr|].
      cbn [members o]. rewrite Hi. unfold captured. now rewrite E.
    - replace (match acat a with RV => at_ r i | _ => aref a end) with (aref a) by (destruct (acat a); congruence).
      destruct (in_dec Nat.eq_dec (fst (aref a)) ls) as [Hin|Hin].
      + left. split; [auto|]. now apply holds_died.
      + right. split; [now intros [_ H]|]. now apply holds_alive. }
  assert (Hfh := Hhl fa (fun_obj f s) 0 (holds_app _ _ _ _ Hf) eq_refl).
  assert (Hbh : forall i b v, nth_error bs i = Some b -> nth_error bvs i = Some v ->
            (referred_dead ls b /\ dangles (store st2) (home r (Datatypes.S i) b) (data v)) \/
            (~ referred_dead ls b /\ holds (store st2) (home r (Datatypes.S i) b) (data v))).
  { intros i b v Eb Ev. apply Hhl.
    - apply holds_app. destruct (Forall2_nth _ _ _ Hb i b Eb) as (v' & Ev' & H). congruence.
    - cbn [nth_error]. unfold cs. clear - Eb Ev. revert bvs i Eb Ev.
      induction bs as [|b0 bs IH]; intros [|v0 bvs] [|i] Eb Ev; try discriminate; cbn in *.
      + injection Eb as ->. injection Ev as ->. reflexivity.
      + now apply IH. }
  assert (Hnth : forall k l i b, nth_error l i = Some b -> nth_error (homes r k l) i = Some (home r (k + i) b)).
  { clear. intros k l. revert k. induction l as [|a l IH]; intros k [|i] b E; try discriminate; cbn in *.
    - injection E as ->. now rewrite Nat.add_0_r.
    - rewrite (IH _ _ _ E). f_equal. f_equal. lia. }
  assert (Hhlen : length (homes r 1 bs) = length bvs).
  { apply Forall2_len in Hb. rewrite <- Hb. clear. generalize 1. induction bs as [|b bs IH]; intros k; [reflexivity|].
    cbn. now rewrite IH. }
  assert (Hblen : length bs = length bvs) by (eapply Forall2_len; exact Hb).
  split.
  - intros Hs Hdead avs. unfold call_with. rewrite scoped_eq. erewrite bind_done by apply alloc_all.
    set (L := length (store st2)). set (lc := locals L (length avs)).
    set (st3 := mkSt (store st2 ++ map (fun v => (true, data v)) avs) (mworld st2) (trace st2)).
    assert (Hr3 : holds (store st3) r o) by (now apply holds_app).
    assert (G : invoke ve C U (2 + n) r (LVs lc) st3 = (Err Undefined, st3)).
    { change (2 + n) with (Datatypes.S (Datatypes.S n)). rewrite (bind_back_direct ve C U _ r (LVs lc) st3 c cs Hr3).
      unfold c. rewrite place_captured, Ehs.
      destruct Hfh as [[_ Hfd]|[Hfn Hfh]].
      - eapply call_dead; [exact Hs|]. apply dangles_app. exact Hfd.
      - destruct Hdead as [Hd|(i & b & v & Eb & Ev & Hd & He)]; [easy|].
        assert (Hf3 : holds (store st3) (home r 0 fa) (fun_obj f s)) by (now apply holds_app).
        rewrite (invoke_S ve C U n (home r 0 fa) _ st3 _ Hf3). cbn [kind_of fun_obj].
        unfold call_user. erewrite bind_err; [reflexivity|].
        pose proof (Hbh i b v Eb Ev) as Hi. destruct Hi as [[_ Hdb]|[Hno _]]; [|easy].
        apply (read_args_dead st3 Hs _ (avs ++ bvs) (length avs + i) (mkArg (home r (Datatypes.S i) b) LV) v).
        + apply Forall2_app.
          * assert (Hl := locals_LV (store st2) avs). apply Forall2_map_r in Hl.
            eapply Forall2_impl; [|exact Hl]. intros a u Ha. left. exact Ha.
          * unfold LVs. apply Forall2_map_l. apply Forall2_from_nth; [exact Hhlen|].
            intros j q u Eq Eu. cbn [aref].
            destruct (nth_error bs j) as [b'|] eqn:Eb'.
            2:{ apply nth_error_None in Eb'. assert (j < length bvs) by (apply nth_error_Some; congruence). lia. }
            rewrite (Hnth 1 bs j b' Eb') in Eq. injection Eq as <-.
            destruct (Hbh j b' u Eb' Eu) as [[_ H]|[_ H]]; [right|left].
            -- now apply dangles_app.
            -- now apply holds_app.
        + rewrite nth_error_app2; unfold LVs, lc, locals; rewrite !map_length, seq_length; [|lia].
          rewrite nth_error_map. replace (length avs + i - length avs) with i by lia. rewrite (Hnth 1 bs i b Eb). reflexivity.
        + rewrite nth_error_app2 by lia. replace (length avs + i - length avs) with i by lia. exact Ev.
        + cbn [aref]. now apply dangles_app.
        + exact He. }
    fold st3. erewrite bind_err by exact G. eexists. reflexivity.
  - intros Hfa Hbs steps Hsteps.
    destruct Hfh as [[Hd _]|[_ Hfh]]; [easy|].
    assert (Hps : Forall2 (holds (store st2)) (homes r 1 bs) (map data bvs)).
    { apply Forall2_map_r. apply Forall2_from_nth; [exact Hhlen|]. intros j q u Eq Eu.
      destruct (nth_error bs j) as [b'|] eqn:Eb'.
      2:{ apply nth_error_None in Eb'. assert (j < length bvs) by (apply nth_error_Some; congruence). lia. }
      rewrite (Hnth 1 bs j b' Eb') in Eq. injection Eq as <-.
      destruct (Hbh j b' u Eb' Eu) as [[H _]|[_ H]]; [|exact H].
      rewrite Forall_forall in Hbs. elim (Hbs b'); [eapply nth_error_In; exact Eb'|exact H]. }
    assert (Hnd : NoDup (places r 1 cs)).
    { rewrite Ehs. apply homes_NoDup; [exact Hn|].
      clear - Hb. induction Hb as [|b v bs bvs H _ IH]; constructor; auto. eapply holds_lt; exact H. }
    pose proof (back_sequence ve C U f n r c cs Hnd steps st2 s bvs) as H.
    change (mworld st2) with (mworld st) in H. change (trace st2) with (trace st) in H. rewrite Ehs in H.
    destruct (direct false true U f s bvs steps (mworld st)) as [[[[os s2] bvs2] w2] l2].
    destruct H as (sto2 & Er & (_ & Hf2 & Hp2)).
    + split; [|split].
      * eexists. split; [exact Hr|]. apply slots_like_refl.
      * unfold c. rewrite place_captured. exact Hfh.
      * rewrite Ehs. exact Hps.
    + exact Hsteps.
    + unfold c in Hf2. rewrite place_captured in Hf2. rewrite Ehs in Hp2. exists sto2.
      split; [exact Er|]. split; [exact Hf2|]. now apply Forall2_map_r.
Qed.

(** ** [t >> f] and [t << f] *)

Definition op_captured (a : arg) (o : obj) : slot := if obj_empty ve o then SVal o else captured a o.

Lemma element_capture_is st a o : holds (store st) (aref a) o ->
  element_capture ve C a st = (Done (op_captured a o), st).
Proof.
  intros H. unfold element_capture, op_captured. erewrite bind_done by (eapply peek_ok; exact H).
  destruct (obj_empty ve o); [reflexivity|]. now apply capture_is.
Qed.

Lemma place_op_captured r i a o : place r i (op_captured a o) = op_home ve r i a o.
Proof. unfold op_captured, op_home. destruct (obj_empty ve o); [reflexivity|]. apply place_captured. Qed.

Lemma op_captured_holds sto a o : holds sto (aref a) o -> slot_holds sto (op_captured a o) o.
Proof.
  intros H. unfold op_captured, captured. destruct (obj_empty ve o); [reflexivity|]. now destruct (acat a).
Qed.

(** The elements of a tuple that lives somewhere else. *)
Lemma places_moved t t' sto : forall ss os i,
  Forall2 (slot_holds sto) ss os -> length sto <= fst t' ->
  NoDup (places t i ss) -> NoDup (places t' i ss).
Proof.
  assert (Hin : forall t ss i q, In q (places t i ss) ->
            (exists j, i <= j /\ q = at_ t j) \/ In (SRef q) ss).
  { clear. intros t. induction ss as [|c ss IH]; intros i q H; [easy|]. destruct H as [<-|H].
    - destruct c as [o|q]; cbn [place]; [left; exists i; split; [lia|reflexivity]|right; now left].
    - destruct (IH _ _ H) as [(j & Hj & ->)|H']; [left; exists j; split; [lia|reflexivity]|right; now right]. }
  assert (Href : forall ss os q, Forall2 (slot_holds sto) ss os -> In (SRef q) ss -> fst q < length sto).
  { clear. induction 1 as [|c o ss os Hc _ IH]; [easy|]. intros [->|H]; [eapply holds_lt; exact Hc|auto]. }
  induction ss as [|c ss IH]; intros os i Hs Hl Hn; [constructor|].
  inversion Hs as [|? o ? os' Hc Hs']; subst. cbn [places] in *. inversion Hn as [|? ? H1 H2]; subst.
  constructor; [|now apply (IH os')].
  intros H. destruct (Hin _ _ _ _ H) as [(j & Hj & E)|H'].
  - destruct c as [o'|q]; cbn [place] in E; [apply at_inj in E; lia|].
    cbn in Hc. apply holds_lt in Hc. rewrite E in Hc. cbn in Hc. lia.
  - destruct c as [o'|q]; cbn [place] in *.
    + pose proof (Href _ _ _ Hs' H') as Hlt. cbn in Hlt. lia.
    + apply H1. clear - H'. revert i. induction ss as [|c ss IH]; intros i; [easy|].
      destruct H' as [->|H']; [now left|right; now apply IH].
Qed.

Section Ops.
Variables (kd : kind A F S) (op : arg -> arg -> M A W F S obj).
Hypothesis op_is : forall ta fa, op ta fa = 
  (c <- element_capture ve C fa ;; d <- element_capture ve C ta ;; ret (Node kd [c; d])).

Lemma op_made st ta fa f s k ss tvs :
  k = KCT \/ k = KTuple ->
  holds (store st) (aref fa) (fun_obj f s) -> holds (store st) (aref ta) (Node k ss) ->
  Forall2 (slot_holds (store st)) ss (map data tvs) -> NoDup (places (aref ta) 0 ss) ->
  let r := (length (store st), []) : ref in
  let c := op_captured fa (fun_obj f s) in
  let d := op_captured ta (Node k ss) in
  let st1 := mkSt (store st ++ [(true, Node kd [c; d])]) (mworld st) (trace st) in
  bind (op ta fa) alloc st = (Done r, st1) /\
  NoDup (places (place r 1 d) 0 ss) /\
  bound_tuple f r c d k ss kd (store st1) s tvs.
Proof.
  intros Hk Hf Ht Hss Hn r c d st1. rewrite op_is. split; [|split].
  - rewrite bind_assoc. erewrite bind_done by (apply element_capture_is; exact Hf). rewrite bind_assoc.
    erewrite bind_done by (apply element_capture_is; exact Ht). reflexivity.
  - assert (G : place r 1 d = aref ta \/ place r 1 d = at_ r 1).
    { unfold d. rewrite place_op_captured. unfold op_home, home. destruct (obj_empty ve (Node k ss)); [now right|].
      destruct (acat ta); auto. }
    destruct G as [-> | ->]; [exact Hn|]. eapply places_moved; [exact Hss| |exact Hn]. cbn. lia.
  - assert (Hr : holds (store st1) r (Node kd [c; d])) by apply holds_new.
    assert (Hf1 : holds (store st1) (aref fa) (fun_obj f s)) by (now apply holds_app).
    assert (Ht1 : holds (store st1) (aref ta) (Node k ss)) by (now apply holds_app).
    assert (Hd : holds (store st1) (place r 1 d) (Node k ss)).
    { eapply place_holds; [exact Hr|reflexivity|]. now apply op_captured_holds. }
    split; [|split; [|split]].
    + exists c, d. auto using slot_like_refl.
    + exists ss. auto using slots_like_refl.
    + eapply place_holds; [exact Hr|reflexivity|]. now apply op_captured_holds.
    + apply (places_hold _ _ k ss Hd ss [] (map data tvs) eq_refl).
      cbn [st1 store]. generalize (Node kd [c; d]) as o. clear - Hss. intros o. induction Hss; constructor; auto. now apply slot_holds_grow.
Qed.
End Ops.

Theorem shift_right_run n st ta fa f s k ss tvs :
  k = KCT \/ k = KTuple -> well_typed ve U f ->
  holds (store st) (aref fa) (fun_obj f s) -> holds (store st) (aref ta) (Node k ss) ->
  Forall2 (slot_holds (store st)) ss (map data tvs) -> NoDup (places (aref ta) 0 ss) ->
  exists r st1,
    bind (shift_right ve C ta fa) alloc st = (Done r, st1) /\
    mworld st1 = mworld st /\ trace st1 = trace st /\
    let es := places (op_home ve r 1 ta (Node k ss)) 0 ss in
    forall steps, in_range (length tvs) steps ->
    let '(os, s2, tvs2, w2, l2) := direct true true U f s tvs steps (mworld st) in
    exists sto2,
      run_steps ve C U (3 + n) r es steps st1 = (os, mkSt sto2 w2 (trace st ++ l2)) /\
      holds sto2 (op_home ve r 0 fa (fun_obj f s)) (fun_obj f s2) /\
      Forall2 (fun q v => holds sto2 q (data v)) es tvs2.
Proof.
  intros Hk Hty Hf Ht Hss Hn.
  destruct (op_made KFrontTuple (shift_right ve C) (fun _ _ => eq_refl) st ta fa f s k ss tvs Hk Hf Ht Hss Hn)
    as (Em & Hnd & HB). cbv zeta in *.
  eexists _, _. split; [exact Em|]. split; [reflexivity|]. split; [reflexivity|]. intros steps Hs.
  pose proof (front_sequence ve C U f n _ _ _ k ss Hk Hnd Hty steps _ s tvs HB Hs) as H.
  cbn [store mworld trace] in H.
  destruct (direct true true U f s tvs steps (mworld st)) as [[[[os s2] tvs2] w2] l2].
  destruct H as (sto2 & Er & (_ & _ & Hf2 & Hp2)). rewrite !place_op_captured in *.
  exists sto2. split; [exact Er|]. split; [exact Hf2|]. now apply Forall2_map_r.
Qed.

Theorem shift_left_run n st ta fa f s k ss tvs :
  byref C = false -> k = KCT \/ k = KTuple -> well_typed ve U f -> by_value_fun U f ->
  holds (store st) (aref fa) (fun_obj f s) -> holds (store st) (aref ta) (Node k ss) ->
  Forall2 (slot_holds (store st)) ss (map data tvs) -> NoDup (places (aref ta) 0 ss) ->
  exists r st1,
    bind (shift_left ve C ta fa) alloc st = (Done r, st1) /\
    mworld st1 = mworld st /\ trace st1 = trace st /\
    let es := places (op_home ve r 1 ta (Node k ss)) 0 ss in
    forall steps, in_range (length tvs) steps ->
    let '(os, s2, tvs2, w2, l2) := direct false false U f s tvs steps (mworld st) in
    exists sto2,
      run_steps ve C U (3 + n) r es steps st1 = (os, mkSt sto2 w2 (trace st ++ l2)) /\
      holds sto2 (op_home ve r 0 fa (fun_obj f s)) (fun_obj f s) /\
      Forall2 (fun q v => holds sto2 q (data v)) es tvs2.
Proof.
  intros Cb Hk Hty Hbv Hf Ht Hss Hn.
  destruct (op_made KBackTuple (shift_left ve C) (fun _ _ => eq_refl) st ta fa f s k ss tvs Hk Hf Ht Hss Hn)
    as (Em & Hnd & HB). cbv zeta in *.
  eexists _, _. split; [exact Em|]. split; [reflexivity|]. split; [reflexivity|]. intros steps Hs.
  pose proof (left_sequence ve C U f n _ _ _ k ss Hk Hnd Hty Cb Hbv steps _ s tvs HB Hs) as H.
  cbn [store mworld trace] in H.
  assert (Es : snd (fst (fst (fst (direct false false U f s tvs steps (mworld st))))) = s).
  { clear. generalize (mworld st) as w. revert tvs. induction steps as [|[i v|avs] steps IH]; intros tvs w; cbn [direct]; auto.
    destruct (usem U f s (avs ++ tvs) w) as [[[s' vs'] u] w']. destruct (ucall U f s (avs ++ tvs) w) as [[o w0] l].
    specialize (IH (skipn (length avs) (overwrite (avs ++ tvs) vs')) w').
    destruct (direct false false U f s (skipn (length avs) (overwrite (avs ++ tvs) vs')) steps w') as [[[[os s2] t2] w2] l2].
    exact IH. }
  destruct (direct false false U f s tvs steps (mworld st)) as [[[[os s2] tvs2] w2] l2]. cbn [fst snd] in Es. subst s2.
  destruct H as (sto2 & Er & (_ & _ & Hf2 & Hp2)). rewrite !place_op_captured in *.
  exists sto2. split; [exact Er|]. split; [exact Hf2|]. now apply Forall2_map_r.
Qed.

End Full.
