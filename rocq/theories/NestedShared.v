(** Where no function calls a lazy function, NestedModel.v is SharedModel.v. *)
From Coq Require Import List Bool Arith Lia.
From Verif Require Import Value TupleAlg TupleAlgProofs LazyModel LazySpec LazyProofs SharedModel NestedModel NestedSpec NestedThms NestedCalls.
Import ListNotations.

Section Agree.
Context {A W fid did : Type}.
Notation value := (val A).
Notation event := (event A fid did).
Notation nvar := (nvar A fid did).
Notation ndep := (ndep A did).
Notation slz := (slz A fid did).
Notation script := (script A W).
Variable U : user A W fid did.

(** The functions of [U] as functions that call nothing. *)
Definition quiet (r : W -> fres A * W) : script :=
  Look (fun w => Act (fun _ => snd (r w)) (match fst (r w) with FRet o => Return o | FThrow => Throw end)).
Definition quiet_user : nuser A W fid did :=
  mkNUser (fun f args => quiet (sem U f args))
          (fun d => quiet (fun w => let (r, w') := dsem U d w in (match r with VRet v => FRet (Some v) | VThrow => FThrow end, w')))
          (aeq U).

Definition quiet_dep (s : sdep A did) : option (ndepspec A did) :=
  match s with
  | SDRef x => Some (PRef x)
  | SDep (DFun d) => Some (PFun d)
  | SDep (DConst v) => Some (PValue v)
  | SDep (DVar _) => None
  end.
Fixpoint quiet_deps (ss : list (sdep A did)) : option (list (ndepspec A did)) :=
  match ss with
  | [] => Some []
  | s :: ss' => match quiet_dep s, quiet_deps ss' with Some d, Some ds => Some (d :: ds) | _, _ => None end
  end.
(** The same program, if no lazy function is taken by value. *)
Definition quiet_op (o : sop A W fid did) : option (nop A W fid did) :=
  match o with
  | SNew f ss => match quiet_deps ss with Some ds => Some (PNew f ds) | None => None end
  | SCopy x => Some (PCopy x)
  | SCall x => Some (PCall x)
  | SEnv h => Some (PEnv h)
  end.
Fixpoint quiet_program (p : list (sop A W fid did)) : option (list (nop A W fid did)) :=
  match p with
  | [] => Some []
  | o :: p' => match quiet_op o, quiet_program p' with Some o', Some q => Some (o' :: q) | _, _ => None end
  end.

Lemma quiet_run call r vs w : run_script (A := A) (fid := fid) (did := did) call (quiet r) vs w =
  Some (match fst (r w) with FRet o => Ok (match o with Some v => v | None => VVoid end) | FThrow => Exc end, vs, snd (r w), []).
Proof. unfold quiet. cbn. destruct (fst (r w)); reflexivity. Qed.

(** ** States *)
Definition rel_dep (i : nat) (s : slz) (d : ndep) : Prop :=
  match d with
  | NValue v => s = SValue v false
  | NFun f o => s = SCore (FnSample f) o [SValue (VAtom (int0 U)) true]
  | NRef x => s = SRef x /\ x < i
  end.
Definition rel_var (i : nat) (s : slz) (v : nvar) : Prop :=
  exists ds, s = SCore (FnUser (nfn v)) (ncache v) ds /\ Forall2 (rel_dep i) ds (ndeps v).
Definition rel_at (i : nat) (ss : list slz) (vs : list nvar) : Prop :=
  match nth_error ss i, nth_error vs i with
  | Some s, Some v => rel_var i s v
  | None, None => True
  | _, _ => False
  end.

(** A call of [x] concerns the variables up to [x]. *)
Definition call_rel (n m : nat) (x : nat) : Prop :=
  forall ss vs w s r s' ss' w' lg, length ss = length vs -> (forall i, i <= x -> rel_at i ss vs) -> nth_error ss x = Some s ->
  sstep U n s ss w = Some (r, s', ss', w', lg) ->
  exists vs' v', ncall quiet_user m x vs w = Some (r, vs', w', lg) /\
    length ss' = length ss /\ length vs' = length vs /\ (forall i, i < x -> rel_at i ss' vs') /\
    nth_error vs' x = Some v' /\ rel_var x s' v' /\
    (forall i, x <= i -> nth_error ss' i = nth_error ss i) /\ (forall i, x < i -> nth_error vs' i = nth_error vs i).

Lemma rel_at_same i ss vs ss' vs' : nth_error ss' i = nth_error ss i -> nth_error vs' i = nth_error vs i -> rel_at i ss vs -> rel_at i ss' vs'.
Proof. unfold rel_at. intros -> ->. auto. Qed.

Lemma deps_rel n m x : (forall n' y, n = S n' -> y < x -> call_rel n' m y) ->
  forall ds rest, Forall2 (rel_dep x) ds rest ->
  forall done f c vs ss w rs ds' ss' w' lg,
  length ss = length vs -> (forall i, i < x -> rel_at i ss vs) -> nth_error vs x = Some (mkVar f c (done ++ rest)) ->
  ssteps_with (sstep U n) ds ss w = Some (rs, ds', ss', w', lg) ->
  exists vs' rest', call_deps quiet_user (ncall quiet_user m) x (length done) rest vs w = Some (rs, vs', w', lg) /\
    length ss' = length ss /\ length vs' = length vs /\ (forall i, i < x -> rel_at i ss' vs') /\
    nth_error vs' x = Some (mkVar f c (done ++ rest')) /\ Forall2 (rel_dep x) ds' rest' /\
    (forall i, x <= i -> nth_error ss' i = nth_error ss i) /\ (forall i, x < i -> nth_error vs' i = nth_error vs i) /\
    forall xs, rs = Ok xs -> length ds' = length xs /\ read_deps vs' x (length done) rest xs = map fst (read_refs ss' ds' xs).
Proof.
  intros Hcall ds rest Hds. induction Hds as [|s d ds rest Hd Hds IH]; intros done f c vs ss w rs ds' ss' w' lg Hlen Hrel Hx E.
  - cbn in E. injection E as <- <- <- <- <-. exists vs, []. cbn. repeat (split; [auto; fail|]). intros xs [= <-]. auto.
  - cbn [ssteps_with] in E. fold (ssteps_with (sstep U n)) in E.
    destruct (sstep U n s ss w) as [[[[[r1 s1] ss1] w1] l1]|] eqn:E1; [|discriminate].
    assert (Hxl : x < length vs) by (apply nth_error_Some; congruence).
    (* the first dependency *)
    assert (H1 : exists vs1 d1, call_dep quiet_user (ncall quiet_user m) x (length done) d vs w = Some (r1, vs1, w1, l1) /\
              length ss1 = length ss /\ length vs1 = length vs /\ (forall i, i < x -> rel_at i ss1 vs1) /\
              nth_error vs1 x = Some (mkVar f c (done ++ d1 :: rest)) /\ rel_dep x s1 d1 /\
              (forall i, x <= i -> nth_error ss1 i = nth_error ss i) /\ (forall i, x < i -> nth_error vs1 i = nth_error vs i) /\
              forall q, r1 = Ok q -> match d with
                                     | NValue _ => d1 = d
                                     | NFun g _ => d1 = NFun g (Some (fst q))
                                     | NRef y => d1 = d
                                     end).
    { destruct d as [v|g o|y]; cbn [rel_dep] in Hd.
      - subst s. destruct n; cbn in E1; injection E1 as <- <- <- <- <-; exists vs, (NValue v); cbn;
          repeat (split; [auto; fail|]); auto.
      - subst s.
        assert (E1' : Some (let '(r, cache', w2, l2) := core U (FnSample g) o [(VAtom (int0 U), true)] w in
                            (r, SCore (FnSample g) cache' [SValue (VAtom (int0 U)) true], ss, w2, l2)) = Some (r1, s1, ss1, w1, l1)).
        { rewrite <- E1. destruct n; cbn -[core]; destruct (core U (FnSample g) o [(VAtom (int0 U), true)] w) as [[[? ?] ?] ?]; reflexivity. }
        clear E1. cbn [core any] in E1'. unfold core in E1'. cbn in E1'. rewrite orb_true_r in E1'.
        cbn [call_dep].
        change (plain quiet_user g) with (quiet (fun w => let (r, w') := dsem U g w in (match r with VRet v => FRet (Some v) | VThrow => FThrow end, w'))).
        rewrite (quiet_run (ncall quiet_user m)).
        assert (Hdc : dep_cache vs x (length done) = o).
        { unfold dep_cache. rewrite Hx. cbn [ndeps]. rewrite nth_error_app2, Nat.sub_diag by lia. reflexivity. }
        destruct (dsem U g w) as [[v|] w2]; cbn in E1'.
        + cbn [fst snd]. rewrite Hdc. unfold compare. cbn [quiet_user naeq]. injection E1' as <- <- <- <- <-.
          exists (set_dep_cache x (length done) v vs), (NFun g (Some v)). cbn [app].
          split; [reflexivity|]. unfold set_dep_cache. rewrite Hx. cbn [ndeps nfn ncache].
          rewrite nth_error_app2, Nat.sub_diag by lia. cbn [nth_error]. rewrite update_at.
          split; [reflexivity|]. split; [apply update_length|].
          split; [intros i Hi; apply (rel_at_same i ss vs); [reflexivity|now rewrite nth_update_other by lia|auto]|].
          split; [now rewrite nth_update_same by exact Hxl|]. split; [reflexivity|]. split; [auto|].
          split; [intros i Hi; now rewrite nth_update_other by lia|]. intros q [= <-]. reflexivity.
        + cbn [fst snd]. injection E1' as <- <- <- <- <-. exists vs, (NFun g o).
          split; [reflexivity|]. split; [reflexivity|]. split; [reflexivity|]. split; [exact Hrel|]. split; [exact Hx|].
          split; [reflexivity|]. split; [auto|]. split; [auto|]. intros q Eq. discriminate Eq.
      - destruct Hd as [-> Hy]. destruct n as [|n']; [discriminate|]. cbn [sstep] in E1.
        destruct (nth_error ss y) as [l0|] eqn:Hl0; [|discriminate].
        destruct (sstep U n' l0 ss w) as [[[[[r0 l0'] ss0] w0] lg0]|] eqn:E0; [|discriminate]. injection E1 as <- <- <- <- <-.
        destruct (Hcall n' y eq_refl Hy ss vs w l0 r0 l0' ss0 w0 lg0 Hlen) as (vs1 & v1 & Ec & L1 & L2 & Hr & Hv1 & Hrv & Hks & Hkv);
          [intros i Hi; apply Hrel; lia|exact Hl0|exact E0|].
        exists vs1, (NRef y). cbn [call_dep]. split; [exact Ec|]. split; [rewrite update_length; exact L1|]. split; [exact L2|].
        assert (Hyl : y < length ss0) by (rewrite L1, Hlen; lia).
        split.
        { intros i Hi. unfold rel_at. destruct (Nat.eq_dec y i) as [<-|Hne].
          - rewrite nth_update_same by exact Hyl. now rewrite Hv1.
          - rewrite nth_update_other by exact Hne. destruct (Nat.lt_ge_cases i y) as [Hlt|Hge]; [now apply Hr|].
            apply (rel_at_same i ss vs); [apply Hks; lia|apply Hkv; lia|apply Hrel; exact Hi]. }
        split; [rewrite Hkv by exact Hy; exact Hx|]. split; [cbn; auto|].
        split; [intros i Hi; rewrite nth_update_other by lia; apply Hks; lia|].
        split; [intros i Hi; apply Hkv; lia|]. auto. }
    destruct H1 as (vs1 & d1 & Ed & L1 & L2 & Hr1 & Hx1 & Hd1 & Hks & Hkv & Hq). cbn [call_deps]. rewrite Ed.
    assert (Eapp : forall t, done ++ d1 :: t = (done ++ [d1]) ++ t) by (intros t; now rewrite <- app_assoc).
    destruct r1 as [q| |].
    + destruct (ssteps_with (sstep U n) ds ss1 w1) as [[[[[rs2 ds2] ss2] w2] l2]|] eqn:E2; [|discriminate].
      injection E as <- <- <- <- <-. rewrite Eapp in Hx1.
      destruct (IH (done ++ [d1]) f c vs1 ss1 w1 rs2 ds2 ss2 w2 l2) as (vs2 & rest2 & Ec & M1 & M2 & Hr2 & Hx2 & Hd2 & Ks2 & Kv2 & Hread);
        [congruence|exact Hr1|exact Hx1|exact E2|].
      rewrite app_length in Ec, Hread. cbn [length] in Ec, Hread. rewrite Nat.add_1_r in Ec, Hread. rewrite Ec.
      exists vs2, (d1 :: rest2). split; [reflexivity|]. split; [congruence|]. split; [congruence|]. split; [exact Hr2|].
      split; [rewrite Eapp; exact Hx2|]. split; [constructor; assumption|].
      split; [intros i Hi; rewrite Ks2 by exact Hi; auto|]. split; [intros i Hi; rewrite Kv2 by exact Hi; auto|].
      intros xs Exs. destruct rs2 as [xs2| |]; [|discriminate..]. injection Exs as <-. destruct (Hread xs2 eq_refl) as [Hl Hr].
      split; [cbn; congruence|]. cbn [read_deps read_refs map]. rewrite Hr. f_equal. clear Hr Hread IH.
      specialize (Hq q eq_refl). destruct q as [v b]. cbn [fst] in *.
      destruct d as [u|g o|y]; cbn [rel_dep] in Hd; cbn [read_dep]; subst d1; cbn [rel_dep] in Hd1.
      * subst s1. reflexivity.
      * subst s1. unfold dep_cache. rewrite Hx2. cbn [ndeps]. rewrite <- Eapp, nth_error_app2, Nat.sub_diag by lia. reflexivity.
      * destruct Hd1 as [-> Hy]. cbn [read_ref fst snd]. specialize (Hr2 y Hy). unfold rel_at in Hr2. unfold cache_of.
        destruct (nth_error ss2 y) as [l0|]; destruct (nth_error vs2 y) as [v0|]; try easy.
        -- destruct Hr2 as (ds0 & -> & _). destruct v; cbn; auto; destruct (ncache v0); reflexivity.
        -- destruct v; reflexivity.
    + injection E as <- <- <- <- <-. exists vs1, (d1 :: rest). split; [reflexivity|]. split; [exact L1|]. split; [exact L2|].
      split; [exact Hr1|]. split; [exact Hx1|]. split; [constructor; assumption|]. split; [exact Hks|]. split; [exact Hkv|]. intros xs Exs. discriminate Exs.
    + injection E as <- <- <- <- <-. exists vs1, (d1 :: rest). split; [reflexivity|]. split; [exact L1|]. split; [exact L2|].
      split; [exact Hr1|]. split; [exact Hx1|]. split; [constructor; assumption|]. split; [exact Hks|]. split; [exact Hkv|]. intros xs Exs. discriminate Exs.
Qed.

Lemma read_refs_flags ss ds : forall xs, map snd (read_refs (A := A) (fid := fid) (did := did) ss ds xs) = map snd xs.
Proof.
  induction ds as [|d ds IH]; intros xs; [destruct xs; reflexivity|]. destruct xs as [|[v b] xs]; [reflexivity|].
  cbn [read_refs map]. rewrite IH. f_equal. unfold read_ref. cbn [fst snd].
  destruct d as [u ch|g o es|x]; auto. destruct v; auto; destruct (nth_error ss x) as [[?|? [?|] ?|?]|]; reflexivity.
Qed.

Lemma existsb_map_snd (l : list (value * bool)) : existsb lr_is_changed l = existsb (fun b => b) (map snd l).
Proof. induction l as [|x l IH]; [reflexivity|]. cbn. now rewrite IH. Qed.

Lemma calls_rel n : forall x, call_rel n (S n) x.
Proof.
  induction n as [n IHn] using lt_wf_ind. intros x ss vs w s r s' ss' w' lg Hlen Hrel Hs E.
  pose proof (Hrel x (le_n x)) as Hx. unfold rel_at in Hx. rewrite Hs in Hx. destruct (nth_error vs x) as [v|] eqn:Hv; [|easy].
  destruct Hx as (ds & -> & Hds).
  assert (E' : match ssteps_with (sstep U n) ds ss w with
               | None => None
               | Some (Ok rs, deps', vs1, w1, l1) =>
                   let args := ctad_tuple (fun _ => None) rs in
                   let '(r, cache', w2, l2) := core U (FnUser (nfn v)) (ncache v) (read_refs vs1 deps' args) w1 in
                   Some (r, SCore (FnUser (nfn v)) cache' deps', vs1, w2, l1 ++ l2)
               | Some (Exc, deps', vs1, w1, l1) => Some (Exc, SCore (FnUser (nfn v)) (ncache v) deps', vs1, w1, l1)
               | Some (UB, deps', vs1, w1, l1) => Some (UB, SCore (FnUser (nfn v)) (ncache v) deps', vs1, w1, l1)
               end = Some (r, s', ss', w', lg)) by (rewrite <- E; destruct n; reflexivity).
  clear E. destruct (ssteps_with (sstep U n) ds ss w) as [[[[[rs ds'] ss1] w1] l1]|] eqn:Es; [|discriminate].
  destruct (deps_rel n n x) with (ds := ds) (rest := ndeps v) (done := @nil ndep) (f := nfn v) (c := ncache v) (vs := vs) (ss := ss) (w := w)
      (rs := rs) (ds' := ds') (ss' := ss1) (w' := w1) (lg := l1)
    as (vs1 & rest' & Ec & L1 & L2 & Hr1 & Hx1 & Hd1 & Ks & Kv & Hread); auto.
  { intros n' y -> Hy. apply IHn. lia. }
  { intros i Hi. apply Hrel. lia. }
  { rewrite Hv. now destruct v. }
  cbn [length app] in *. cbn [ncall]. rewrite Hv, Ec.
  assert (Hc1 : cache_of vs1 x = ncache v) by (unfold cache_of; now rewrite Hx1).
  assert (Hxl : x < length vs1) by (apply nth_error_Some; congruence).
  destruct rs as [rs| |].
  - destruct (Hread rs eq_refl) as [Hl Hrd]. rewrite ctad_none in E'. rewrite Hrd, Hc1. unfold core in E'.
    rewrite any_pure in E'. cbn [fst] in E'. rewrite existsb_map_snd, read_refs_flags, <- existsb_map_snd in E'.
    change (existsb lr_is_changed rs) with (existsb snd rs) in E'.
    destruct (negb (is_some (ncache v)) || existsb snd rs) eqn:Ech.
    + rewrite transform_pure in E'. cbn [fst] in E'. change (map lr_value (read_refs ss1 ds' rs)) with (map fst (read_refs ss1 ds' rs)) in E'.
      set (args := ctad_tuple as_tuple (map fst (read_refs ss1 ds' rs))) in *. change (body quiet_user (nfn v) args) with (quiet (sem U (nfn v) args)).
      rewrite (quiet_run (ncall quiet_user n)).
      cbn [call_fn] in E'. destruct (sem U (nfn v) args w1) as [fr w2] eqn:Ef. cbn [fst snd].
      destruct fr as [o|]; cbn [regularized] in E'.
      * set (res := match o with Some v => v | None => VVoid end) in *.
        assert (Er : regularized (FRet o) = VRet res) by (destruct o; reflexivity).
        assert (E2 : Some (Ok (res, opt_ne (aeq U) (ncache v) res), SCore (FnUser (nfn v)) (Some res) ds', ss1, w2,
                           l1 ++ [EvCall (nfn v) args] ++ match ncache v with None => [] | Some c => [EvCmp c res] end) =
                     Some (r, s', ss', w', lg)).
        { rewrite <- E'. unfold res. destruct o; reflexivity. }
        clear E'. injection E2 as <- <- <- <- <-. rewrite Hc1. unfold compare. cbn [quiet_user naeq app].
        unfold set_cache. rewrite Hx1. cbn [nfn ndeps]. do 2 eexists. split; [reflexivity|].
        split; [exact L1|]. split; [rewrite update_length; exact L2|].
        split; [intros i Hi; apply (rel_at_same i ss1 vs1); [reflexivity|now rewrite nth_update_other by lia|auto]|].
        split; [now rewrite nth_update_same by exact Hxl|]. split; [exists ds'; split; [reflexivity|exact Hd1]|].
        split; [exact Ks|]. intros i Hi. rewrite nth_update_other by lia. auto.
      * injection E' as <- <- <- <- <-. do 2 eexists. split; [reflexivity|]. split; [exact L1|]. split; [exact L2|]. split; [exact Hr1|].
        split; [exact Hx1|]. split; [exists ds'; split; [reflexivity|exact Hd1]|]. auto.
    + destruct (ncache v) as [c|] eqn:Hcv; [|discriminate]. injection E' as <- <- <- <- <-.
      do 2 eexists. split; [now rewrite app_nil_r|]. split; [exact L1|]. split; [exact L2|]. split; [exact Hr1|].
      split; [exact Hx1|]. split; [exists ds'; split; [reflexivity|exact Hd1]|]. auto.
  - injection E' as <- <- <- <- <-. do 2 eexists. split; [reflexivity|]. split; [exact L1|]. split; [exact L2|]. split; [exact Hr1|].
    split; [exact Hx1|]. split; [exists ds'; split; [reflexivity|exact Hd1]|]. auto.
  - injection E' as <- <- <- <- <-. do 2 eexists. split; [reflexivity|]. split; [exact L1|]. split; [exact L2|]. split; [exact Hr1|].
    split; [exact Hx1|]. split; [exists ds'; split; [reflexivity|exact Hd1]|]. auto.
Qed.

(** ** Programs *)
Definition rel (ss : list slz) (vs : list nvar) : Prop := length ss = length vs /\ forall i, rel_at i ss vs.

Lemma rel_weaken i j s (v : nvar) : i <= j -> rel_var i s v -> rel_var j s v.
Proof.
  intros Hij (ds & -> & Hd). exists ds. split; [reflexivity|]. induction Hd as [|a d ds l Ha Hd IH]; constructor; auto.
  destruct d as [u|g o|y]; cbn in *; auto. destruct Ha as [-> Hy]. split; [reflexivity|lia].
Qed.

Lemma rel_snoc ss vs s v : rel ss vs -> rel_var (length ss) s v -> rel (ss ++ [s]) (vs ++ [v]).
Proof.
  intros [Hl Hr] Hv. split; [rewrite !app_length; cbn; lia|]. intros i. unfold rel_at.
  destruct (Nat.lt_ge_cases i (length ss)) as [Hi|Hi].
  - rewrite !nth_error_app1 by lia. apply Hr.
  - rewrite !nth_error_app2 by lia. rewrite <- Hl. destruct (i - length ss) as [|k] eqn:Ek; cbn.
    + replace i with (length ss) by lia. exact Hv.
    + now destruct k.
Qed.

Lemma deps_made ss vs : rel ss vs -> forall specs ns ds, quiet_deps specs = Some ns -> sdeps_of U ss specs = Some ds ->
  Forall2 (rel_dep (length ss)) ds (map ndep_of ns).
Proof.
  intros Hr. induction specs as [|s specs IH]; intros ns ds E1 E2; cbn in E1, E2.
  - injection E1 as <-. injection E2 as <-. constructor.
  - destruct (quiet_dep s) as [d|] eqn:Ed; [|discriminate]. destruct (quiet_deps specs) as [ns'|]; [|discriminate]. injection E1 as <-.
    destruct (sdep_of U ss s) as [l|] eqn:El; [|discriminate]. destruct (sdeps_of U ss specs) as [ds'|]; [|discriminate]. injection E2 as <-.
    cbn [map]. constructor; [|now apply IH]. destruct s as [x|[x|g|v]]; cbn in Ed, El; try discriminate; injection Ed as <-; cbn.
    + destruct (nth_error ss x) eqn:Ex; [|discriminate]. injection El as <-. split; [reflexivity|]. apply nth_error_Some. congruence.
    + now injection El as <-.
    + now injection El as <-.
Qed.

Theorem programs_agree p : forall q ss vs w s outs m, quiet_program p = Some q -> rel ss vs ->
  srun U p (mkSState ss w) = Some (s, outs) -> length ss + length p < m ->
  exists vs', nrun quiet_user m q vs w = Some (vs', sworld s, outs) /\ rel (svars s) vs'.
Proof.
  induction p as [|o p IH]; intros q ss vs w s outs m Eq Hr E Hm; cbn [quiet_program srun] in Eq, E.
  - injection Eq as <-. injection E as <- <-. cbn. eauto.
  - destruct (quiet_op o) as [o'|] eqn:Eo; [|discriminate]. destruct (quiet_program p) as [q'|]; [|discriminate]. injection Eq as <-.
    destruct (sexec U o (mkSState ss w)) as [[[ss1 w1] out]|] eqn:Ex; [|discriminate].
    destruct (srun U p (mkSState ss1 w1)) as [[s2 outs2]|] eqn:E2; [|discriminate]. injection E as <- <-. cbn [length] in Hm.
    assert (Hstep : exists vs1, nexec quiet_user m o' vs w = Some (vs1, w1, out) /\ rel ss1 vs1 /\ length ss1 <= S (length ss)).
    { destruct o as [f specs|x|x|h]; cbn [quiet_op sexec svars sworld] in Eo, Ex.
      - destruct (quiet_deps specs) as [ns|] eqn:En; [|discriminate]. injection Eo as <-.
        destruct (sdeps_of U ss specs) as [ds|] eqn:Ed; [|discriminate]. injection Ex as <- <- <-.
        cbn [nexec]. eexists. split; [reflexivity|]. split; [|rewrite app_length; cbn; lia].
        apply rel_snoc; [exact Hr|]. exists ds. split; [reflexivity|]. cbn [new_var ndeps].
        exact (deps_made ss vs Hr specs ns ds En Ed).
      - injection Eo as <-. destruct (nth_error ss x) as [l|] eqn:El; [|discriminate]. injection Ex as <- <- <-. cbn [nexec].
        destruct Hr as [Hl Hr]. pose proof (Hr x) as Hx. unfold rel_at in Hx. rewrite El in Hx.
        destruct (nth_error vs x) as [v|]; [|easy]. eexists. split; [reflexivity|]. split; [|rewrite app_length; cbn; lia].
        apply rel_snoc; [split; auto|].
        eapply rel_weaken; [|exact Hx]. assert (x < length ss) by (apply nth_error_Some; congruence). lia.
      - injection Eo as <-. destruct (nth_error ss x) as [l|] eqn:El; [|discriminate].
        destruct (sstep U (length ss) l ss w) as [[[[[r l'] ss2] w2] lg]|] eqn:Es; [|discriminate]. injection Ex as <- <- <-.
        destruct Hr as [Hl Hr].
        destruct (calls_rel (length ss) x ss vs w l r l' ss2 w2 lg Hl) as (vs' & v' & Ec & L1 & L2 & Hr1 & Hv & Hrv & Ks & Kv); auto.
        cbn [nexec]. apply (ncall_mono _ (S (length ss)) m) in Ec; [|lia]. rewrite Ec. eexists. split; [reflexivity|].
        split; [|rewrite update_length; lia].
        split; [rewrite update_length; congruence|]. intros i. unfold rel_at.
        assert (Hxl : x < length ss) by (apply nth_error_Some; congruence).
        destruct (Nat.eq_dec x i) as [<-|Hne].
        + rewrite nth_update_same by lia. now rewrite Hv.
        + rewrite nth_update_other by exact Hne. destruct (Nat.lt_ge_cases i x) as [Hi|Hi]; [now apply Hr1|].
          apply (rel_at_same i ss vs); [apply Ks; lia|apply Kv; lia|apply Hr].
      - injection Eo as <-. injection Ex as <- <- <-. cbn. eauto. }
    destruct Hstep as (vs1 & En & Hr1 & Hl1). cbn [nrun]. rewrite En.
    destruct (IH q' ss1 vs1 w1 s2 outs2 m eq_refl Hr1 E2) as (vs' & Er & Hr'); [lia|]. rewrite Er. eauto.
Qed.

Theorem same_as_shared p q w s outs m : quiet_program p = Some q -> length p < m ->
  srun U p (mkSState [] w) = Some (s, outs) ->
  exists vs, nrun quiet_user m q [] w = Some (vs, sworld s, outs).
Proof.
  intros Eq Hm E. destruct (programs_agree p q [] [] w s outs m Eq) as (vs & Er & _); eauto.
  split; [reflexivity|]. now intros [|i].
Qed.
End Agree.
