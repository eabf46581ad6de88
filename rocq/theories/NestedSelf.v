(** Functions that come back to themselves (C73). *)
From Coq Require Import List Bool Arith Lia.
From Verif Require Import Value TupleAlg LazyModel LazySpec LazyProofs DocSpec NestedModel NestedSpec NestedThms NestedCalls.
Import ListNotations.

Section Circular.
Context {A W fid did : Type}.
Notation value := (val A).
Notation event := (event A fid did).
Notation script := (script A W).
Notation nvar := (nvar A fid did).
Notation nop := (nop A W fid did).
Notation def := (@def A fid did).
Notation caller := (nat -> list nvar -> W -> option (res (value * bool) * list nvar * W * list event)).
Variable U : nuser A W fid did.
Variable P : nat -> Prop.

(** Circular, and not computed. *)
Definition turning (vs : list nvar) : Prop :=
  circular (body U) (plain U) (defs_of vs) P /\ forall x v, P x -> nth_error vs x = Some v -> ncache v = None.

Lemma script_never call (s : script) : enters P s -> (forall x vs w, P x -> turning vs -> call x vs w = None) ->
  forall vs w, turning vs -> run_script (fid := fid) (did := did) call s vs w = None.
Proof.
  intros Hs Hc. induction Hs as [k Hk IH|h s Hs IH|x k Hx]; intros vs w Ht; cbn [run_script]; auto.
  now rewrite Hc.
Qed.

Lemma ncall_never n : forall x vs w, P x -> turning vs -> ncall U n x vs w = None.
Proof.
  induction n as [|n IH]; intros x vs w Hx Ht; [reflexivity|]. cbn [ncall]. destruct (nth_error vs x) as [v|] eqn:Hv; [|reflexivity].
  pose proof Ht as [Hc Hn]. specialize (Hn x v Hx Hv).
  assert (Hd : nth_error (defs_of vs) x = Some (nfn v, map spec_of (ndeps v)))
    by exact (map_nth_error (fun v : nvar => (nfn v, map spec_of (ndeps v))) x vs Hv).
  specialize (Hc _ _ _ Hx Hd). destruct (ndeps v) as [|[u|d o|y] rest] eqn:Edeps; cbn [map spec_of] in Hc.
  - cbn [call_deps]. unfold cache_of. rewrite Hv, Hn. cbn [is_some negb orb read_deps]. cbn [ctad_tuple].
    now rewrite (script_never (ncall U n) _ Hc IH) by exact Ht.
  - destruct Hc.
  - cbn [call_deps call_dep]. now rewrite (script_never (ncall U n) _ Hc IH) by exact Ht.
  - cbn [call_deps call_dep]. now rewrite IH by auto.
Qed.

Lemma cache_set_dep (vs : list nvar) x i c y : cache_of (set_dep_cache x i c vs) y = cache_of vs y.
Proof.
  unfold set_dep_cache. destruct (nth_error vs x) as [v|] eqn:Ev; auto.
  destruct (nth_error (ndeps v) i) as [[u|d o|z]|]; auto.
  unfold cache_of. destruct (Nat.eq_dec x y) as [->|Hne].
  - rewrite nth_update_same by (apply nth_error_Some; congruence). now rewrite Ev.
  - now rewrite nth_update_other by exact Hne.
Qed.

Definition keeps_turning (vs vs' : list nvar) : Prop := turning vs -> turning vs'.

Lemma turning_eq vs vs' : defs_of vs' = defs_of vs -> (forall y, P y -> cache_of vs' y = cache_of vs y) -> keeps_turning vs vs'.
Proof.
  intros E Ec [Hc Hn]. split; [now rewrite E|]. intros x v Hx Hv. specialize (Ec x Hx). unfold cache_of in Ec. rewrite Hv in Ec.
  destruct (nth_error vs x) as [u|] eqn:Hu; [|exact Ec]. rewrite Ec. eauto.
Qed.

Lemma ncall_turns n : forall x vs w r vs' w' lg, ncall U n x vs w = Some (r, vs', w', lg) -> keeps_turning vs vs'.
Proof.
  induction n as [|n IH]; intros x vs w r vs' w' lg E Ht; [discriminate|].
  assert (Hnot : ~ P x) by (intros Hx; rewrite (ncall_never (S n) x vs w Hx Ht) in E; discriminate).
  cbn [ncall] in E. destruct (nth_error vs x) as [v|]; [|discriminate].
  assert (Rdep : forall vs x i c, keeps_turning vs (set_dep_cache x i c vs)).
  { intros a b i c. apply turning_eq; [apply defs_set_dep|]. intros y _. apply cache_set_dep. }
  assert (Rrefl : forall vs, keeps_turning vs vs) by (intros a; exact (fun H => H)).
  assert (Rtrans : forall a b c, keeps_turning a b -> keeps_turning b c -> keeps_turning a c) by (unfold keeps_turning; auto).
  destruct (call_deps U (ncall U n) x 0 (ndeps v) vs w) as [[[[rs vs1] w1] l1]|] eqn:E1; [|discriminate].
  assert (H1 : turning vs1) by exact (deps_keep U _ Rrefl Rtrans Rdep (ncall U n) IH _ _ _ _ _ _ _ _ _ E1 Ht).
  destruct rs as [rs| |]; [|injection E as <- <- <- <-; exact H1..].
  destruct (negb (is_some (cache_of vs1 x)) || existsb snd rs).
  - destruct (run_script (ncall U n) (body U (nfn v) (ctad_tuple as_tuple (read_deps vs1 x 0 (ndeps v) rs))) vs1 w1)
      as [[[[r2 vs2] w2] l2]|] eqn:E2; [|discriminate].
    assert (H2 : turning vs2) by exact (script_keeps _ Rrefl Rtrans (ncall U n) IH _ _ _ _ _ _ _ E2 H1).
    destruct r2 as [c| |]; [|injection E as <- <- <- <-; exact H2..].
    destruct (compare U (cache_of vs2 x) c). injection E as <- <- <- <-.
    apply (turning_eq vs2); [apply defs_set_cache| |exact H2]. intros y Hy.
    unfold set_cache. destruct (nth_error vs2 x) as [v2|]; [|reflexivity]. unfold cache_of.
    destruct (Nat.eq_dec x y) as [->|Hne]; [|now rewrite nth_update_other by exact Hne].
    now destruct Hnot.
  - destruct (cache_of vs1 x); injection E as <- <- <- <-; exact H1.
Qed.

Lemma nexec_turns n o vs w vs' w' out : match o with PCopy _ => False | _ => True end ->
  nexec U n o vs w = Some (vs', w', out) -> circular (body U) (plain U) (defs_of vs') P -> turning vs -> turning vs'.
Proof.
  intros Ho E Hc Ht. destruct o as [f ss|x|x|h]; cbn [nexec] in E.
  - injection E as <- <- <-. split; [exact Hc|]. intros x v Hx Hv. destruct (Nat.lt_ge_cases x (length vs)) as [Hl|Hl].
    + rewrite nth_error_app1 in Hv by exact Hl. destruct Ht as [_ Hn]. eauto.
    + rewrite nth_error_app2 in Hv by exact Hl. destruct (x - length vs) as [|[|]]; [|discriminate..]. now injection Hv as <-.
  - destruct Ho.
  - destruct (ncall U n x vs w) as [[[[r vs1] w1] lg]|] eqn:Ec; [|discriminate]. injection E as <- <- <-. exact (ncall_turns _ _ _ _ _ _ _ _ Ec Ht).
  - injection E as <- <- <-. exact Ht.
Qed.

Lemma circular_prefix (ds more : list def) : circular (body U) (plain U) (ds ++ more) P -> circular (body U) (plain U) ds P.
Proof. intros H x f ss Hx Hd. apply (H x f ss Hx). rewrite nth_error_app1; [exact Hd|]. apply nth_error_Some. congruence. Qed.

Lemma definitions_app (p q : list nop) : forall ds : list def, definitions (p ++ q) ds = definitions q (definitions p ds).
Proof. induction p as [|o p IH]; intros ds; [reflexivity|]. destruct o; cbn [app definitions]; apply IH. Qed.

Lemma nrun_turns n p : Forall (fun o => match o with PCopy _ => False | _ => True end) p ->
  forall vs w vs' w' outs, nrun U n p vs w = Some (vs', w', outs) ->
  circular (body U) (plain U) (definitions p (defs_of vs)) P -> turning vs -> turning vs'.
Proof.
  induction 1 as [|o p Ho Hp IH]; intros vs w vs' w' outs E Hc Ht; cbn [nrun] in E; [now injection E as <- <- <-|].
  destruct (nexec U n o vs w) as [[[vs1 w1] out]|] eqn:E1; [|discriminate].
  destruct (nrun U n p vs1 w1) as [[[vs2 w2] outs2]|] eqn:E2; [|discriminate]. injection E as <- <- <-.
  assert (Ed : definitions (o :: p) (defs_of vs) = definitions p (defs_of vs1)).
  { rewrite (nexec_defs _ _ _ _ _ _ _ _ E1). destruct o; reflexivity. }
  rewrite Ed in Hc. eapply IH; [exact E2|exact Hc|]. eapply nexec_turns; [exact Ho|exact E1| |exact Ht].
  destruct (definitions_grow p (defs_of vs1)) as (more & Em). rewrite Em in Hc. eapply circular_prefix; exact Hc.
Qed.

Theorem never_returns p q x : Forall (fun o => match o with PCopy _ => False | _ => True end) p ->
  circular (body U) (plain U) (definitions p []) P -> P x ->
  forall n w, nrun U n (p ++ PCall x :: q) [] w = None.
Proof.
  intros Hp Hc Hx n w. rewrite nrun_app. destruct (nrun U n p [] w) as [[[vs1 w1] outs1]|] eqn:E1; [|reflexivity].
  assert (Ht : turning vs1).
  { eapply nrun_turns; [exact Hp|exact E1|exact Hc|]. split.
    - intros y f ss _ Hy. destruct y; discriminate.
    - intros y v _ Hy. destruct y; discriminate. }
  cbn [nrun nexec]. now rewrite ncall_never.
Qed.
End Circular.

(** ** The previous value *)
Section Previous.
Context {A W fid did : Type}.
Notation value := (val A).
Notation nvar := (nvar A fid did).
Variable U : nuser A W fid did.
Hypothesis Heq : forall a b, naeq U a b = true <-> a = b.
Variables (f : fid) (d : did) (first : W -> bool) (rd : W -> A) (init : A -> A) (next : A -> A -> A).
Hypothesis Hplain : plain U d = Look (fun w => Return (Some (VAtom (rd w)))).
Hypothesis Hbody : forall a, body U f [VAtom a] =
  Look (fun w => if first w then Return (Some (VAtom (init a)))
                 else CallLazy 0 (fun r => match r with
                                           | Some (Some (VAtom b)) => Return (Some (VAtom (next a b)))
                                           | _ => Throw
                                           end)).

Lemma refl a : naeq U a a = true. Proof. now apply Heq. Qed.

Lemma first_call n w : first w = true -> exists ch lg,
  ncall U (S n) 0 [new_var f [PFun d]] w =
  Some (Ok (VAtom (init (rd w)), ch), [mkVar f (Some (VAtom (init (rd w)))) [NFun d (Some (VAtom (rd w)))]], w, lg) /\
  function_calls lg = [(f, [VAtom (rd w)])].
Proof.
  intros Hw. cbn. rewrite Hplain. cbn. rewrite Hbody. cbn. rewrite Hw. cbn. eauto.
Qed.

Lemma same_call n w r : exists lg,
  ncall U (S n) 0 [mkVar f (Some r) [NFun d (Some (VAtom (rd w)))]] w =
  Some (Ok (r, false), [mkVar f (Some r) [NFun d (Some (VAtom (rd w)))]], w, lg) /\ function_calls lg = [].
Proof. cbn. rewrite Hplain. cbn. rewrite refl. cbn. eauto. Qed.

Lemma next_call n w a r : first w = false -> naeq U a (rd w) = false -> exists ch lg,
  ncall U (S (S n)) 0 [mkVar f (Some (VAtom r)) [NFun d (Some (VAtom a))]] w =
  Some (Ok (VAtom (next (rd w) r), ch), [mkVar f (Some (VAtom (next (rd w) r))) [NFun d (Some (VAtom (rd w)))]], w, lg) /\
  function_calls lg = [(f, [VAtom (rd w)])].
Proof.
  intros Hw Ha. remember (S n) as m eqn:Em. cbn. rewrite Hplain. cbn. rewrite Ha. cbn. rewrite Hbody. cbn. rewrite Hw. subst m.
  cbn -[ncall]. destruct (same_call n w (VAtom r)) as (lg & E & Hlg). rewrite E. cbn.
  do 2 eexists. split; [reflexivity|]. rewrite app_nil_r.
  change ((f, [VAtom (rd w)]) :: function_calls (lg ++ [EvCmp (VAtom r) (VAtom (next (rd w) r))]) = [(f, [VAtom (rd w)])]).
  now rewrite fc_app, Hlg.
Qed.

Notation history := (history (naeq U) rd next).
Notation news := (news (naeq U) rd).
Notation visits := (@visits A W fid did).

Lemma visits_run n ws : Forall (fun w => first w = false) ws -> forall a r w0, exists vs w' outs,
  nrun U (S (S n)) (visits ws) [mkVar f (Some (VAtom r)) [NFun d (Some (VAtom a))]] w0 = Some (vs, w', outs) /\
  results outs = map (fun b => Ok (Some (VAtom b))) (history a r ws) /\
  function_calls (concat (map snd outs)) = map (fun b => (f, [VAtom b])) (news a ws).
Proof.
  induction 1 as [|w ws Hw Hws IH]; intros a r w0.
  - cbn. eauto 6.
  - unfold NestedSpec.visits. cbn [flat_map app nrun nexec NestedSpec.history NestedSpec.news]. fold (visits ws).
    destruct (naeq U a (rd w)) eqn:Ea.
    + apply Heq in Ea. subst a. destruct (same_call (S n) w (VAtom r)) as (lg & E & Hlg). rewrite E.
      destruct (IH (rd w) r w) as (vs & w' & outs & E2 & Hr & Hc). rewrite E2. do 3 eexists. split; [reflexivity|].
      unfold results in *. cbn [flat_map fst snd api_result map app concat]. split; [now rewrite Hr|].
      now rewrite fc_app, Hlg, Hc.
    + destruct (next_call n w a r Hw Ea) as (ch & lg & E & Hlg). rewrite E.
      destruct (IH (rd w) (next (rd w) r) w) as (vs & w' & outs & E2 & Hr & Hc). rewrite E2. do 3 eexists. split; [reflexivity|].
      unfold results in *. cbn [flat_map fst snd api_result map app concat]. split; [now rewrite Hr|].
      now rewrite fc_app, Hlg, Hc.
Qed.

Theorem previous_values n w0 ws wz : first w0 = true -> Forall (fun w => first w = false) ws -> 2 <= n ->
  exists vs w' outs,
  nrun U n (PNew f [PFun d] :: visits (w0 :: ws)) [] wz = Some (vs, w', outs) /\
  results outs = map (fun b => Ok (Some (VAtom b))) (init (rd w0) :: history (rd w0) (init (rd w0)) ws) /\
  function_calls (concat (map snd outs)) = map (fun b => (f, [VAtom b])) (rd w0 :: news (rd w0) ws).
Proof.
  intros H0 Hws Hn. destruct n as [|[|n]]; [lia|lia|]. unfold NestedSpec.visits. cbn [flat_map app nrun nexec]. fold (visits ws).
  destruct (first_call (S n) w0 H0) as (ch & lg & E & Hlg). cbn [app]. rewrite E.
  destruct (visits_run n ws Hws (rd w0) (init (rd w0)) w0) as (vs & w' & outs & E2 & Hr & Hc). rewrite E2.
  do 3 eexists. split; [reflexivity|]. unfold results in *. cbn [flat_map fst snd api_result map app concat]. split; [now rewrite Hr|].
  now rewrite fc_app, Hlg, Hc.
Qed.
End Previous.

(** ** Recursion *)
Section Recursion.
Context {A W fid did : Type}.
Notation value := (val A).
Notation event := (event A fid did).
Variable U : nuser A W fid did.
Variables (f : fid) (stop : W -> bool) (base : W -> A) (down : W -> W) (next : A -> A).
Hypothesis Hbody : body U f [] =
  Look (fun w => if stop w then Return (Some (VAtom (base w)))
                 else Act down (CallLazy 0 (fun r => match r with
                                                     | Some (Some (VAtom b)) => Return (Some (VAtom (next b)))
                                                     | _ => Throw
                                                     end))).

(** The value at depth [j], counted from the end. *)
Notation level b j := (VAtom (Nat.iter j next b)).

Lemma recursion_call k : forall w, stop (descend down k w) = true -> (forall j, j < k -> stop (descend down j w) = false) ->
  (forall n, n <= k -> ncall U n 0 [mkVar f None []] w = None) /\
  (forall n, k < n -> exists ch, ncall U n 0 [mkVar f None []] w =
     Some (Ok (level (base (descend down k w)) k, ch), [mkVar f (Some (level (base (descend down k w)) k)) []], descend down k w,
           repeat (EvCall f []) (S k) ++ map (fun j => EvCmp (level (base (descend down k w)) j) (level (base (descend down k w)) (S j))) (seq 0 k))).
Proof.
  induction k as [|k IH]; intros w Hstop Hgo.
  - cbn [descend] in *. split.
    + intros [|n] Hn; [reflexivity|lia].
    + intros [|n] Hn; [lia|]. cbn. rewrite Hbody. cbn. rewrite Hstop. cbn. eauto.
  - cbn [descend] in *. assert (H0 : stop w = false) by (apply (Hgo 0); lia).
    destruct (IH (down w)) as [IH1 IH2]; [exact Hstop|intros j Hj; apply (Hgo (S j)); lia|]. split.
    + intros [|n] Hn; [reflexivity|]. cbn. rewrite Hbody. cbn. rewrite H0. cbn. rewrite IH1 by lia. reflexivity.
    + intros [|n] Hn; [lia|]. destruct (IH2 n) as (ch & E); [lia|]. cbn -[repeat seq Nat.iter]. rewrite Hbody. cbn -[repeat seq Nat.iter]. rewrite H0.
      cbn -[repeat seq Nat.iter]. rewrite E. cbn -[repeat seq Nat.iter]. eexists. rewrite app_nil_r, seq_S, map_app. cbn [map Nat.add].
      rewrite app_assoc. reflexivity.
Qed.

Theorem recursion k w h : stop (descend down k w) = true -> (forall j, j < k -> stop (descend down j w) = false) ->
  let b := base (descend down k w) in
  (forall n, n <= k -> nrun U n [PNew f []; PCall 0; PEnv h; PCall 0] [] w = None) /\
  (forall n, k < n -> exists vs, nrun U n [PNew f []; PCall 0; PEnv h; PCall 0] [] w =
     Some (vs, h (descend down k w),
       [(None, []);
        (Some (Ok (Some (level b k))),
         repeat (EvCall f []) (S k) ++ map (fun j => EvCmp (level b j) (level b (S j))) (seq 0 k));
        (None, []);
        (Some (Ok (Some (level b k))), [])])).
Proof.
  intros Hstop Hgo b. destruct (recursion_call k w Hstop Hgo) as [H1 H2]. split; intros n Hn.
  - cbn [nrun nexec app]. unfold new_var. cbn [map]. now rewrite H1.
  - cbn [nrun nexec app]. unfold new_var. cbn [map]. destruct (H2 n Hn) as (ch & E). rewrite E. cbn [api_result].
    destruct n as [|n]; [lia|]. eexists. reflexivity.
Qed.
End Recursion.

(** ** Recursion through dependencies *)
Section Dependency.
Context {A W fid did : Type}.
Notation value := (val A).
Variable U : nuser A W fid did.
Hypothesis Heq : forall a b, naeq U a b = true <-> a = b.
Variables (f : fid) (d : did) (stop : W -> bool) (base : W -> A) (down : W -> W) (next F : A -> A).
Hypothesis Hplain : plain U d =
  Look (fun w => if stop w then Return (Some (VAtom (base w)))
                 else Act down (CallLazy 0 (fun r => match r with
                                                     | Some (Some (VAtom b)) => Return (Some (VAtom (next b)))
                                                     | _ => Throw
                                                     end))).
Hypothesis Hbody : forall a, body U f [VAtom a] = Return (Some (VAtom (F a))).

Notation arg b j := (Nat.iter j (fun a => next (F a)) b).

Lemma dependency_call k : forall w, stop (descend down k w) = true -> (forall j, j < k -> stop (descend down j w) = false) ->
  let b := base (descend down k w) in
  forall n, k < n -> exists ch lg, ncall U n 0 [mkVar f None [NFun d None]] w =
     Some (Ok (VAtom (F (arg b k)), ch), [mkVar f (Some (VAtom (F (arg b k)))) [NFun d (Some (VAtom (arg b k)))]], descend down k w, lg) /\
     function_calls lg =
       map (fun a => (f, [VAtom a])) (b :: flat_map (fun j => if naeq U (arg b j) (arg b (S j)) then [] else [arg b (S j)]) (seq 0 k)).
Proof.
  induction k as [|k IH]; intros w Hstop Hgo; cbn [descend] in *.
  - intros [|n] Hn; [lia|]. cbn. rewrite Hplain. cbn. rewrite Hstop. cbn. rewrite Hbody. cbn. eauto.
  - assert (H0 : stop w = false) by (apply (Hgo 0); lia).
    specialize (IH (down w) Hstop (fun j Hj => Hgo (S j) ltac:(lia))). cbn zeta in IH.
    set (b := base (descend down k (down w))) in *.
    intros [|n] Hn; [lia|]. destruct (IH n ltac:(lia)) as (ch & lg & E & Hlg).
    cbn -[seq Nat.iter]. rewrite Hplain. cbn -[seq Nat.iter]. rewrite H0. cbn -[seq Nat.iter]. rewrite E. cbn -[seq Nat.iter].
    rewrite seq_S, flat_map_app. cbn [flat_map Nat.add].
    change (next (F (arg b k))) with (arg b (S k)).
    destruct (naeq U (arg b k) (arg b (S k))) eqn:Ea; cbn -[seq Nat.iter].
    + apply Heq in Ea. rewrite <- Ea. do 2 eexists. split; [reflexivity|].
      match goal with |- function_calls (EvSample d :: ?l) = _ => change (function_calls (EvSample d :: l)) with (function_calls l) end.
      rewrite !fc_app, Hlg. cbn [map]. rewrite !app_nil_r. reflexivity.
    + rewrite Hbody. cbn -[seq Nat.iter]. do 2 eexists. split; [reflexivity|].
      match goal with |- function_calls (EvSample d :: ?l) = _ => change (function_calls (EvSample d :: l)) with (function_calls l) end.
      rewrite !fc_app, Hlg. cbn [map]. rewrite !map_app, !app_nil_r. reflexivity.
Qed.

Theorem dependency k w : stop (descend down k w) = true -> (forall j, j < k -> stop (descend down j w) = false) ->
  let b := base (descend down k w) in
  forall n, k < n -> exists vs outs, nrun U n [PNew f [PFun d]; PCall 0] [] w = Some (vs, descend down k w, outs) /\
    results outs = [Ok (Some (VAtom (F (arg b k))))] /\
    function_calls (concat (map snd outs)) =
      map (fun a => (f, [VAtom a])) (b :: flat_map (fun j => if naeq U (arg b j) (arg b (S j)) then [] else [arg b (S j)]) (seq 0 k)).
Proof.
  intros Hs Hg b n Hn. destruct (dependency_call k w Hs Hg n Hn) as (ch & lg & E & Hlg). cbn [nrun nexec app]. unfold new_var. cbn [map ndep_of].
  rewrite E. do 2 eexists. split; [reflexivity|]. split; [reflexivity|]. cbn [map snd concat app]. rewrite app_nil_r. exact Hlg.
Qed.
End Dependency.

Section Latest.
Context {A W fid did : Type}.
Notation value := (val A).
Variable U : nuser A W fid did.
Hypothesis Heq : forall a b, naeq U a b = true <-> a = b.
Variables (f : fid) (d1 d2 : did) (stop : W -> bool) (down : W -> W) (rd1 rd2 : W -> A) (F : A -> A -> A).
Hypothesis Hplain1 : plain U d1 = Look (fun w => Return (Some (VAtom (rd1 w)))).
Hypothesis Hplain2 : plain U d2 =
  Look (fun w => if stop w then Return (Some (VAtom (rd2 w)))
                 else Act down (CallLazy 0 (fun _ => Look (fun w' => Return (Some (VAtom (rd2 w'))))))).
Hypothesis Hbody : forall a b, body U f [VAtom a; VAtom b] = Return (Some (VAtom (F a b))).

Lemma latest_call k : forall w o, stop (descend down k w) = true -> (forall j, j < k -> stop (descend down j w) = false) ->
  let w' := descend down k w in
  forall n, k < n -> exists ch lg, ncall U n 0 [mkVar f None [NFun d1 o; NFun d2 None]] w =
     Some (Ok (VAtom (F (rd1 w') (rd2 w')), ch),
           [mkVar f (Some (VAtom (F (rd1 w') (rd2 w')))) [NFun d1 (Some (VAtom (rd1 w'))); NFun d2 (Some (VAtom (rd2 w')))]], w', lg).
Proof.
  induction k as [|k IH]; intros w o Hstop Hgo; cbn [descend] in *.
  - intros [|n] Hn; [lia|]. cbn. rewrite Hplain1. cbn. rewrite Hplain2. cbn. rewrite Hstop. cbn. rewrite Hbody. cbn. do 2 eexists; reflexivity.
  - assert (H0 : stop w = false) by (apply (Hgo 0); lia).
    specialize (IH (down w) (Some (VAtom (rd1 w))) Hstop (fun j Hj => Hgo (S j) ltac:(lia))). cbn zeta in IH.
    set (w' := descend down k (down w)) in *.
    intros [|n] Hn; [lia|]. destruct (IH n ltac:(lia)) as (ch & lg & E).
    cbn. rewrite Hplain1. cbn. rewrite Hplain2. cbn. rewrite H0. cbn. rewrite E. cbn.
    rewrite (proj2 (Heq (rd2 w') (rd2 w')) eq_refl). cbn. rewrite orb_false_r.
    match goal with |- exists _ _, (if ?c then _ else _) = _ => destruct c end; [|do 2 eexists; reflexivity].
    rewrite Hbody. cbn. do 2 eexists; reflexivity.
Qed.

Theorem latest k w : stop (descend down k w) = true -> (forall j, j < k -> stop (descend down j w) = false) ->
  forall n, k < n -> exists vs outs, nrun U n [PNew f [PFun d1; PFun d2]; PCall 0] [] w = Some (vs, descend down k w, outs) /\
    results outs = [Ok (Some (VAtom (F (rd1 (descend down k w)) (rd2 (descend down k w)))))].
Proof.
  intros Hs Hg n Hn. destruct (latest_call k w None Hs Hg n Hn) as (ch & lg & E). cbn [nrun nexec app]. unfold new_var. cbn [map ndep_of].
  rewrite E. do 2 eexists. split; reflexivity.
Qed.
End Latest.
