(** Proofs about other ways to find the results of a program (C90). *)
From Coq Require Import List Bool Arith Lia.
From Verif Require Import Value LazyModel LazySpec LazyProofs LazyThms StreamThms LazyExamples CoarseThms FewestSpec.
Import ListNotations.

Section Proofs.
Context {A W fid did : Type}.
Notation value := (val A).
Notation pfun := (fid -> list value -> option value).
Notation rfun := (did -> W -> value).

(** All applications in the evaluation of an expression, and all plain functions in it. *)
Fixpoint apps (pf : pfun) (rd : rfun) (e : expr A fid did) (w : W) : list (fid * list value) :=
  match e with
  | EConst _ | EFun _ => []
  | EApp f es => flat_map (fun e => apps pf rd e w) es ++ [(f, map (fun e => eval pf rd e w) es)]
  end.
Fixpoint funs (e : expr A fid did) : list did :=
  match e with
  | EConst _ => []
  | EFun d => [d]
  | EApp _ es => flat_map funs es
  end.

Lemma follow_agrees (pf pf' : pfun) (rd rd' : rfun) (s : strategy A W fid did) :
  (forall f xs, In (f, xs) (asked pf rd s) -> pf' f xs = pf f xs) ->
  (forall d w, In (d, w) (read pf rd s) -> rd' d w = rd d w) -> follow pf' rd' s = follow pf rd s.
Proof.
  unfold asked, read. induction s as [vals|f args next IH|d w next IH]; intros H H'; cbn; [reflexivity| |].
  - cbn in H, H'. rewrite H.
    + rewrite IH; [reflexivity| |]; destruct (follow pf rd (next (pf f args))) as [[v a] r]; cbn in *; auto.
    + destruct (follow pf rd (next (pf f args))) as [[v a] r]. now left.
  - cbn in H, H'. rewrite H'.
    + rewrite IH; [reflexivity| |]; destruct (follow pf rd (next (rd d w))) as [[v a] r]; cbn in *; auto.
    + destruct (follow pf rd (next (rd d w))) as [[v a] r]. now left.
Qed.

Section Adversary.
Variables (pf pf' : pfun) (rd rd' : rfun).
Variable ask : fid -> list value -> bool.
Variable see : did -> W -> bool.
Variable a : A.
Hypothesis Hyes : forall f xs, ask f xs = true -> pf' f xs = pf f xs.
Hypothesis Hno : forall f xs, ask f xs = false -> pf' f xs = Some (VAtom a).
Hypothesis Syes : forall d w, see d w = true -> rd' d w = rd d w.
Hypothesis Sno : forall d w, see d w = false -> rd' d w = VAtom a.
Hypothesis Hfresh : forall f xs, ask f xs = true -> ~ In (VAtom a) xs.

Lemma taint w e :
  (eval pf' rd' e w = eval pf rd e w /\ (forall f xs, In (f, xs) (apps pf rd e w) -> ask f xs = true) /\
   (forall d, In d (funs e) -> see d w = true)) \/ eval pf' rd' e w = VAtom a.
Proof.
  induction e as [v|d|f es IH] using expr_ind_deps.
  - left. split; [reflexivity|]. split; contradiction.
  - cbn. destruct (see d w) eqn:Es.
    + left. split; [now apply Syes|]. split; [contradiction|]. intros d' [<-|[]]. exact Es.
    + right. now apply Sno.
  - assert (K : (map (fun e => eval pf' rd' e w) es = map (fun e => eval pf rd e w) es /\
                 (forall f xs, In (f, xs) (flat_map (fun e => apps pf rd e w) es) -> ask f xs = true) /\
                 (forall d, In d (flat_map funs es) -> see d w = true)) \/
                In (VAtom a) (map (fun e => eval pf' rd' e w) es)).
    { induction IH as [|e es He Hes IHes]; [left; split; [reflexivity|split; contradiction]|]. cbn. destruct He as [(He & Ha & Hd)|He].
      - destruct IHes as [(K1 & K2 & K3)|K]; [|right; now right]. left. split; [now rewrite He, K1|]. split.
        + intros g ys Hin. apply in_app_or in Hin as [Hin|Hin]; auto.
        + intros d Hin. apply in_app_or in Hin as [Hin|Hin]; auto.
      - right. now left. }
    cbn [eval apps funs]. unfold fval. destruct K as [(K1 & K2 & K3)|K].
    + rewrite K1. destruct (ask f (map (fun e => eval pf rd e w) es)) eqn:Ea.
      * left. rewrite (Hyes _ _ Ea). split; [reflexivity|]. split; [|exact K3].
        intros g ys Hin. apply in_app_or in Hin as [Hin|[Hin|[]]]; [auto|]. injection Hin as <- <-. exact Ea.
      * right. now rewrite (Hno _ _ Ea).
    + right. destruct (ask f (map (fun e => eval pf' rd' e w) es)) eqn:Ea; [now apply Hfresh in Ea|]. now rewrite (Hno _ _ Ea).
Qed.

Lemma taint_run eqb p : 
  (forall e f xs w, In (EvCall f xs) (expected pf rd eqb e w) -> In (f, xs) (apps pf rd (erase e) w)) ->
  (forall e d w, In (EvSample d) (expected pf rd eqb e w) -> In d (funs (erase e))) ->
  forall ts w es vals es' vals' ts' outs,
  eager pf rd p (map erase ts) w = Some (es, vals) -> eager pf' rd' p (map erase ts) w = Some (es', vals') -> vals' = vals ->
  ~ In (Some (VAtom a)) vals -> tracked_run pf rd eqb p ts w = Some (ts', outs) ->
  Forall2 (fun w' o => (forall f xs, In (f, xs) (calls_in (snd o)) -> ask f xs = true) /\
                       (forall d, In (EvSample d) (snd o) -> see d w' = true)) (worlds_of p w) outs.
Proof.
  intros Hexp Hsam. induction p as [|o p IH]; intros ts w es vals es' vals' ts' outs E1 E2 Hv Hnot Et.
  - cbn in Et. injection Et as <- <-. constructor.
  - destruct o as [f ss|x|x|h]; cbn in E1, E2, Et.
    + rewrite spec_deps_erase in E1, E2. destruct (spec_deps TConst (fun d => TFun d None) ts ss) as [ts1|]; [|discriminate].
      cbn in E1, E2. destruct (tracked_run pf rd eqb p (ts ++ [TApp f None ts1]) w) as [[ts2 outs2]|] eqn:Et2; [|discriminate].
      injection Et as <- <-. constructor; [split; contradiction|].
      replace (map erase ts ++ [EApp f (map erase ts1)]) with (map erase (ts ++ [TApp f None ts1])) in E1, E2 by (now rewrite map_app).
      exact (IH _ _ _ _ _ _ _ _ E1 E2 Hv Hnot Et2).
    + rewrite nth_error_map in E1, E2. destruct (nth_error ts x) as [t|]; [|discriminate]. cbn in E1, E2.
      destruct (tracked_run pf rd eqb p (ts ++ [t]) w) as [[ts2 outs2]|] eqn:Et2; [|discriminate].
      injection Et as <- <-. constructor; [split; contradiction|].
      replace (map erase ts ++ [erase t]) with (map erase (ts ++ [t])) in E1, E2 by (now rewrite map_app).
      exact (IH _ _ _ _ _ _ _ _ E1 E2 Hv Hnot Et2).
    + rewrite nth_error_map in E1, E2. destruct (nth_error ts x) as [t|] eqn:Ex; [|discriminate]. cbn in E1, E2.
      destruct (eager pf rd p (map erase ts) w) as [[es1 vals1]|] eqn:E3; [|discriminate].
      destruct (eager pf' rd' p (map erase ts) w) as [[es2 vals2]|] eqn:E4; [|discriminate].
      injection E1 as <- <-. injection E2 as <- <-. injection Hv as Hv1 Hv2.
      destruct (tracked_run pf rd eqb p (update x (touch w t) ts) w) as [[ts2 outs2]|] eqn:Et2; [|discriminate].
      injection Et as <- <-. constructor.
      * cbn. destruct (taint w (erase t)) as [(_ & K1 & K2)|K].
        -- split.
           ++ intros g ys Hin. apply K1. apply Hexp. unfold calls_in in Hin. apply in_flat_map in Hin as (e & He & Hi).
              destruct e; cbn in Hi; try contradiction. destruct Hi as [Hi|[]]. injection Hi as -> ->. exact He.
           ++ intros d Hin. apply K2. exact (Hsam _ _ _ Hin).
        -- exfalso. apply Hnot. left. rewrite <- Hv1, K. reflexivity.
      * assert (Eu : map erase (update x (touch w t) ts) = map erase ts).
        { clear -Ex. revert x Ex. induction ts as [|t1 ts IHt]; intros [|x] Ex; cbn in *; try discriminate.
          - injection Ex as ->. now rewrite erase_touch.
          - now rewrite IHt. }
        rewrite <- Eu in E3, E4. refine (IH _ _ _ _ _ _ _ _ E3 E4 Hv2 _ Et2). intros Hi. apply Hnot. now right.
    + destruct (tracked_run pf rd eqb p ts (h w)) as [[ts2 outs2]|] eqn:Et2; [|discriminate].
      injection Et as <- <-. constructor; [split; contradiction|]. exact (IH _ _ _ _ _ _ _ _ E1 E2 Hv Hnot Et2).
Qed.
End Adversary.

Lemma expected_apps pf rd eqb t : forall w f xs, In (EvCall f xs) (expected pf rd eqb t w) -> In (f, xs) (apps pf rd (erase t) w).
Proof.
  induction t as [v|d last|g last ts IH] using tracked_ind'; intros w f xs Hin; cbn in Hin.
  - contradiction.
  - destruct Hin as [Hin|Hin]; [discriminate|]. unfold compare_last in Hin. cbn in Hin. destruct last; [destruct Hin as [Hin|[]]; discriminate|contradiction].
  - cbn [erase apps]. apply in_or_app. apply in_app_or in Hin as [Hin|Hin].
    + left. apply in_flat_map in Hin as (t & Ht & Hi). rewrite Forall_forall in IH. apply in_flat_map. exists (erase t).
      split; [now apply in_map|now apply IH].
    + right. destruct (match last with None => true | Some _ => _ end); [|contradiction].
      destruct Hin as [Hin|Hin].
      * injection Hin as <- <-. left. now rewrite map_map.
      * unfold compare_last in Hin. cbn in Hin. destruct last; [destruct Hin as [Hin|[]]; discriminate|contradiction].
Qed.
Lemma expected_funs pf rd eqb (t : tracked A W fid did) : forall w d, In (EvSample d) (expected pf rd eqb t w) -> In d (funs (erase t)).
Proof.
  induction t as [v|d0 last|g last ts IH] using tracked_ind'; intros w d Hin; cbn in Hin.
  - contradiction.
  - destruct Hin as [Hin|Hin]; [injection Hin as ->; now left|]. unfold compare_last in Hin. cbn in Hin. destruct last; [destruct Hin as [Hin|[]]; discriminate|contradiction].
  - cbn [erase funs]. apply in_app_or in Hin as [Hin|Hin].
    + apply in_flat_map in Hin as (t & Ht & Hi). rewrite Forall_forall in IH. apply in_flat_map. exists (erase t).
      split; [now apply in_map|]. exact (IH t Ht _ _ Hi).
    + destruct (match last with None => true | Some _ => _ end); [|contradiction].
      destruct Hin as [Hin|Hin]; [discriminate|].
      unfold compare_last in Hin. cbn in Hin. destruct last; [destruct Hin as [Hin|[]]; discriminate|contradiction].
Qed.

Lemma eager_some (pf pf' : pfun) (rd rd' : rfun) p : forall es w r, eager pf rd p es w = Some r -> exists vals, eager pf' rd' p es w = Some (fst r, vals).
Proof.
  induction p as [|o p IH]; intros es w r E; cbn in E |- *.
  - injection E as <-. eauto.
  - destruct o as [f ss|x|x|h].
    + destruct (spec_deps EConst EFun es ss); [|discriminate]. eauto.
    + destruct (nth_error es x); [|discriminate]. eauto.
    + destruct (nth_error es x) as [e|]; [|discriminate]. destruct (eager pf rd p es w) as [[es1 v1]|] eqn:E1; [|discriminate].
      injection E as <-. destruct (IH _ _ _ E1) as (vals & ->). cbn. eauto.
    + eauto.
Qed.

Definition atoms_of (l : list value) : list A := flat_map (fun v => match v with VAtom a => [a] | _ => [] end) l.
Lemma atoms_of_in a l : In (VAtom a) l -> In a (atoms_of l).
Proof. intros H. apply in_flat_map. exists (VAtom a). split; [exact H|now left]. Qed.

Lemma main (U : user A W fid did) pf rd p w es vals s strat see :
  (forall f g : fid, {f = g} + {f <> g}) -> (forall l : list A, exists a, ~ In a l) ->
  pure_user U pf rd -> exact_eq U -> plain_results pf ->
  eager pf rd p [] w = Some (es, vals) -> Forall (regular pf rd) es -> Forall (never_null pf rd) es ->
  (forall d w, In (d, w) (read pf rd strat) -> see d w = true) ->
  (forall a : A, correct_for (fun d w => if see d w then rd d w else VAtom a) p w strat) -> correct_for rd p w strat ->
  forall outs, run U p (mkState [] w) = Some (s, outs) ->
  Forall2 (fun w' o => incl (calls_in (snd o)) (asked pf rd strat) /\ (forall d, In (EvSample d) (snd o) -> see d w' = true)) (worlds_of p w) outs.
Proof.
  intros fdec Hinf Hp Hex Hpl He Hr Hn Hsee Hc' Hc outs Erun.
  destruct (exact_effects U pf rd Hp Hex p w es vals He Hr Hn) as (s0 & ts & outs0 & Erun0 & Et).
  assert (outs0 = outs) as -> by congruence. clear Erun0 Erun.
  set (L := asked pf rd strat) in *.
  destruct (Hinf (flat_map (fun c => atoms_of (snd c)) L ++ atoms_of (flat_map (fun o => match o with Some v => [v] | None => [] end) vals))) as (a & Ha).
  specialize (Hc' a).
  set (ask := fun f xs => existsb (fun c => (if fdec (fst c) f then true else false) && veq (aeq U) (VTuple (snd c)) (VTuple xs)) L).
  assert (Hasked : forall f xs, ask f xs = true <-> In (f, xs) L).
  { intros f xs. unfold ask. rewrite existsb_exists. split.
    - intros ((g & ys) & Hin & K). apply andb_true_iff in K as [K1 K2]. cbn [fst snd] in K1, K2. destruct (fdec g f) as [->|]; [|discriminate].
      apply (veq_exact (aeq U) Hex) in K2. injection K2 as ->. exact Hin.
    - intros Hin. exists (f, xs). split; [exact Hin|]. cbn [fst snd]. destruct (fdec f f); [|congruence]. now apply (veq_exact (aeq U) Hex). }
  set (pf' := fun f xs => if ask f xs then pf f xs else Some (VAtom a)).
  set (rd' := fun d w => if see d w then rd d w else VAtom a) in *.
  assert (Hpl' : plain_results pf').
  { intros f xs. unfold pf'. destruct (ask f xs); [apply Hpl|eauto]. }
  destruct (eager_some pf pf' rd rd' p [] w _ He) as (vals' & He'). cbn in He'.
  assert (Hf : follow pf' rd' strat = follow pf rd strat).
  { apply follow_agrees.
    - intros f xs Hin. unfold pf'. apply Hasked in Hin. now rewrite Hin.
    - intros d w0 Hin. unfold rd'. now rewrite (Hsee _ _ Hin). }
  assert (Hv : vals' = vals).
  { rewrite <- (Hc' pf' _ _ Hpl' He'), <- (Hc pf _ _ Hpl He). unfold found. now rewrite Hf. }
  refine (_ (taint_run pf pf' rd rd' ask see a _ _ _ _ _ (veq (aeq U)) p _ _ [] w es vals es vals' ts outs He He' Hv _ Et)).
  - intros K. clear -K Hasked. induction K as [|x y l l' [K1 K2] K IH]; [constructor|]. constructor; [|exact IH]. split; [|exact K2].
    intros [f xs] Hin. apply Hasked. now apply K1.
  - intros g ys E. unfold pf'. now rewrite E.
  - intros g ys E. unfold pf'. now rewrite E.
  - intros d w0 E. unfold rd'. now rewrite E.
  - intros d w0 E. unfold rd'. now rewrite E.
  - intros g ys E Hi. apply Hasked in E. apply Ha. apply in_or_app. left. apply in_flat_map. exists (g, ys). split; [exact E|]. now apply atoms_of_in.
  - intros e g ys w0. apply expected_apps.
  - intros e d w0. apply expected_funs.
  - intros Hi. apply Ha. apply in_or_app. right. apply atoms_of_in. apply in_flat_map. exists (Some (VAtom a)). split; [exact Hi|now left].
Qed.

Theorem all_needed (U : user A W fid did) pf rd p w es vals s strat :
  (forall f g : fid, {f = g} + {f <> g}) -> (forall l : list A, exists a, ~ In a l) ->
  pure_user U pf rd -> exact_eq U -> plain_results pf ->
  eager pf rd p [] w = Some (es, vals) -> Forall (regular pf rd) es -> Forall (never_null pf rd) es ->
  correct_for rd p w strat ->
  forall outs, run U p (mkState [] w) = Some (s, outs) -> incl (all_calls outs) (asked pf rd strat).
Proof.
  intros fdec Hinf Hp Hex Hpl He Hr Hn Hc outs Erun.
  pose proof (main U pf rd p w es vals s strat (fun _ _ => true) fdec Hinf Hp Hex Hpl He Hr Hn (fun _ _ _ => eq_refl) (fun _ => Hc) Hc outs Erun) as K.
  intros c Hin. apply in_flat_map in Hin as (o & Ho & Hin). clear -K Ho Hin. induction K as [|x y l l' [K1 K2] K IH]; [contradiction|].
  destruct Ho as [->|Ho]; [now apply K1|now apply IH].
Qed.

Theorem fewest (U : user A W fid did) pf rd p w es vals s strat :
  (forall f g : fid, {f = g} + {f <> g}) -> (forall l : list A, exists a, ~ In a l) ->
  pure_user U pf rd -> exact_eq U -> plain_results pf ->
  eager pf rd p [] w = Some (es, vals) -> Forall (regular pf rd) es -> Forall (never_null pf rd) es ->
  correct_for rd p w strat ->
  forall outs, run U p (mkState [] w) = Some (s, outs) -> NoDup (all_calls outs) ->
  length (all_calls outs) <= length (asked pf rd strat).
Proof. intros. eapply NoDup_incl_length; [eassumption|]. eapply all_needed; eassumption. Qed.

Theorem all_read (U : user A W fid did) pf rd p w es vals s strat :
  (forall f g : fid, {f = g} + {f <> g}) -> (forall x y : did * W, {x = y} + {x <> y}) -> (forall l : list A, exists a, ~ In a l) ->
  pure_user U pf rd -> exact_eq U -> plain_results pf -> plain_inputs rd ->
  eager pf rd p [] w = Some (es, vals) -> Forall (regular pf rd) es ->
  correct p w strat ->
  forall outs, run U p (mkState [] w) = Some (s, outs) ->
  Forall2 (fun w' o => forall d, In (EvSample d) (snd o) -> In (d, w') (read pf rd strat)) (worlds_of p w) outs.
Proof.
  intros fdec ddec Hinf Hp Hex Hpl Hin He Hr Hc outs Erun.
  assert (Hn : Forall (never_null pf rd) es).
  { clear -Hpl Hin. apply Forall_forall. intros e _. induction e as [v|d|f l IH] using expr_ind_deps.
    - exact I.
    - intros w. destruct (Hin d w) as (a & ->). reflexivity.
    - split.
      + intros w. unfold fval. destruct (Hpl f (map (fun e => eval pf rd e w) l)) as (a & ->). reflexivity.
      + induction IH as [|e l He Hl IHl]; [exact I|]. split; [exact He|exact IHl]. }
  set (see := fun d w => if in_dec ddec (d, w) (read pf rd strat) then true else false).
  assert (Hs : forall d w0, see d w0 = true <-> In (d, w0) (read pf rd strat)).
  { intros d w0. unfold see. destruct (in_dec ddec (d, w0) (read pf rd strat)); split; auto; discriminate. }
  pose proof (main U pf rd p w es vals s strat see fdec Hinf Hp Hex Hpl He Hr Hn (fun d w0 H => proj2 (Hs d w0) H)) as K.
  assert (K2 : forall a, correct_for (fun d w0 => if see d w0 then rd d w0 else VAtom a) p w strat).
  { intros a. apply Hc. intros d w0. destruct (see d w0); [apply Hin|eauto]. }
  specialize (K K2 (Hc rd Hin) outs Erun). clear -K Hs. induction K as [|x y l l' [_ H2] K IH]; [constructor|]. constructor; [|exact IH].
  intros d Hd. apply Hs. now apply H2.
Qed.

End Proofs.

(** ** Examples *)
Lemma more_atoms (l : list nat) : exists a, ~ In a l.
Proof.
  exists (S (list_max l)). intros H. pose proof (proj1 (list_max_le l (list_max l)) (le_n _)) as K. rewrite Forall_forall in K.
  specialize (K _ H). lia.
Qed.

(** A sum of an input and 10, and the double of it. *)
Definition fewest_program (second third : nat) : list (op nat (nat * nat) nat bool) :=
  [New 0 [DFun true; DConst (VAtom 10)]; New 1 [DVar 0]; Call 1; Env (set_first second); Call 1; Env (set_first third); Call 1].
(** The same by hand. *)
Definition by_hand (n : nat) (next : option (val nat) -> strategy nat (nat * nat) nat bool) : strategy nat (nat * nat) nat bool :=
  Ask 0 [VAtom n; VAtom 10] (fun r => Ask 1 [match r with Some v => v | None => VVoid end] next).
Definition three_times (second third : nat) : strategy nat (nat * nat) nat bool :=
  by_hand 5 (fun a => by_hand second (fun b => by_hand third (fun c => Done [a; b; c]))).
(** With the third result the same as the first. *)
Definition remembering (second : nat) : strategy nat (nat * nat) nat bool :=
  by_hand 5 (fun a => by_hand second (fun b => Done [a; b; a])).

Lemma plain_visible {A fid} (pf : fid -> list (val A) -> option (val A)) f xs : plain_results pf -> visible (fval pf f xs) = pf f xs.
Proof. intros H. unfold fval. destruct (H f xs) as (a & ->). reflexivity. Qed.

Lemma three_times_correct second third : correct_for ex_rd (fewest_program second third) (5, 3) (three_times second third).
Proof.
  intros pf es vals Hp E. cbn in E. injection E as _ <-. rewrite !plain_visible by exact Hp. reflexivity.
Qed.
Lemma remembering_correct second : correct_for ex_rd (fewest_program second 5) (5, 3) (remembering second).
Proof.
  intros pf es vals Hp E. cbn in E. injection E as _ <-. rewrite !plain_visible by exact Hp. reflexivity.
Qed.

(** The same, reading the inputs when they are due. *)
Definition reading (second third : nat) : strategy nat (nat * nat) nat bool :=
  let at_world w next := Read true w (fun v => Ask 0 [v; VAtom 10] (fun r => Ask 1 [match r with Some u => u | None => VVoid end] next)) in
  at_world (5, 3) (fun a => at_world (second, 3) (fun b => at_world (third, 3) (fun c => Done [a; b; c]))).
Lemma reading_correct second third : correct (fewest_program second third) (5, 3) (reading second third).
Proof.
  intros rd Hi pf es vals Hp E. cbn in E. injection E as _ <-. rewrite !plain_visible by exact Hp. reflexivity.
Qed.

Lemma recurring : exists (U : user nat (nat * nat) nat bool) pf rd p w es vals s strat outs,
  pure_user U pf rd /\ exact_eq U /\ plain_results pf /\
  eager pf rd p [] w = Some (es, vals) /\ Forall (regular pf rd) es /\ Forall (never_null pf rd) es /\
  correct_for rd p w strat /\ run U p (mkState [] w) = Some (s, outs) /\
  length (all_calls outs) = 6 /\ length (asked pf rd strat) = 4.
Proof.
  exists sum_user, sum_pf, ex_rd, (fewest_program 6 5), (5, 3). do 3 eexists. exists (remembering 6). eexists.
  split; [split; reflexivity|]. split; [intros a b; apply Nat.eqb_eq|]. split; [intros f xs; eexists; reflexivity|].
  split; [vm_compute; reflexivity|]. split; [repeat constructor|]. split; [repeat constructor|].
  split; [apply remembering_correct|]. split; [vm_compute; reflexivity|]. split; reflexivity.
Qed.
