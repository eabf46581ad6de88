(** Proofs about the first designs of the walkthrough (C69). *)
From Coq Require Import List Bool Arith Lia.
From Verif Require Import Value TupleAlg TupleAlgProofs LazyModel LazyGeneral OnceModel.
Import ListNotations.

Section Designs.
Context {A W fid did : Type}.
Notation value := (val A).
Variable U : user A W fid did.

Section Related.
Context {X : Type}.
Variable new : fid -> X.
Variable call : X -> W -> res (option value) * X * W * list (event A fid did).
Variable rel : X -> lz A fid did -> Prop.
Hypothesis new_rel : forall f, rel (new f) (mk_lazy U f []).
Hypothesis call_rel : forall x l w, rel x l ->
  exists x' r l' w' lg, step U l w = (r, l', w', lg) /\ call x w = (api_result r, x', w', lg) /\ rel x' l'.

Lemma related_run p : forall xs ls w, Forall2 rel xs ls ->
  Forall (fun o => match o with New _ ss => ss = [] | _ => True end) p ->
  design_run new call p xs w = option_map (fun so => (world (fst so), snd so)) (run U p (mkState ls w)).
Proof.
  assert (Hnth : forall xs ls, Forall2 rel xs ls -> forall k,
            match nth_error xs k, nth_error ls k with Some x, Some l => rel x l | None, None => True | _, _ => False end).
  { induction 1 as [|a b xs ls Hab _ IHx]; intros [|k]; cbn; [exact I|exact I|exact Hab|apply IHx]. }
  assert (Hup : forall xs ls, Forall2 rel xs ls -> forall k x l, rel x l -> Forall2 rel (update k x xs) (update k l ls)).
  { induction 1; intros [|k] a b Hab; cbn; constructor; auto. }
  assert (Happ : forall xs ls x l, Forall2 rel xs ls -> rel x l -> Forall2 rel (xs ++ [x]) (ls ++ [l])).
  { intros. apply Forall2_app; auto. }
  induction p as [|o p IH]; intros xs ls w Hxs Hp; [reflexivity|].
  inversion Hp as [|? ? Ho Hp']; subst. cbn [design_run run].
  destruct o as [f ss|k|k|h]; cbn [exec vars world].
  - subst ss. cbn [deps_of]. rewrite (IH (xs ++ [new f]) (ls ++ [mk_lazy U f []]) w); auto.
    destruct (run U p _) as [[s outs]|]; reflexivity.
  - specialize (Hnth _ _ Hxs k). destruct (nth_error xs k) as [x|], (nth_error ls k) as [l|]; try contradiction; [|reflexivity].
    rewrite (IH (xs ++ [x]) (ls ++ [l]) w); auto. destruct (run U p _) as [[s outs]|]; reflexivity.
  - specialize (Hnth _ _ Hxs k). destruct (nth_error xs k) as [x|], (nth_error ls k) as [l|]; try contradiction; [|reflexivity].
    destruct (call_rel x l w Hnth) as (x' & r & l' & w' & lg & -> & -> & Hr).
    rewrite (IH (update k x' xs) (update k l' ls) w'); auto. destruct (run U p _) as [[s outs]|]; reflexivity.
  - rewrite (IH xs ls (h w)); auto. destruct (run U p _) as [[s outs]|]; reflexivity.
Qed.
End Related.

Lemma step_plain f c w : step U (LCore (FnUser f) c []) w =
  match c with
  | Some v => (Ok (v, false), LCore (FnUser f) c [], w, [])
  | None =>
      match sem U f [] w with
      | (FThrow, w') => (Exc, LCore (FnUser f) c [], w', [EvCall f []])
      | (FRet o, w') => (Ok (match o with Some v => v | None => VVoid end,
                             opt_ne (aeq U) None (match o with Some v => v | None => VVoid end)),
                         LCore (FnUser f) (Some (match o with Some v => v | None => VVoid end)) [], w', [EvCall f []])
      end
  end.
Proof.
  destruct c as [v|]; cbn; [reflexivity|].
  destruct (sem U f [] w) as [[[v|]|] w']; cbn; reflexivity.
Qed.

Theorem once_design p w :
  (forall f w0 o, fst (sem U f [] w0) = FRet o -> o = None) ->
  Forall (fun o => match o with New _ ss => ss = [] | _ => True end) p ->
  once_run U p [] w = option_map (fun so => (world (fst so), snd so)) (run U p (mkState [] w)).
Proof.
  intros HU Hp. unfold once_run.
  apply (related_run once_new (once_call U)
           (fun o l => l = LCore (FnUser (once_fn o)) (if is_called o then Some VVoid else None) [])); auto.
  intros [f b] l w0 ->. rewrite step_plain. unfold once_call. cbn [once_fn is_called]. destruct b.
  - do 5 eexists. split; [reflexivity|]. split; reflexivity.
  - specialize (HU f w0). destruct (sem U f [] w0) as [[o|] w'].
    + rewrite (HU o eq_refl). do 5 eexists. split; [reflexivity|]. split; reflexivity.
    + do 5 eexists. split; [reflexivity|]. split; reflexivity.
Qed.

Theorem cached_design p w :
  (forall f w0 o, fst (sem U f [] w0) = FRet o -> exists v, o = Some v /\ v <> VVoid) ->
  Forall (fun o => match o with New _ ss => ss = [] | _ => True end) p ->
  cached_run U p [] w = option_map (fun so => (world (fst so), snd so)) (run U p (mkState [] w)).
Proof.
  intros HU Hp. unfold cached_run.
  apply (related_run cached_new (cached_call U)
           (fun c l => l = LCore (FnUser (cached_fn c)) (cached_value c) [] /\ cached_value c <> Some VVoid)); auto.
  - intros f. split; [reflexivity|discriminate].
  - assert (Hv : forall (v : value) b, v <> VVoid -> api_result (Ok (v, b)) = Ok (Some v)).
    { intros [] b H; try reflexivity. congruence. }
    intros [f c] l w0 [-> Hc]. rewrite step_plain. unfold cached_call. cbn [cached_fn cached_value] in *. destruct c as [v|].
    + do 5 eexists. split; [reflexivity|]. rewrite Hv by congruence. split; [reflexivity|]. split; [reflexivity|exact Hc].
    + specialize (HU f w0). destruct (sem U f [] w0) as [[o|] w'].
      * destruct (HU o eq_refl) as (v & -> & Hn). do 5 eexists. split; [reflexivity|]. rewrite Hv by assumption.
        split; [reflexivity|]. split; [reflexivity|]. cbn. congruence.
      * do 5 eexists. split; [reflexivity|]. split; [reflexivity|]. split; [reflexivity|discriminate].
Qed.

End Designs.

(** ** Flags *)
Lemma lazy_places_rest ps : forall w, exists outs,
  run initializes (flat_map lazy_place ps)
    (mkState [LCore (FnUser OpenGL) (Some VVoid) []; LCore (FnUser OpenCL) (Some VVoid) []] w) =
  Some (mkState [LCore (FnUser OpenGL) (Some VVoid) []; LCore (FnUser OpenCL) (Some VVoid) []] (w ++ map Draw ps), outs).
Proof.
  induction ps as [|p ps IH]; intros w; [exists []; cbn; now rewrite app_nil_r|].
  destruct (IH (w ++ [Draw p])) as (outs & E). eexists.
  change (flat_map lazy_place (p :: ps)) with (Call 0 :: Call 1 :: Env (fun w => w ++ [Draw p]) :: flat_map lazy_place ps).
  cbn - [flat_map run]. cbn [run]. cbn - [flat_map run]. rewrite E. rewrite <- app_assoc. reflexivity.
Qed.

Theorem lazy_in_order ps : exists s outs,
  run initializes (lazy_places ps) (mkState [] []) = Some (s, outs) /\ world s = in_order ps.
Proof.
  destruct ps as [|p ps]; [do 2 eexists; split; reflexivity|].
  destruct (lazy_places_rest ps [Initialize OpenGL; Initialize OpenCL; Draw p]) as (outs & E).
  do 2 eexists. unfold lazy_places.
  change (flat_map lazy_place (p :: ps)) with (Call 0 :: Call 1 :: Env (fun w => w ++ [Draw p]) :: flat_map lazy_place ps).
  cbn [run]. cbn - [flat_map run]. rewrite E. split; reflexivity.
Qed.

Theorem right_in_order ps : places by_hand_right ps (false, false) = in_order ps.
Proof.
  assert (H : forall qs, places by_hand_right qs (true, true) = map Draw qs).
  { induction qs as [|[] qs IH]; cbn in *; rewrite ?IH; reflexivity. }
  destruct ps as [|[] ps]; cbn in *; rewrite ?H; reflexivity.
Qed.

Lemma initializations_app s l l' : initializations s (l ++ l') = initializations s l + initializations s l'.
Proof. unfold initializations. now rewrite filter_app, app_length. Qed.

Lemma by_hand_done qs : places by_hand qs (true, true) = map Draw qs.
Proof. induction qs as [|[] qs IH]; cbn in *; rewrite ?IH; reflexivity. Qed.
Lemma draws_none s qs : initializations s (map Draw qs) = 0.
Proof. induction qs; [reflexivity|exact IHqs]. Qed.

Theorem by_hand_count n rest :
  (rest = [] \/ exists r, rest = Something :: r) ->
  initializations OpenGL (places by_hand (repeat SomethingElse n ++ rest) (false, false)) =
    match n, rest with 0, [] => 0 | _, _ => 1 end /\
  initializations OpenCL (places by_hand (repeat SomethingElse n ++ rest) (false, false)) =
    n + match rest with [] => 0 | _ => 1 end.
Proof.
  intros Hr.
  assert (H : forall m, initializations OpenGL (places by_hand (repeat SomethingElse m ++ rest) (true, false)) = 0 /\
                        initializations OpenCL (places by_hand (repeat SomethingElse m ++ rest) (true, false)) =
                          m + match rest with [] => 0 | _ => 1 end).
  { induction m as [|m [I1 I2]].
    - cbn [repeat app]. destruct Hr as [->|(r & ->)]; [split; reflexivity|].
      cbn - [initializations]. rewrite by_hand_done.
      change (Initialize OpenCL :: Draw Something :: map Draw r) with ([Initialize OpenCL; Draw Something] ++ map Draw r).
      rewrite !initializations_app, !draws_none. split; reflexivity.
    - cbn [repeat app]. cbn - [initializations repeat app].
      split; [exact I1|]. cbn. f_equal. exact I2. }
  destruct n as [|n].
  - cbn [repeat app]. destruct Hr as [->|(r & ->)]; [split; reflexivity|]. cbn - [initializations]. rewrite by_hand_done.
    change (Initialize OpenGL :: Initialize OpenCL :: Draw Something :: map Draw r)
      with ([Initialize OpenGL; Initialize OpenCL; Draw Something] ++ map Draw r).
    rewrite !initializations_app, !draws_none. split; reflexivity.
  - destruct (H n) as [I1 I2]. cbn [repeat app]. cbn - [initializations repeat app].
    split; cbn; f_equal; [exact I1|exact I2].
Qed.

(** ** Examples *)
Definition just_values : user nat nat bool unit :=
  mkUser (fun (f : bool) _ w => (if Nat.ltb w 2 then FThrow else FRet (Some (VAtom (if f then w else 100))), w + 1))
    (fun (_ : unit) w => (VThrow, w)) Nat.eqb 0.
Definition just_void : user nat nat bool unit :=
  mkUser (fun (_ : bool) _ w => (if Nat.ltb w 2 then FThrow else FRet None, w + 1)) (fun (_ : unit) w => (VThrow, w)) Nat.eqb 0.
Definition once_prog : list (op nat nat bool unit) :=
  [New true []; Call 0; Copy 0; Call 0; Call 0; Call 0; New false []; Call 1; Env (fun w => w * 2); Call 1; Call 0; Call 2].

Lemma ex_once :
  (forall f w0 o, fst (sem just_void f [] w0) = FRet o -> o = None) /\
  Forall (fun o => match o with New _ ss => ss = [] | _ => True end) once_prog /\
  exists outs, once_run just_void once_prog [] 0 = Some (9, outs) /\
    map fst outs = [None; Some Exc; None; Some Exc; Some (Ok None); Some (Ok None); None; Some (Ok None); None;
                    Some (Ok None); Some (Ok None); Some (Ok None)].
Proof.
  split; [|split].
  - intros f w0 o. cbn - [Nat.ltb]. destruct (Nat.ltb w0 2); [discriminate|]. intros E. now injection E as <-.
  - repeat constructor.
  - eexists. split; vm_compute; reflexivity.
Qed.

Lemma ex_cached :
  (forall f w0 o, fst (sem just_values f [] w0) = FRet o -> exists v, o = Some v /\ v <> VVoid) /\
  Forall (fun o => match o with New _ ss => ss = [] | _ => True end) once_prog /\
  exists outs, cached_run just_values once_prog [] 0 = Some (9, outs) /\
    map fst outs = [None; Some Exc; None; Some Exc; Some (Ok (Some (VAtom 2))); Some (Ok (Some (VAtom 2))); None;
                    Some (Ok (Some (VAtom 3))); None; Some (Ok (Some (VAtom 3))); Some (Ok (Some (VAtom 2)));
                    Some (Ok (Some (VAtom 100)))].
Proof.
  split; [|split].
  - intros f w0 o. cbn - [Nat.ltb]. destruct (Nat.ltb w0 2); [discriminate|]. intros E. injection E as <-.
    eexists. split; [reflexivity|discriminate].
  - repeat constructor.
  - eexists. split; vm_compute; reflexivity.
Qed.
