(** Proofs about SharedModel.v: a lazy function with a single user behaves the
    same by reference and by value. *)
From Coq Require Import List Bool Arith Lia.
From Verif Require Import Value TupleAlg TupleAlgProofs LazyModel LazySpec LazyProofs LazyGeneral SharedModel.
Import ListNotations.

Section Proofs.
Context {A W fid did : Type}.
Notation value := (val A).
Notation event := (event A fid did).
Notation lz := (lz A fid did).
Notation slz := (slz A fid did).
Variable U : user A W fid did.

(** [l] is the tree [t] once the references [rs] are followed. *)
Inductive unfolds (vs : list slz) : slz -> list nat -> lz -> Prop :=
| u_value v ch : unfolds vs (SValue v ch) [] (LValue v ch)
| u_core g c ds rs ts : unfolds_all vs ds rs ts -> unfolds vs (SCore g c ds) rs (LCore g c ts)
| u_ref x l rs t : nth_error vs x = Some l -> unfolds vs l rs t -> unfolds vs (SRef x) (x :: rs) t
with unfolds_all (vs : list slz) : list slz -> list nat -> list lz -> Prop :=
| ua_nil : unfolds_all vs [] [] []
| ua_cons d ds rs1 rs2 t ts :
    unfolds vs d rs1 t -> unfolds_all vs ds rs2 ts ->
    unfolds_all vs (d :: ds) (rs1 ++ rs2) (t :: ts).

Scheme unfolds_min := Minimality for unfolds Sort Prop
  with unfolds_all_min := Minimality for unfolds_all Sort Prop.
Combined Scheme unfolds_mut from unfolds_min, unfolds_all_min.

Lemma unfolds_frame_mut vs vs' :
  (forall l rs t, unfolds vs l rs t ->
     (forall x, In x rs -> nth_error vs' x = nth_error vs x) -> unfolds vs' l rs t) /\
  (forall ls rs ts, unfolds_all vs ls rs ts ->
     (forall x, In x rs -> nth_error vs' x = nth_error vs x) -> unfolds_all vs' ls rs ts).
Proof.
  apply unfolds_mut.
  - intros v ch _. constructor.
  - intros g c ds rs ts _ IH Hag. constructor. auto.
  - intros x l rs t Hx _ IH Hag. econstructor.
    + rewrite Hag; [exact Hx|now left].
    + apply IH. intros y Hy. apply Hag. now right.
  - intros _. constructor.
  - intros d ds rs1 rs2 t ts _ IH1 _ IH2 Hag. constructor.
    + apply IH1. intros y Hy. apply Hag. apply in_or_app. now left.
    + apply IH2. intros y Hy. apply Hag. apply in_or_app. now right.
Qed.

Lemma NoDup_app_inv {X} (l1 l2 : list X) :
  NoDup (l1 ++ l2) -> NoDup l1 /\ NoDup l2 /\ (forall x, In x l1 -> In x l2 -> False).
Proof.
  induction l1 as [|a l1 IH]; cbn; intros H.
  - repeat split; auto. constructor.
  - inversion H as [|? ? Ha Hl]; subst. destruct (IH Hl) as (H1 & H2 & H3).
    repeat split; auto.
    + constructor; auto. intros Hin. apply Ha. apply in_or_app. now left.
    + intros x [->|Hx] Hx2; [|eauto]. apply Ha. apply in_or_app. now right.
Qed.

Lemma NoDup_app_intro {X} (l1 l2 : list X) :
  NoDup l1 -> NoDup l2 -> (forall x, In x l1 -> In x l2 -> False) -> NoDup (l1 ++ l2).
Proof.
  induction 1 as [|a l1 Ha Hl1 IH]; cbn; intros H2 Hd; auto.
  constructor.
  - intros Hin. apply in_app_or in Hin as [Hin|Hin]; [auto|]. apply (Hd a); [now left|auto].
  - apply IH; auto. intros x Hx. apply Hd. now right.
Qed.

Lemma sstep_eq n l vs w :
  sstep U n l vs w =
  match l with
  | SValue v ch => Some (Ok (v, ch), SValue v ch, vs, w, [])
  | SRef x =>
      match n with
      | 0 => None
      | S n' =>
          match nth_error vs x with
          | None => None
          | Some l0 =>
              match sstep U n' l0 vs w with
              | None => None
              | Some (r, l0', vs', w', lg) => Some (r, SRef x, update x l0' vs', w', lg)
              end
          end
      end
  | SCore g cache deps =>
      match ssteps_with (sstep U n) deps vs w with
      | None => None
      | Some (Ok rs, deps', vs1, w1, l1) =>
          let args := ctad_tuple (fun _ => None) rs in
          let '(r, cache', w2, l2) := core U g cache (read_refs vs1 deps' args) w1 in
          Some (r, SCore g cache' deps', vs1, w2, l1 ++ l2)
      | Some (Exc, deps', vs1, w1, l1) => Some (Exc, SCore g cache deps', vs1, w1, l1)
      | Some (UB, deps', vs1, w1, l1) => Some (UB, SCore g cache deps', vs1, w1, l1)
      end
  end.
Proof. destruct n, l; reflexivity. Qed.

Lemma ssteps_cons (step : slz -> list slz -> W -> sresult) d ds vs w :
  ssteps_with step (d :: ds) vs w =
  match step d vs w with
  | None => None
  | Some (Ok x, d', vs1, w1, l1) =>
      match ssteps_with step ds vs1 w1 with
      | None => None
      | Some (rs, ds'', vs2, w2, l2) =>
          Some (match rs with Ok xs => Ok (x :: xs) | Exc => Exc | UB => UB end,
                d' :: ds'', vs2, w2, l1 ++ l2)
      end
  | Some (Exc, d', vs1, w1, l1) => Some (Exc, d' :: ds, vs1, w1, l1)
  | Some (UB, d', vs1, w1, l1) => Some (UB, d' :: ds, vs1, w1, l1)
  end.
Proof. reflexivity. Qed.

(** What a reference designates right after its call is the result. *)
Lemma core_cached g c xs w r c' w' lg : core U g c xs w = (r, c', w', lg) ->
  match r with Ok (v, _) => c' = Some v | _ => True end.
Proof.
  rewrite core_eq. destruct (negb (is_some c) || existsb snd xs).
  - destruct (call_fn U g _ w) as [[[v|] w1] l1]; intros H; injection H as <- <- <- <-; auto.
  - destruct c; intros H; injection H as <- <- <- <-; auto.
Qed.

Lemma sstep_cached n l vs w v ch l' vs' w' lg :
  sstep U n l vs w = Some (Ok (v, ch), l', vs', w', lg) ->
  match l' with SCore _ (Some c) _ => c = v | SCore _ None _ => False | _ => True end.
Proof.
  rewrite sstep_eq. destruct l as [v0 ch0|g cache deps|x].
  - intros H. injection H as _ _ <- _ _ _. exact I.
  - destruct (ssteps_with (sstep U n) deps vs w) as [[[[[[rs| |] ds'] vs1] w1] l1]|]; try discriminate.
    cbv zeta. destruct (core U g cache _ w1) as [[[r c'] w2] l2] eqn:E. apply core_cached in E.
    intros H. injection H as -> <- _ _ _. now subst c'.
  - destruct n as [|n]; [discriminate|]. destruct (nth_error vs x) as [l0|]; [|discriminate].
    destruct (sstep U n l0 vs w) as [[[[[r l1] vs1] w1] l2]|]; [|discriminate].
    intros H. injection H as _ <- _ _ _. exact I.
Qed.

Lemma read_ref_called (vs : list slz) x l' v ch :
  match l' with SCore _ (Some c) _ => c = v | SCore _ None _ => False | _ => True end ->
  read_ref (update x l' vs) (SRef x) (v, ch) = (v, ch).
Proof.
  intros H. unfold read_ref. cbn [fst snd]. rewrite nth_error_update, Nat.eqb_refl.
  destruct v; try reflexivity; destruct (x <? length vs); try reflexivity;
    destruct l' as [|g [c|] ds|]; try reflexivity; now rewrite H.
Qed.

Lemma read_ref_frame (vs vs' : list slz) d r :
  match d with SRef x => nth_error vs' x = nth_error vs x | _ => True end ->
  read_ref vs' d r = read_ref vs d r.
Proof. destruct d; cbn; intros H; try reflexivity. unfold read_ref. now rewrite H. Qed.

Lemma read_refs_flags (vs ds : list slz) rs : map snd (read_refs vs ds rs) = map snd rs.
Proof.
  revert rs. induction ds as [|d ds IH]; intros [|[v ch] rs]; cbn [read_refs map]; try reflexivity.
  rewrite IH. f_equal. unfold read_ref. destruct d; try reflexivity.
  destruct v; try reflexivity; cbn [fst]; destruct (nth_error vs x) as [[|? [c|] ?|]|]; reflexivity.
Qed.

(** Calling through references does what calling the unfolded tree does. *)
Lemma sstep_refines_mut vs0 :
  (forall l rs t, unfolds vs0 l rs t ->
     forall vs w n, (forall x, In x rs -> nth_error vs x = nth_error vs0 x) ->
       NoDup rs -> length rs <= n ->
       exists l' vs', sstep U n l vs w =
         Some (let '(r, _, w', lg) := step U t w in (r, l', vs', w', lg)) /\
         unfolds vs' l' rs (snd (fst (fst (step U t w)))) /\
         length vs' = length vs /\
         (forall y, ~ In y rs -> nth_error vs' y = nth_error vs y) /\
         match fst (fst (fst (step U t w))) with Ok x => read_ref vs' l' x = x | _ => True end) /\
  (forall ls rs ts, unfolds_all vs0 ls rs ts ->
     forall vs w n, (forall x, In x rs -> nth_error vs x = nth_error vs0 x) ->
       NoDup rs -> length rs <= n ->
       exists ls' vs', ssteps_with (sstep U n) ls vs w =
         Some (let '(r, _, w', lg) := steps U ts w in (r, ls', vs', w', lg)) /\
         unfolds_all vs' ls' rs (snd (fst (fst (steps U ts w)))) /\
         length vs' = length vs /\
         (forall y, ~ In y rs -> nth_error vs' y = nth_error vs y) /\
         match fst (fst (fst (steps U ts w))) with Ok xs => read_refs vs' ls' xs = xs | _ => True end).
Proof.
  apply unfolds_mut.
  - intros v ch vs w n _ _ _. rewrite sstep_eq. cbn. exists (SValue v ch), vs.
    repeat split; auto. constructor.
  - intros g c ds rs ts _ IH vs w n Hag Hnd Hn.
    destruct (IH vs w n Hag Hnd Hn) as (ds' & vs' & Hs & Hu & Hlen & Hfr & Hrd).
    rewrite sstep_eq, Hs, step_core.
    destruct (steps U ts w) as [[[[xs| |] ts'] w1] l1]; cbn [snd fst] in Hu, Hrd.
    + cbv zeta. rewrite ?ctad_none, Hrd. destruct (core U g c xs w1) as [[[r c'] w2] l2] eqn:Ec.
      exists (SCore g c' ds'), vs'. cbn. repeat split; auto; [now constructor|now destruct r].
    + exists (SCore g c ds'), vs'. cbn. repeat split; auto. now constructor.
    + exists (SCore g c ds'), vs'. cbn. repeat split; auto. now constructor.
  - intros x l rs t Hx _ IH vs w n Hag Hnd Hn.
    inversion Hnd as [|? ? Hxr Hnd']; subst. cbn in Hn.
    destruct n as [|n]; [lia|]. rewrite sstep_eq.
    rewrite Hag by (now left). rewrite Hx.
    destruct (IH vs w n) as (l' & vs' & Hs & Hu & Hlen & Hfr & Hrd); auto; [intros y Hy; apply Hag; now right|lia|].
    rewrite Hs. destruct (step U t w) as [[[r t'] w'] lg]. cbn [snd fst] in Hu |- *.
    assert (Hca : match r with Ok x0 => read_ref (update x l' vs') (SRef x) x0 = x0 | _ => True end).
    { destruct r as [[v ch]| |]; auto. apply read_ref_called. eapply sstep_cached; exact Hs. }
    assert (Hlt : x < length vs').
    { rewrite Hlen. apply nth_error_Some. rewrite Hag by (now left). congruence. }
    exists (SRef x), (update x l' vs'). repeat split; auto.
    + econstructor.
      * rewrite nth_error_update, Nat.eqb_refl. apply Nat.ltb_lt in Hlt. now rewrite Hlt.
      * eapply (proj1 (unfolds_frame_mut vs' _)); [exact Hu|].
        intros y Hy. rewrite nth_error_update. destruct (Nat.eqb_spec x y); [congruence|auto].
    + now rewrite update_length.
    + intros y Hy. rewrite nth_error_update. destruct (Nat.eqb_spec x y) as [->|].
      * destruct Hy. now left.
      * apply Hfr. intros Hin. apply Hy. now right.
  - intros vs w n _ _ _. exists [], vs. cbn. repeat split; auto. constructor.
  - intros d ds rs1 rs2 t ts Hu1 IH1 Hu2 IH2 vs w n Hag Hnd Hn.
    apply NoDup_app_inv in Hnd as (Hnd1 & Hnd2 & Hdis). rewrite app_length in Hn.
    destruct (IH1 vs w n) as (d' & vs1 & Hs1 & Hd1 & Hlen1 & Hfr1 & Hrd1); auto;
      [intros y Hy; apply Hag; apply in_or_app; now left|lia|].
    rewrite ssteps_cons, steps_cons, Hs1.
    destruct (step U t w) as [[[[v| |] t'] w1] lg1]; cbn [snd fst] in Hd1, Hrd1 |- *.
    + destruct (IH2 vs1 w1 n) as (ds' & vs2 & Hs2 & Hd2 & Hlen2 & Hfr2 & Hrd2); auto; [|lia|].
      { intros y Hy. rewrite Hfr1 by eauto. apply Hag. apply in_or_app. now right. }
      rewrite Hs2. destruct (steps U ts w1) as [[[rs ts'] w2] lg2]. cbn [snd fst] in Hd2, Hrd2 |- *.
      exists (d' :: ds'), vs2. repeat split; auto.
      * constructor; auto. eapply (proj1 (unfolds_frame_mut vs1 _)); [exact Hd1|].
        intros y Hy. apply Hfr2. eauto.
      * congruence.
      * intros y Hy. rewrite Hfr2, Hfr1; auto; intros Hin; apply Hy; apply in_or_app; auto.
      * destruct rs as [xs| |]; auto. cbn [read_refs]. rewrite Hrd2. f_equal.
        rewrite (read_ref_frame vs1); [exact Hrd1|]. destruct d' as [|g c0 ds0|x]; auto.
        apply Hfr2. intros Hin. inversion Hd1; subst. apply (Hdis x); [now left|exact Hin].
    + exists (d' :: ds), vs1. repeat split; auto.
      * constructor; auto. eapply (proj2 (unfolds_frame_mut vs0 _)); [exact Hu2|].
        intros y Hy. rewrite Hfr1 by eauto. apply Hag. apply in_or_app. now right.
      * intros y Hy. apply Hfr1. intros Hin. apply Hy. apply in_or_app. now left.
    + exists (d' :: ds), vs1. repeat split; auto.
      * constructor; auto. eapply (proj2 (unfolds_frame_mut vs0 _)); [exact Hu2|].
        intros y Hy. rewrite Hfr1 by eauto. apply Hag. apply in_or_app. now right.
      * intros y Hy. apply Hfr1. intros Hin. apply Hy. apply in_or_app. now left.
Qed.

(** References are variables. *)
Lemma unfolds_bound_mut vs :
  (forall l rs t, unfolds vs l rs t -> forall x, In x rs -> x < length vs) /\
  (forall ls rs ts, unfolds_all vs ls rs ts -> forall x, In x rs -> x < length vs).
Proof.
  apply unfolds_mut.
  - intros v ch x [].
  - auto.
  - intros x l rs t Hx _ IH y [<-|Hy]; [|auto]. apply nth_error_Some. congruence.
  - intros x [].
  - intros d ds rs1 rs2 t ts _ IH1 _ IH2 x Hx. apply in_app_or in Hx as [Hx|Hx]; auto.
Qed.

Lemma NoDup_bound (l : list nat) n : NoDup l -> (forall x, In x l -> x < n) -> length l <= n.
Proof.
  intros Hnd Hb. rewrite <- (seq_length n 0). apply NoDup_incl_length; auto.
  intros x Hx. apply in_seq. specialize (Hb x Hx). lia.
Qed.

(** ** Programs *)
Record sim (vs : list slz) (ts : list lz) (used holders : list nat) (rho : nat -> list nat) : Prop := {
  sim_len : length vs = length ts;
  sim_unf : forall y l t, ~ In y used -> nth_error vs y = Some l -> nth_error ts y = Some t ->
              unfolds vs l (rho y) t;
  sim_nd : forall y, NoDup (rho y);
  sim_used : forall y x, In x (rho y) -> In x used;
  sim_dis : forall y z x, ~ In y used -> ~ In z used -> In x (rho y) -> In x (rho z) -> y = z;
  sim_hold : forall y, ~ In y used -> ~ In y holders -> rho y = [];
  sim_bound : forall y, length vs <= y -> rho y = [] }.

Lemma deps_unfold vs ts used holders rho ss :
  sim vs ts used holders rho ->
  NoDup (refs ss) -> Forall (fun x => ~ In x used) (refs ss) ->
  Forall (fun x => ~ In x used /\ ~ In x holders) (copied ss) ->
  match deps_of ts (map by_value_dep ss), sdeps_of U vs ss with
  | Some os, Some ls =>
      unfolds_all vs ls (flat_map (fun x => x :: rho x) (refs ss)) (map (ensure_lazy U) os) /\
      Forall (fun x => x < length vs) (refs ss)
  | None, None => True
  | _, _ => False
  end.
Proof.
  intros Hsim. induction ss as [|s ss IH]; intros Hnd Hr Hc.
  - cbn. split; constructor.
  - assert (Hpart : NoDup (refs ss) /\ Forall (fun x => ~ In x used) (refs ss) /\
                    Forall (fun x => ~ In x used /\ ~ In x holders) (copied ss)).
    { destruct s as [x|[x|d|v]]; cbn in *; auto.
      - inversion Hnd; inversion Hr; auto.
      - inversion Hc; auto. }
    destruct Hpart as (H1 & H2 & H3). specialize (IH H1 H2 H3).
    assert (Hex : forall x t, nth_error ts x = Some t -> exists l, nth_error vs x = Some l).
    { intros x t Hx. destruct (nth_error vs x) eqn:E; eauto. apply nth_error_None in E.
      rewrite (sim_len _ _ _ _ _ Hsim) in E. apply nth_error_None in E. congruence. }
    assert (Hne : forall x, nth_error ts x = None -> nth_error vs x = None).
    { intros x Hx. apply nth_error_None. apply nth_error_None in Hx.
      now rewrite (sim_len _ _ _ _ _ Hsim). }
    destruct s as [x|[x|d|v]]; cbn [map by_value_dep deps_of dep_of sdeps_of sdep_of].
    + destruct (nth_error ts x) as [t|] eqn:Et; cbn.
      * destruct (Hex _ _ Et) as [l El]. rewrite El.
        destruct (deps_of ts (map by_value_dep ss)), (sdeps_of U vs ss); try contradiction; auto.
        destruct IH as [IH1 IH2]. split.
        -- apply (ua_cons vs (SRef x) l1 (x :: rho x) (flat_map (fun x => x :: rho x) (refs ss))); auto.
           econstructor; eauto.
           eapply sim_unf; eauto. now inversion Hr.
        -- constructor; auto. apply nth_error_Some. congruence.
      * now rewrite (Hne _ Et).
    + cbn in Hc. inversion Hc as [|? ? [Hxu Hxh] Hc']; subst.
      destruct (nth_error ts x) as [t|] eqn:Et; cbn.
      * destruct (Hex _ _ Et) as [l El]. rewrite El.
        destruct (deps_of ts (map by_value_dep ss)), (sdeps_of U vs ss); try contradiction; auto.
        destruct IH as [IH1 IH2]. split; auto.
        apply (ua_cons vs l l1 [] (flat_map (fun x => x :: rho x) (refs ss))); auto. rewrite <- (sim_hold _ _ _ _ _ Hsim x Hxu Hxh).
        eapply sim_unf; eauto.
      * now rewrite (Hne _ Et).
    + destruct (deps_of ts (map by_value_dep ss)), (sdeps_of U vs ss); try contradiction; auto.
      destruct IH as [IH1 IH2]. split; auto. cbn.
      refine (ua_cons vs _ _ [] (flat_map (fun x => x :: rho x) (refs ss)) _ _ _ _); auto. constructor. refine (ua_cons vs _ _ [] [] _ _ _ _); constructor.
    + destruct (deps_of ts (map by_value_dep ss)), (sdeps_of U vs ss); try contradiction; auto.
      destruct IH as [IH1 IH2]. split; auto. cbn.
      refine (ua_cons vs _ _ [] (flat_map (fun x => x :: rho x) (refs ss)) _ _ _ _); auto. constructor.
Qed.

Lemma flat_refs_nodup vs ts used holders rho xs :
  sim vs ts used holders rho -> NoDup xs -> Forall (fun x => ~ In x used) xs ->
  NoDup (flat_map (fun x => x :: rho x) xs).
Proof.
  intros Hsim Hnd. induction Hnd as [|x xs Hx Hnd IH]; intros Hu; cbn; [constructor|].
  inversion Hu as [|? ? Hux Huxs]; subst.
  change (x :: rho x ++ flat_map (fun x => x :: rho x) xs)
    with ((x :: rho x) ++ flat_map (fun x => x :: rho x) xs).
  apply NoDup_app_intro; auto.
  - constructor; [|eapply sim_nd; eauto]. intros Hin. apply Hux. eapply sim_used; eauto.
  - intros y Hy1 Hy2. apply in_flat_map in Hy2 as (z & Hz & Hy2).
    assert (Hzu : ~ In z used) by (rewrite Forall_forall in Huxs; auto).
    destruct Hy1 as [<-|Hy1], Hy2 as [<-|Hy2]; auto.
    + apply Hux. eapply sim_used; eauto.
    + apply Hzu. eapply sim_used; eauto.
    + assert (x = z) by (eapply (sim_dis _ _ _ _ _ Hsim); eauto). congruence.
Qed.

Lemma unfolds_app vs l rs t ext : unfolds vs l rs t -> unfolds (vs ++ ext) l rs t.
Proof.
  intros H. eapply (proj1 (unfolds_frame_mut vs _)); [exact H|].
  intros x Hx. apply nth_error_app1. eapply (proj1 (unfolds_bound_mut vs)); eauto.
Qed.

Lemma nth_error_snoc_inv {X} (l : list X) a y b :
  nth_error (l ++ [a]) y = Some b -> (y < length l /\ nth_error l y = Some b) \/ (y = length l /\ a = b).
Proof.
  intros H. destruct (Nat.lt_ge_cases y (length l)) as [Hl|Hl].
  - rewrite nth_error_app1 in H by lia. auto.
  - rewrite nth_error_app2 in H by lia. right.
    destruct (y - length l) as [|k] eqn:E; cbn in H.
    + injection H as ->. split; [lia|reflexivity].
    + now destruct k.
Qed.

Lemma single_user_refines p : forall vs ts used holders rho w s' outs,
  sim vs ts used holders rho ->
  (forall y, In y used -> y < length vs) -> (forall y, In y holders -> y < length vs) ->
  single_user p (length vs) used holders ->
  run U (map by_value p) (mkState ts w) = Some (s', outs) ->
  exists s, srun U p (mkSState vs w) = Some (s, outs).
Proof.
  induction p as [|o p IH]; intros vs ts used holders rho w s' outs Hsim Hub Hhb Hsu Hr.
  - cbn in *. injection Hr as <- <-. eauto.
  - destruct o as [f ss|x|x|h]; cbn [map by_value single_user] in *; cbn [run exec vars world] in Hr;
      cbn [srun sexec svars sworld].
    + destruct Hsu as (Hnd & Hru & Hcu & Hsu).
      pose proof (deps_unfold vs ts used holders rho ss Hsim Hnd Hru Hcu) as Hd.
      destruct (deps_of ts (map by_value_dep ss)) as [os|]; [|discriminate].
      destruct (sdeps_of U vs ss) as [ls|]; [|contradiction]. destruct Hd as [Hd Hrb].
      destruct (run U (map by_value p) _) as [[s2 outs2]|] eqn:Er; [|discriminate].
      injection Hr as <- <-.
      set (n := length vs) in *.
      set (rn := flat_map (fun x => x :: rho x) (refs ss)) in *.
      assert (Hsim' : sim (vs ++ [SCore (FnUser f) None ls]) (ts ++ [mk_lazy U f os])
                (refs ss ++ used) (match refs ss with [] => holders | _ => n :: holders end)
                (fun y => if Nat.eqb y n then rn else rho y)).
      { assert (Hrho_n : rho n = []) by (apply (sim_bound _ _ _ _ _ Hsim); unfold n; lia).
        split.
        - rewrite !app_length, (sim_len _ _ _ _ _ Hsim). reflexivity.
        - intros y l t Hy Hl Ht.
          apply nth_error_snoc_inv in Hl as [[Hlt Hl]|[-> <-]].
          + apply nth_error_snoc_inv in Ht as [[_ Ht]|[Hyn _]].
            2:{ rewrite <- (sim_len _ _ _ _ _ Hsim) in Hyn. lia. }
            destruct (Nat.eqb_spec y n); [unfold n in *; lia|].
            apply unfolds_app. eapply sim_unf; eauto. intros Hin. apply Hy. apply in_or_app. now right.
          + apply nth_error_snoc_inv in Ht as [[Hlt Ht]|[_ <-]].
            { rewrite <- (sim_len _ _ _ _ _ Hsim) in Hlt. lia. }
            fold n. rewrite Nat.eqb_refl. unfold mk_lazy. constructor.
            eapply (proj2 (unfolds_frame_mut vs _)); [exact Hd|].
            intros x Hx. apply nth_error_app1. eapply (proj2 (unfolds_bound_mut vs)); eauto.
        - intros y. destruct (Nat.eqb y n); [|eapply sim_nd; eauto].
          eapply flat_refs_nodup; eauto.
        - intros y x. destruct (Nat.eqb y n).
          + intros Hx. apply in_flat_map in Hx as (z & Hz & [<-|Hx]); apply in_or_app; [now left|].
            right. eapply sim_used; eauto.
          + intros Hx. apply in_or_app. right. eapply sim_used; eauto.
        - assert (Hkey : forall z x, ~ In z (refs ss ++ used) -> z <> n -> In x rn -> In x (rho z) -> False).
          { intros z x Hz Hzn Hx Hxz. apply in_flat_map in Hx as (y & Hy & Hx).
            assert (Hyu : ~ In y used) by (rewrite Forall_forall in Hru; auto).
            destruct Hx as [<-|Hx].
            - apply Hyu. eapply sim_used; eauto.
            - assert (y = z).
              { eapply (sim_dis _ _ _ _ _ Hsim); eauto. intros Hin. apply Hz. apply in_or_app. now right. }
              subst. apply Hz. apply in_or_app. now left. }
          intros y z x Hy Hz. destruct (Nat.eqb_spec y n) as [->|Hyn], (Nat.eqb_spec z n) as [->|Hzn].
          + auto.
          + intros H1 H2. destruct (Hkey z x Hz Hzn H1 H2).
          + intros H1 H2. destruct (Hkey y x Hy Hyn H2 H1).
          + intros H1 H2. eapply (sim_dis _ _ _ _ _ Hsim); eauto; intros Hin; [apply Hy|apply Hz]; apply in_or_app; now right.
        - intros y Hy Hh. destruct (Nat.eqb_spec y n) as [->|Hyn].
          + unfold rn. destruct (refs ss) as [|r rs]; [reflexivity|]. destruct Hh. now left.
          + apply (sim_hold _ _ _ _ _ Hsim).
            * intros Hin. apply Hy. apply in_or_app. now right.
            * intros Hin. apply Hh. destruct (refs ss); [auto|now right].
        - intros y Hy. rewrite app_length in Hy. cbn in Hy.
          destruct (Nat.eqb_spec y n); [unfold n in *; lia|].
          apply (sim_bound _ _ _ _ _ Hsim). lia. }
      destruct (IH (vs ++ [SCore (FnUser f) None ls]) _ _ _ _ w s2 outs2 Hsim') as [s Hs].
      * intros y Hy. rewrite app_length. cbn. apply in_app_or in Hy as [Hy|Hy].
        -- rewrite Forall_forall in Hrb. specialize (Hrb y Hy). unfold n in *. lia.
        -- specialize (Hub y Hy). unfold n in *. lia.
      * intros y Hy. rewrite app_length. cbn.
        destruct (refs ss); [specialize (Hhb y Hy); unfold n in *; lia|].
        destruct Hy as [<-|Hy]; [unfold n; lia|]. specialize (Hhb y Hy). unfold n in *. lia.
      * rewrite app_length. cbn. rewrite Nat.add_1_r. exact Hsu.
      * exact Er.
      * rewrite Hs. eauto.
    + destruct Hsu as (Hxu & Hxh & Hsu).
      destruct (nth_error ts x) as [t|] eqn:Et; [|discriminate].
      assert (El : exists l, nth_error vs x = Some l).
      { destruct (nth_error vs x) eqn:E; eauto. apply nth_error_None in E.
        rewrite (sim_len _ _ _ _ _ Hsim) in E. apply nth_error_None in E. congruence. }
      destruct El as [l El]. rewrite El.
      destruct (run U (map by_value p) _) as [[s2 outs2]|] eqn:Er; [|discriminate].
      injection Hr as <- <-.
      assert (Hux : unfolds vs l [] t).
      { rewrite <- (sim_hold _ _ _ _ _ Hsim x Hxu Hxh). eapply sim_unf; eauto. }
      assert (Hsim' : sim (vs ++ [l]) (ts ++ [t]) used holders rho).
      { split.
        - rewrite !app_length, (sim_len _ _ _ _ _ Hsim). reflexivity.
        - intros y l1 t1 Hy Hl Ht.
          apply nth_error_snoc_inv in Hl as [[Hlt Hl]|[-> <-]].
          + apply nth_error_snoc_inv in Ht as [[_ Ht]|[Hyn _]].
            2:{ rewrite <- (sim_len _ _ _ _ _ Hsim) in Hyn. lia. }
            apply unfolds_app. eapply sim_unf; eauto.
          + apply nth_error_snoc_inv in Ht as [[Hlt Ht]|[_ <-]].
            { rewrite <- (sim_len _ _ _ _ _ Hsim) in Hlt. lia. }
            rewrite (sim_bound _ _ _ _ _ Hsim) by lia. now apply unfolds_app.
        - eapply sim_nd; eauto.
        - eapply sim_used; eauto.
        - eapply sim_dis; eauto.
        - eapply sim_hold; eauto.
        - intros y Hy. rewrite app_length in Hy. apply (sim_bound _ _ _ _ _ Hsim). cbn in Hy. lia. }
      destruct (IH (vs ++ [l]) _ _ _ _ w s2 outs2 Hsim') as [s Hs].
      * intros y Hy. rewrite app_length. specialize (Hub y Hy). lia.
      * intros y Hy. rewrite app_length. specialize (Hhb y Hy). lia.
      * rewrite app_length. cbn. rewrite Nat.add_1_r. exact Hsu.
      * exact Er.
      * rewrite Hs. eauto.
    + destruct Hsu as (Hxu & Hsu).
      destruct (nth_error ts x) as [t|] eqn:Et; [|discriminate].
      assert (El : exists l, nth_error vs x = Some l).
      { destruct (nth_error vs x) eqn:E; eauto. apply nth_error_None in E.
        rewrite (sim_len _ _ _ _ _ Hsim) in E. apply nth_error_None in E. congruence. }
      destruct El as [l El]. rewrite El.
      assert (Hux : unfolds vs l (rho x) t) by (eapply sim_unf; eauto).
      assert (Hlen : length (rho x) <= length vs).
      { apply NoDup_bound; [eapply sim_nd; eauto|]. eapply (proj1 (unfolds_bound_mut vs)); eauto. }
      destruct (proj1 (sstep_refines_mut vs) l (rho x) t Hux vs w (length vs)) as (l' & vs' & Hs & Hu' & Hlen' & Hfr & _); auto;
        [eapply sim_nd; eauto|].
      rewrite Hs. destruct (step U t w) as [[[r t'] w'] lg]. cbn [fst snd] in Hu'.
      destruct (run U (map by_value p) _) as [[s2 outs2]|] eqn:Er; [|discriminate].
      injection Hr as <- <-.
      assert (Hxr : forall y, ~ In x (rho y)).
      { intros y Hin. apply Hxu. eapply sim_used; eauto. }
      assert (Hsim' : sim (update x l' vs') (update x t' ts) used holders rho).
      { split.
        - rewrite !update_length, Hlen'. apply (sim_len _ _ _ _ _ Hsim).
        - intros y l1 t1 Hy Hl Ht. rewrite nth_error_update in Hl; rewrite nth_error_update in Ht.
          destruct (Nat.eqb_spec x y) as [<-|Hxy].
          + destruct (x <? length vs'); [|discriminate]. destruct (x <? length ts); [|discriminate].
            injection Hl as <-. injection Ht as <-.
            eapply (proj1 (unfolds_frame_mut vs' _)); [exact Hu'|].
            intros z Hz. rewrite nth_error_update. destruct (Nat.eqb_spec x z) as [<-|]; auto.
            destruct (Hxr x Hz).
          + assert (Hyr : ~ In y (rho x)) by (intros Hin; apply Hy; eapply sim_used; eauto).
            rewrite Hfr in Hl by assumption.
            eapply (proj1 (unfolds_frame_mut vs _)); [eapply sim_unf; eauto|].
            intros z Hz. rewrite nth_error_update. destruct (Nat.eqb_spec x z) as [<-|].
            * destruct (Hxr y Hz).
            * apply Hfr. intros Hin. apply Hxy. eapply (sim_dis _ _ _ _ _ Hsim); eauto.
        - eapply sim_nd; eauto.
        - eapply sim_used; eauto.
        - eapply sim_dis; eauto.
        - eapply sim_hold; eauto.
        - intros y Hy. rewrite update_length, Hlen' in Hy. apply (sim_bound _ _ _ _ _ Hsim). lia. }
      destruct (IH (update x l' vs') _ _ _ _ w' s2 outs2 Hsim') as [s Hss].
      * intros y Hy. rewrite update_length, Hlen'. auto.
      * intros y Hy. rewrite update_length, Hlen'. auto.
      * rewrite update_length, Hlen'. exact Hsu.
      * exact Er.
      * rewrite Hss. eauto.
    + destruct (run U (map by_value p) _) as [[s2 outs2]|] eqn:Er; [|discriminate].
      injection Hr as <- <-.
      destruct (IH _ _ _ _ _ _ _ _ Hsim Hub Hhb Hsu Er) as [s Hs]. rewrite Hs. eauto.
Qed.

Lemma single_user_same p w s' outs :
  single_user p 0 [] [] ->
  run U (map by_value p) (mkState [] w) = Some (s', outs) ->
  exists s, srun U p (mkSState [] w) = Some (s, outs).
Proof.
  intros Hsu Hr. eapply (single_user_refines p [] [] [] [] (fun _ => [])); eauto.
  - split; cbn; auto; try contradiction.
    + intros y l t _ H. destruct y; discriminate.
    + intros y. constructor.
  - intros y [].
  - intros y [].
Qed.

End Proofs.
