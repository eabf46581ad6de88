(** Proofs about dependencies in another order, left out or repeated. *)
From Coq Require Import List Bool Arith Lia Permutation.
From Verif Require Import Value LazyModel LazySpec LazySpec2 LazyProofs LazyGeneral LazyThms
  SharingSpec StreamThms SharingThms LazyExamples LawSpec LawThms ArrangeSpec.
Import ListNotations.

(** ** Selections *)
Lemma selected_map {X Y} (h : X -> Y) is l sel : selected is l sel -> selected is (map h l) (map h sel).
Proof.
  unfold selected. induction 1 as [|i x is sel E H IH]; cbn; constructor; [|exact IH].
  now rewrite nth_error_map, E.
Qed.

Lemma selected_In {X} is (l sel : list X) : selected is l sel -> incl sel l.
Proof.
  unfold selected. induction 1 as [|i x is sel E H IH]; intros y Hy; [destruct Hy|].
  destruct Hy as [->|Hy]; [now apply nth_error_In in E|now apply IH].
Qed.

Lemma NoDup_part (is l : list nat) : NoDup is -> incl is l -> exists rest, Permutation l (is ++ rest).
Proof.
  revert l. induction is as [|a is IH]; intros l Hn Hi; [now exists l|].
  inversion Hn as [|? ? Ha Hn']; subst.
  destruct (in_split a l (Hi a (or_introl eq_refl))) as (l1 & l2 & ->).
  destruct (IH (l1 ++ l2) Hn') as (rest & Hp).
  - intros y Hy. assert (Hy' := Hi y (or_intror Hy)). apply in_app_or in Hy' as [|[<-|]]; apply in_or_app; auto.
    now destruct (Ha Hy).
  - exists rest. cbn. rewrite <- Hp. symmetry. apply Permutation_middle.
Qed.

Lemma selected_default {X} (x0 : X) is l sel : selected is l sel -> sel = map (fun i => nth i l x0) is.
Proof.
  unfold selected. induction 1 as [|i x is sel E H IH]; cbn; [reflexivity|]. f_equal; [|exact IH].
  symmetry. now apply nth_error_nth.
Qed.

Lemma list_nth {X} (x0 : X) l : l = map (fun i => nth i l x0) (seq 0 (length l)).
Proof.
  induction l as [|x l IH]; [reflexivity|]. cbn. f_equal. rewrite <- seq_shift, map_map. exact IH.
Qed.

Lemma selected_part {X} is (l sel : list X) : selected is l sel -> NoDup is ->
  exists rest, Permutation l (sel ++ rest).
Proof.
  intros H Hn. destruct l as [|x0 l].
  - destruct H as [|i x is sel E H]; [now exists []|]. now destruct i.
  - assert (Hi : incl is (seq 0 (length (x0 :: l)))).
    { clear Hn. unfold selected in H. induction H as [|i x is sel E H IH]; intros j Hj; [destruct Hj|].
      destruct Hj as [<-|Hj]; [|now apply IH]. apply in_seq. split; [lia|]. apply nth_error_Some. congruence. }
    destruct (NoDup_part _ _ Hn Hi) as (rest & Hp). exists (map (fun i => nth i (x0 :: l) x0) rest).
    rewrite (selected_default x0 _ _ _ H), <- map_app, (list_nth x0 (x0 :: l)) at 1. now apply Permutation_map.
Qed.

Lemma selected_length {X} is (l sel : list X) : selected is l sel -> length is = length sel.
Proof. unfold selected. induction 1; cbn; congruence. Qed.

Lemma selected_all {X} is (l sel : list X) : selected is l sel -> Permutation is (seq 0 (length l)) ->
  Permutation l sel.
Proof.
  intros H Hp. destruct (selected_part _ _ _ H) as (rest & Hr).
  { apply (Permutation_NoDup (Permutation_sym Hp)), seq_NoDup. }
  assert (L := Permutation_length Hr). assert (L2 := selected_length _ _ _ H). assert (L3 := Permutation_length Hp).
  rewrite app_length in L. rewrite seq_length in L3. destruct rest; [|cbn in L; lia]. now rewrite app_nil_r in Hr.
Qed.

Section Arrange.
Context {A W fid did : Type}.
Notation value := (val A).
Notation expr := (expr A fid did).
Variable U : user A W fid did.
Variable pf : fid -> list value -> option value.
Variable rd : did -> W -> value.
Hypothesis Hpure : pure_user U pf rd.
Hypothesis Hexact : exact_eq U.
Notation eqb := (veq (aeq U)).
Notation eval := (eval pf rd).
Notation evals := (evals U pf rd).
Notation need := (need U pf rd).
Notation counterpart := (counterpart (did:=did) pf).

Variable ok : nat -> list nat -> Prop.
Notation arranged := (arranged (did:=did) pf ok).

(** *** Values *)
Definition same_value (e : expr) : Prop := forall e2, arranged e e2 -> forall w, eval e w = eval e2 w.

Lemma same_list es es2 : Forall same_value es -> Forall2 arranged es es2 ->
  forall w, map (fun e => eval e w) es = map (fun e => eval e w) es2.
Proof.
  intros Hok H w. induction H as [|e e2 es es2 He H IH]; [reflexivity|].
  inversion Hok as [|? ? H1 H2]; subst. cbn [map]. now rewrite (H1 e2 He w), (IH H2).
Qed.

Lemma Forall_selected {X} (P : X -> Prop) is l sel : selected is l sel -> Forall P l -> Forall P sel.
Proof. intros H HP. apply Forall_forall. intros x Hx. apply (proj1 (Forall_forall _ _) HP), (selected_In _ _ _ H x Hx). Qed.

Lemma arranged_value (e : expr) : same_value e.
Proof.
  induction e as [v|d|f es IH] using expr_ind_deps; intros e2 H w;
    inversion H as [| |? ? es' Hf|? g is ? sel sel' Ha Hk Hs Hf]; subst; try reflexivity.
  - cbn [LazySpec.eval]. now rewrite (same_list _ _ IH Hf).
  - destruct Ha as [_ Ha]. cbn [LazySpec.eval]. unfold fval.
    rewrite <- (same_list _ _ (Forall_selected _ _ _ _ Hs IH) Hf).
    rewrite <- (Ha (map (fun e => eval e w) es) (map (fun e => eval e w) sel)); [reflexivity|now rewrite map_length|].
    now apply selected_map.
Qed.

Lemma arranged_values es es2 : Forall2 arranged es es2 -> forall w, map (fun e => eval e w) es = map (fun e => eval e w) es2.
Proof. apply same_list, Forall_forall. intros e _. apply arranged_value. Qed.

Lemma arranged_need es es2 : Forall2 arranged es es2 -> forall o w, need o es w = need o es2 w.
Proof.
  intros H o w. destruct o as [w0|]; [|reflexivity]. unfold LawThms.need.
  induction H as [|e e2 es es2 He H IH]; [reflexivity|]. cbn [existsb].
  now rewrite !(arranged_value e e2 He), IH.
Qed.

Lemma need_selected is es sel o w : selected is es sel -> need o sel w = true -> need o es w = true.
Proof.
  intros H. destruct o as [w0|]; [|reflexivity]. unfold LawThms.need. intros E.
  apply existsb_exists in E as (e & Hin & He). apply existsb_exists. exists e. split; [|exact He].
  exact (selected_In _ _ _ H e Hin).
Qed.

Lemma need_permuted es es2 o w : Permutation es es2 -> need o es w = need o es2 w.
Proof.
  intros H. destruct o as [w0|]; [|reflexivity]. unfold LawThms.need.
  induction H; cbn [existsb]; auto; try congruence.
  now rewrite !orb_assoc, (orb_comm (negb (eqb (eval y w0) (eval y w)))).
Qed.

(** *** Evaluations *)
Definition covers (l1 l2 : list (fid + did)) : Prop :=
  exists l rest, Permutation l1 (l ++ rest) /\ Forall2 counterpart l l2.

Lemma covers_app a b c d : covers a b -> covers c d -> covers (a ++ c) (b ++ d).
Proof.
  intros (l & r & Hp & Hf) (l' & r' & Hp' & Hf'). exists (l ++ l'), (r ++ r'). split.
  - rewrite Hp, Hp', <- !app_assoc. apply Permutation_app_head. rewrite !app_assoc. apply Permutation_app_tail, Permutation_app_comm.
  - now apply Forall2_app.
Qed.

Lemma covers_part a b l rest : Permutation a (l ++ rest) -> covers l b -> covers a b.
Proof.
  intros H (k & r & Hp & Hf). exists k, (r ++ rest). split; [|exact Hf]. now rewrite H, Hp, app_assoc.
Qed.

Lemma covers_one x y : counterpart x y -> covers [x] [y].
Proof. intros H. exists [x], []. split; [reflexivity|]. constructor; [exact H|constructor]. Qed.

Definition matches (l1 l2 : list (fid + did)) : Prop :=
  exists l, Permutation l1 l /\ Forall2 counterpart l l2.

Lemma matches_app a b c d : matches a b -> matches c d -> matches (a ++ c) (b ++ d).
Proof.
  intros (l & Hp & Hf) (l' & Hp' & Hf'). exists (l ++ l'). split; [now rewrite Hp, Hp'|now apply Forall2_app].
Qed.
Lemma matches_one x y : counterpart x y -> matches [x] [y].
Proof. intros H. exists [x]. split; [reflexivity|]. constructor; [exact H|constructor]. Qed.
Lemma matches_perm a b l : Permutation a l -> matches l b -> matches a b.
Proof. intros H (k & Hp & Hf). exists k. split; [now rewrite H|exact Hf]. Qed.

Lemma counterpart_refl x : counterpart x x.
Proof. now left. Qed.

Lemma evals_fun o d w : evals o (EFun d) w = [inr d].
Proof.
  unfold LawThms.evals. cbn [since expected]. change (evaluations (?x :: ?l)) with (evaluations [x] ++ evaluations l).
  change (TFun d o) with (since o (EFun (A:=A) (fid:=fid) d)). now rewrite evals_compare.
Qed.

Lemma flat_map_permuted {X Y} (h : X -> list Y) l l2 : Permutation l l2 -> Permutation (flat_map h l) (flat_map h l2).
Proof. intros H. induction H; cbn; auto.
  - now apply Permutation_app_head.
  - rewrite !app_assoc. apply Permutation_app_tail, Permutation_app_comm.
  - etransitivity; eassumption.
Qed.

Section Logs.
(** The relation of the logs. *)
Variable R : list (fid + did) -> list (fid + did) -> Prop.
Hypothesis Rnil : R [] [].
Hypothesis Rapp : forall a b c d, R a b -> R c d -> R (a ++ c) (b ++ d).
Hypothesis Rone : forall x y, counterpart x y -> R [x] [y].
Hypothesis Rnode : forall f g is (es sel : list expr) l w o,
  arranges pf f (length es) is g -> ok (length es) is -> selected is es sel ->
  R (flat_map (fun e => evals o e w) sel) l ->
  R (evals o (EApp f es) w) (l ++ perhaps (need o sel w) g).

Definition same_log (e : expr) : Prop := forall e2, arranged e e2 -> forall o w, R (evals o e w) (evals o e2 w).

Lemma log_list es es2 : Forall same_log es -> Forall2 arranged es es2 -> forall o w,
  R (flat_map (fun e => evals o e w) es) (flat_map (fun e => evals o e w) es2).
Proof.
  intros Hok H o w. induction H as [|e e2 es es2 He H IH]; [exact Rnil|].
  inversion Hok as [|? ? H1 H2]; subst. cbn [flat_map]. apply Rapp; [now apply H1|now apply IH].
Qed.

Lemma arranged_log (e : expr) : same_log e.
Proof.
  induction e as [v|d|f es IH] using expr_ind_deps; intros e2 H o w;
    inversion H as [| |? ? es' Hf|? g is ? sel sel' Ha Hk Hs Hf]; subst.
  - exact Rnil.
  - rewrite evals_fun. apply Rone, counterpart_refl.
  - rewrite !(evals_app U pf rd Hexact), <- (arranged_need _ _ Hf). apply Rapp; [now apply log_list|].
    destruct (need o es w); [apply Rone, counterpart_refl|exact Rnil].
  - rewrite (evals_app U pf rd Hexact o g), <- (arranged_need _ _ Hf). apply Rnode with is; auto.
    apply log_list; [|exact Hf]. exact (Forall_selected _ _ _ _ Hs IH).
Qed.
End Logs.

Lemma arranged_differs o (e e2 : expr) w : arranged e e2 ->
  differs pf rd eqb (since o e) w = differs pf rd eqb (since o e2) w.
Proof.
  intros H. destruct o as [w0|].
  - rewrite !(differs_since U pf rd Hexact). now rewrite !(arranged_value e e2 H).
  - now destruct H.
Qed.

Lemma arranged_seq (R : list (fid + did) -> list (fid + did) -> Prop) (HR : forall e e2, arranged e e2 -> forall o w, R (evals o e w) (evals o e2 w))
    (e e2 : expr) : arranged e e2 -> regular pf rd e -> never_null pf rd e ->
  regular pf rd e2 -> never_null pf rd e2 -> forall ws o l l2,
  rel U pf rd (since o e) l -> rel U pf rd (since o e2) l2 ->
  Forall2 (fun r r2 => fst r = fst r2 /\ R (evaluations (snd r)) (evaluations (snd r2)))
    (call_seq U l ws) (call_seq U l2 ws).
Proof.
  intros H Hr Hn Hr2 Hn2. induction ws as [|w ws IH]; intros o l l2 Hl Hl2; cbn [call_seq]; [constructor|].
  destruct (since_step U pf rd Hpure Hexact o e l w Hl Hr Hn) as (l' & -> & Hl').
  destruct (since_step U pf rd Hpure Hexact o e2 l2 w Hl2 Hr2 Hn2) as (l2' & -> & Hl2').
  constructor; [|now apply IH with (Some w)].
  cbn [fst snd]. split; [|apply (HR e e2 H)]. now rewrite (arranged_value e e2 H), (arranged_differs o e e2 w H).
Qed.

Lemma arranged_calls (R : list (fid + did) -> list (fid + did) -> Prop) (HR : forall e e2, arranged e e2 -> forall o w, R (evals o e w) (evals o e2 w))
    e e2 l l2 ws : created U e l -> created U e2 l2 ->
  arranged e e2 -> regular pf rd e -> never_null pf rd e -> regular pf rd e2 -> never_null pf rd e2 ->
  Forall2 (fun r r2 => fst r = fst r2 /\ R (evaluations (snd r)) (evaluations (snd r2)))
    (call_seq U l ws) (call_seq U l2 ws).
Proof.
  intros (p & w & s & outs & es & x & Hc & Hrun & Hsh & He & Hl)
    (p2 & w2 & s2 & outs2 & es2 & x2 & Hc2 & Hrun2 & Hsh2 & He2 & Hl2) H Hr Hn Hr2 Hn2.
  apply (arranged_seq R HR e e2 H Hr Hn Hr2 Hn2 ws None).
  - destruct (program_var U p w s outs es x e Hrun Hsh He) as (l0 & Hl0 & Hs).
    rewrite Hl in Hl0. injection Hl0 as <-. apply fresh_rel; [exact Hs|].
    eapply fresh_nth; [|exact Hl]. eapply run_fresh; [exact Hc| |exact Hrun]. constructor.
  - destruct (program_var U p2 w2 s2 outs2 es2 x2 e2 Hrun2 Hsh2 He2) as (l0 & Hl0 & Hs).
    rewrite Hl2 in Hl0. injection Hl0 as <-. apply fresh_rel; [exact Hs|].
    eapply fresh_nth; [|exact Hl2]. eapply run_fresh; [exact Hc2| |exact Hrun2]. constructor.
Qed.

End Arrange.

Section Laws.
Context {A W fid did : Type}.
Notation value := (val A).
Notation expr := (expr A fid did).
Variable U : user A W fid did.
Variable pf : fid -> list value -> option value.
Variable rd : did -> W -> value.
Hypothesis Hpure : pure_user U pf rd.
Hypothesis Hexact : exact_eq U.
Notation evals := (evals U pf rd).
Notation need := (need U pf rd).

Lemma arranges_counterpart f n is g : arranges pf f n is g -> counterpart (did:=did) pf (inl f) (inl g).
Proof. intros H. right. now exists f, g, n, is. Qed.

(** Any number of times. *)
Definition among (l1 l2 : list (fid + did)) : Prop :=
  forall y, In y l2 -> exists x, In x l1 /\ counterpart pf x y.

Lemma among_app a b c d : among a b -> among c d -> among (a ++ c) (b ++ d).
Proof.
  intros H1 H2 y Hy. apply in_app_or in Hy as [Hy|Hy]; [destruct (H1 y Hy) as (x & Hx & Hc)|destruct (H2 y Hy) as (x & Hx & Hc)];
    exists x; (split; [apply in_or_app; auto|exact Hc]).
Qed.

Lemma anyhow_log (e e2 : expr) : arranged (did:=did) pf anyhow e e2 -> forall o w, among (evals o e w) (evals o e2 w).
Proof.
  intros H o w. revert e2 H o w. apply (arranged_log U pf rd Hexact anyhow among).
  - intros y [].
  - exact among_app.
  - intros x y H z [<-|[]]. exists x. split; [now left|exact H].
  - intros f g is es sel l w o Ha _ Hs Hl y Hy. rewrite (evals_app U pf rd Hexact).
    apply in_app_or in Hy as [Hy|Hy].
    + destruct (Hl y Hy) as (x & Hx & Hc). exists x. split; [|exact Hc]. apply in_or_app. left.
      apply in_flat_map in Hx as (e' & He & Hx). apply in_flat_map. exists e'. split; [|exact Hx].
      exact (selected_In _ _ _ Hs e' He).
    + destruct (need o sel w) eqn:E; [|destruct Hy]. destruct Hy as [<-|[]].
      exists (inl f). split; [|exact (arranges_counterpart _ _ _ _ Ha)]. apply in_or_app. right.
      rewrite (need_selected U pf rd is es sel o w Hs E). now left.
Qed.

Lemma left_out_log (e e2 : expr) : arranged (did:=did) pf left_out e e2 -> forall o w,
  covers pf (evals o e w) (evals o e2 w).
Proof.
  intros H o w. revert e2 H o w. apply (arranged_log U pf rd Hexact left_out (covers pf)).
  - exists [], []. split; [reflexivity|constructor].
  - exact (covers_app pf).
  - exact (covers_one pf).
  - intros f g is es sel l w o Ha Hk Hs Hl. rewrite (evals_app U pf rd Hexact).
    apply covers_app.
    + destruct (selected_part _ _ _ Hs Hk) as (rest & Hp). apply (covers_part pf) with (2:=Hl) (rest:=flat_map (fun e => evals o e w) rest).
      rewrite <- flat_map_app. now apply flat_map_permuted.
    + destruct (need o sel w) eqn:E.
      * rewrite (need_selected U pf rd is es sel o w Hs E). exact (covers_one pf _ _ (arranges_counterpart _ _ _ _ Ha)).
      * exists [], (perhaps (need o es w) f). split; [reflexivity|constructor].
Qed.

Lemma reordered_log (e e2 : expr) : arranged (did:=did) pf reordered e e2 -> forall o w,
  matches pf (evals o e w) (evals o e2 w).
Proof.
  intros H o w. revert e2 H o w. apply (arranged_log U pf rd Hexact reordered (matches pf)).
  - exists []. split; [reflexivity|constructor].
  - exact (matches_app pf).
  - exact (matches_one pf).
  - intros f g is es sel l w o Ha Hk Hs Hl. rewrite (evals_app U pf rd Hexact).
    pose proof (selected_all _ _ _ Hs Hk) as Hp. apply matches_app.
    + apply (matches_perm pf) with (2:=Hl). now apply flat_map_permuted.
    + rewrite (need_permuted U pf rd _ _ o w Hp). destruct (need o sel w).
      * exact (matches_one pf _ _ (arranges_counterpart _ _ _ _ Ha)).
      * exists []. split; [reflexivity|constructor].
Qed.

(** C84 (1) *)
Lemma reordered_calls (e e2 : expr) l l2 ws : created U e l -> created U e2 l2 -> arranged pf reordered e e2 ->
  regular pf rd e -> never_null pf rd e -> regular pf rd e2 -> never_null pf rd e2 ->
  Forall2 (fun r r2 => fst r = fst r2 /\
             exists log, Permutation (evaluations (snd r)) log /\
                         Forall2 (counterpart pf) log (evaluations (snd r2)))
    (call_seq U l ws) (call_seq U l2 ws).
Proof. exact (arranged_calls U pf rd Hpure Hexact _ _ reordered_log e e2 l l2 ws). Qed.

(** C84 (2) *)
Lemma left_out_calls (e e2 : expr) l l2 ws : created U e l -> created U e2 l2 -> arranged pf left_out e e2 ->
  regular pf rd e -> never_null pf rd e -> regular pf rd e2 -> never_null pf rd e2 ->
  Forall2 (fun r r2 => fst r = fst r2 /\
             exists log more, Permutation (evaluations (snd r)) (log ++ more) /\
                              Forall2 (counterpart pf) log (evaluations (snd r2)))
    (call_seq U l ws) (call_seq U l2 ws).
Proof. exact (arranged_calls U pf rd Hpure Hexact _ _ left_out_log e e2 l l2 ws). Qed.

(** C84 (3) *)
Lemma anyhow_calls (e e2 : expr) l l2 ws : created U e l -> created U e2 l2 -> arranged pf anyhow e e2 ->
  regular pf rd e -> never_null pf rd e -> regular pf rd e2 -> never_null pf rd e2 ->
  Forall2 (fun r r2 => fst r = fst r2 /\
             forall y, In y (evaluations (snd r2)) ->
             exists z, In z (evaluations (snd r)) /\ counterpart pf z y)
    (call_seq U l ws) (call_seq U l2 ws).
Proof. exact (arranged_calls U pf rd Hpure Hexact _ _ anyhow_log e e2 l l2 ws). Qed.
End Laws.

(** ** Examples *)

(** 0: a difference; 1: the other way round; 2: a sum of three that leaves out the second; 3: a
    sum of two; 4: twice a number. *)
Definition arr_pf (f : nat) (args : list (val nat)) : option (val nat) :=
  match f, args with
  | 0, [x; y] => Some (VAtom (atom x - atom y))
  | 1, [y; x] => Some (VAtom (atom x - atom y))
  | 2, [x; _; z] => Some (VAtom (atom x + atom z))
  | 3, [x; y] => Some (VAtom (atom x + atom y))
  | 4, [x] => Some (VAtom (atom x + atom x))
  | _, _ => Some (VAtom 0)
  end.
(** Inputs are numbered. *)
Definition arr_rd (d : nat) (w : list nat) : val nat := VAtom (nth d w 0).
Definition arr_user : user nat (list nat) nat nat :=
  mkUser (fun f args w => (FRet (arr_pf f args), w)) (fun d w => (VRet (arr_rd d w), w)) Nat.eqb 0.

Lemma arr_pure : pure_user arr_user arr_pf arr_rd.
Proof. split; reflexivity. Qed.
Lemma arr_exact : exact_eq arr_user.
Proof. intros a b. apply Nat.eqb_eq. Qed.

Lemma arr_swap : arranges arr_pf 0 2 [1; 0] 1.
Proof.
  split; [now repeat (constructor; [lia|])|]. intros [|x [|y [|]]] sel L H; try discriminate L.
  apply (selected_default x) in H. now subst.
Qed.
Lemma arr_drop : arranges arr_pf 2 3 [0; 2] 3.
Proof.
  split; [now repeat (constructor; [lia|])|]. intros [|x [|y [|z [|]]]] sel L H; try discriminate L.
  apply (selected_default x) in H. now subst.
Qed.
Lemma arr_twice : arranges arr_pf 4 1 [0; 0] 3.
Proof.
  split; [now repeat (constructor; [lia|])|]. intros [|x [|]] sel L H; try discriminate L.
  apply (selected_default x) in H. now subst.
Qed.

(** A sum; input [true] throws while the flag is set. *)
Definition flag_user : user nat (nat * bool) nat bool :=
  mkUser (fun _ args w => (FRet (Some (VAtom (fold_right (fun v n => atom v + n) 0 args))), w))
    (fun (d : bool) (w : nat * bool) => (if d then if snd w then VThrow else VRet (VAtom 0) else VRet (VAtom (fst w)), w)) Nat.eqb 0.

(** If functions throw, the order of the dependencies matters. *)
Lemma reordered_throws : exists (U : user nat (nat * bool) nat bool) f d1 d2 w h s1 o1 s2 o2,
  readonly_user U /\ exact_eq U /\ (forall x y w, sem U f [y; x] w = sem U f [x; y] w) /\
  run U [New f [DFun d1; DFun d2]; Call 0; Env h; Call 0; Env (fun w => (fst w, false)); Call 0] (mkState [] w) = Some (s1, o1) /\
  run U [New f [DFun d2; DFun d1]; Call 0; Env h; Call 0; Env (fun w => (fst w, false)); Call 0] (mkState [] w) = Some (s2, o2) /\
  map fst o1 <> map fst o2.
Proof.
  exists flag_user, 0, true, false, (1, false), (fun _ => (2, true)). do 4 eexists.
  split; [split; reflexivity|]. split; [intros a b; apply Nat.eqb_eq|]. split.
  { intros x y w. cbn. do 4 f_equal. lia. }
  split; [vm_compute; reflexivity|]. split; [vm_compute; reflexivity|]. vm_compute. discriminate.
Qed.
