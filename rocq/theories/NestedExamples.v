(** Programs for the statements of PropsNested.v, and the counterexamples. *)
From Coq Require Import List Bool Arith Lia.
From Verif Require Import Value TupleAlg LazyModel LazySpec DocSpec NestedModel NestedSpec NestedThms NestedCalls NestedNeed NestedSelf
  SharedModel LazyExamples NestedShared.
Import ListNotations.

Definition atoms (l : list (val nat)) : nat :=
  list_sum (map (fun v => match v with VAtom n => n | _ => 0 end) l).

(** ** Sharing *)
Definition sum_fn (f : nat) (args : list (val nat)) : option (val nat) := Some (VAtom (f + atoms args)).

Definition share_user : nuser nat (nat * nat) nat nat :=
  mkNUser (fun f args => Return (sum_fn f args))
          (fun d => match d with
                    | 0 => Look (fun w : nat * nat => Return (Some (VAtom (fst w))))
                    | 1 => Look (fun w : nat * nat => Return (Some (VAtom (snd w))))
                    | S (S x) => lambda x
                    end)
          Nat.eqb.

(** x0 reads the world; x1 and x2 use x0; x3 uses x1 and x2. *)
Definition share_defs : list (nat * list (ndepspec nat nat)) :=
  [(100, [PFun 0]); (200, [PFun 2; PFun 1]); (300, [PFun 2; PValue (VAtom 1)]); (400, [PFun 3; PFun 4])].

Definition share_program : list (nop nat (nat * nat) nat nat) :=
  map (fun d => PNew (fst d) (snd d)) share_defs ++
  [PCall 3; PCall 3; PEnv (fun w => (7, snd w)); PCall 2; PCall 3; PEnv (fun w => (fst w, 9)); PCall 3; PEnv (fun w => w); PCall 1].

Lemma share_values w : values (plain share_user) sum_fn share_defs w =
  [VAtom (100 + (fst w + 0)); VAtom (200 + (100 + (fst w + 0) + (snd w + 0))); VAtom (300 + (100 + (fst w + 0) + 1));
   VAtom (400 + (200 + (100 + (fst w + 0) + (snd w + 0)) + (300 + (100 + (fst w + 0) + 1) + 0)))].
Proof. reflexivity. Qed.

Lemma ex_C71 :
  (forall f args, body share_user f args = Return (sum_fn f args)) /\
  (forall a b, naeq share_user a b = true -> a = b) /\
  (exists vals, neager (plain share_user) sum_fn share_program [] (5, 3) = Some (share_defs, vals)) /\
  shared_by_functions (plain share_user) share_defs /\
  on_arguments (fun args => match args with [v] => as_tuple v = None | _ => True end) (plain share_user) sum_fn share_defs /\
  on_arguments (Forall (fun v => nested_opt v = false)) (plain share_user) sum_fn share_defs /\
  (forall a, naeq share_user a a = true) /\ NoDup (map fst share_defs) /\
  on_arguments (Forall (fun v => has_nullopt v = false)) (plain share_user) sum_fn share_defs /\
  exists vs w outs, nrun share_user 4 share_program [] (5, 3) = Some (vs, w, outs) /\
    results outs = map (fun n => Ok (Some (VAtom n))) [1114; 1114; 408; 1118; 1124; 316] /\
    map (fun o => length (function_calls (snd o))) outs = [0; 0; 0; 0; 4; 0; 0; 2; 2; 0; 2; 0; 0].
Proof.
  assert (Hargs : forall (P : list (val nat) -> Prop), (forall a, P [VAtom a]) -> (forall a b, P [VAtom a; VAtom b]) ->
                  on_arguments P (plain share_user) sum_fn share_defs).
  { intros P H1 H2 w i d Hi. rewrite share_values.
    destruct i as [|[|[|[|i]]]]; cbn in Hi; try (injection Hi as <-); [| | | |destruct i; discriminate];
      unfold args_of; cbn -[Nat.add]; auto. }
  split; [reflexivity|]. split; [intros a b; apply Nat.eqb_eq|]. split; [eexists; vm_compute; reflexivity|]. split.
  { intros i f ss Hi. destruct i as [|[|[|[|i]]]]; cbn in Hi; try (injection Hi as <- <-); [| | | |destruct i; discriminate];
      repeat (constructor; try lia); intros []; repeat constructor. }
  split; [apply Hargs; cbn; auto|]. split; [apply Hargs; repeat constructor|].
  split; [apply Nat.eqb_refl|]. split; [repeat constructor; cbn; lia|]. split; [apply Hargs; repeat constructor|].
  do 3 eexists. split; [vm_compute; reflexivity|]. split; reflexivity.
Qed.

(** The same with [std::ref]: the second user is not told. *)
Definition ref_program : list (nop nat (nat * nat) nat nat) :=
  [PNew 100 [PFun 0]; PNew 200 [PRef 0]; PNew 300 [PRef 0]; PCall 1; PCall 2; PEnv (fun w => (7, snd w)); PCall 1; PCall 2].

Lemma ref_refuted :
  ~ (forall (A W fid did : Type) (U : nuser A W fid did) pf,
     (forall f args, body U f args = Return (pf f args)) -> (forall a b, naeq U a b = true <-> a = b) ->
     forall p w ds vals, neager (plain U) pf p [] w = Some (ds, vals) -> calls_earlier (body U) (plain U) ds ->
     exists n vs w' outs, nrun U n p [] w = Some (vs, w', outs) /\ results outs = map Ok vals).
Proof.
  intros H. destruct (H _ _ _ _ share_user sum_fn) with (p := ref_program) (w := (5, 3))
    (ds := [(100, [PFun 0]); (200, [PRef 0]); (300, [@PRef nat nat 0])])
    (vals := map (fun n => Some (VAtom n)) [305; 405; 307; 407])
    as (n & vs & w' & outs & E & Hr).
  - reflexivity.
  - intros a b. apply Nat.eqb_eq.
  - vm_compute. reflexivity.
  - intros i f ss Hi. destruct i as [|[|[|i]]]; cbn in Hi; try (injection Hi as <- <-); [| | |destruct i; discriminate];
      (split; [intros; constructor|]); repeat constructor.
  - apply (nrun_mono _ n (n + 3)) in E; [|lia].
    assert (E3 : exists vs3 w3 outs3, nrun share_user 3 ref_program [] (5, 3) = Some (vs3, w3, outs3) /\
                 results outs3 = map (fun n => Ok (Some (VAtom n))) [305; 405; 307; 405]).
    { do 3 eexists. split; [vm_compute; reflexivity|reflexivity]. }
    destruct E3 as (vs3 & w3 & outs3 & E3 & Hr3). apply (nrun_mono _ 3 (n + 3)) in E3; [|lia].
    rewrite E3 in E. injection E as <- <- <-. rewrite Hr in Hr3. discriminate.
Qed.

(** ** Functions that call lazy functions *)

(** Function 0 counts its calls, and throws at the first; function 1 calls it again. *)
Definition retry_user : nuser nat nat nat nat :=
  mkNUser (fun f _ => match f with
                      | 0 => Act S (Look (fun w => if Nat.eqb w 1 then Throw else Return (Some (VAtom (10 * w)))))
                      | _ => CallLazy 0 (fun r => match r with
                                                  | Some o => Return o
                                                  | None => CallLazy 0 (fun r' => match r' with Some o => Return o | None => Throw end)
                                                  end)
                      end)
          (fun _ => Throw) Nat.eqb.

Definition retry_program : list (nop nat nat nat nat) := [PNew 0 []; PNew 1 []].

Lemma ex_retry :
  known (retry_program ++ PCall 1 :: [PEnv (fun _ => 50)] ++ [PCall 1]) 0 /\
  calls_earlier (body retry_user) (plain retry_user) (definitions (retry_program ++ PCall 1 :: [PEnv (fun _ => 50)] ++ [PCall 1]) []) /\
  nth_error (definitions retry_program []) 1 = Some (1, []) /\
  exists vs outs, nrun retry_user 2 (retry_program ++ PCall 1 :: [PEnv (fun _ => 50)] ++ [PCall 1]) [] 0 = Some (vs, 50, outs) /\
    outs = [(None, []); (None, []);
            (Some (Ok (Some (VAtom 20))), [EvCall 1 []; EvCall 0 []; EvCall 0 []]);
            (None, []); (Some (Ok (Some (VAtom 20))), [])].
Proof.
  split; [cbn; lia|]. split.
  { intros i f ss Hi. destruct i as [|[|i]]; cbn in Hi; try (injection Hi as <- <-); [| |destruct i; discriminate]; split;
      [|constructor| |constructor]; intros args; cbn.
    - repeat constructor. intros w. destruct w as [|[|w]]; constructor.
    - constructor; [lia|]. intros [o|]; constructor; [lia|]. intros [o|]; constructor. }
  split; [reflexivity|]. do 2 eexists. split; vm_compute; reflexivity.
Qed.

(** By need: 1 uses 0, 2 uses 0 and 1, 3 is not used. *)
Definition need_user : nuser nat nat nat nat :=
  mkNUser (fun f _ => match f with
                      | 10 => Look (fun w : nat => Return (Some (VAtom w)))
                      | 11 => CallLazy 0 (fun r => Return (match r with Some (Some (VAtom n)) => Some (VAtom (n + 1)) | _ => None end))
                      | 12 => CallLazy 0 (fun r => CallLazy 1 (fun r' =>
                                Return (match r, r' with Some (Some (VAtom n)), Some (Some (VAtom m)) => Some (VAtom (n * m)) | _, _ => None end)))
                      | _ => Return (Some (VAtom 99))
                      end)
          (fun _ => Throw) Nat.eqb.

Lemma ex_need :
  NoDup [10; 11; 12; 13] /\
  (forall i f, nth_error [10; 11; 12; 13] i = Some f -> gentle i (body need_user f [])) /\
  Forall (fun x => x < length [10; 11; 12; 13]) [2; 1; 2] /\
  needs (body need_user) [10; 11; 12; 13] 6 = map VAtom [6; 7; 42; 99] /\
  exists vs outs, nrun need_user 4 (map (fun f => PNew f []) [10; 11; 12; 13] ++ map PCall [2; 1; 2]) [] 6 = Some (vs, 6, outs) /\
    map snd outs = [[]; []; []; []; [EvCall 12 []; EvCall 10 []; EvCall 11 []]; []; []].
Proof.
  split; [repeat constructor; cbn; lia|]. split.
  { intros i f Hi. destruct i as [|[|[|[|i]]]]; cbn in Hi; try (injection Hi as <-); [| | | |destruct i; discriminate];
      repeat (constructor; try lia; intros). }
  split; [repeat constructor|]. split; [reflexivity|]. do 2 eexists. split; vm_compute; reflexivity.
Qed.

(** What a wrapped function calls is not a dependency: x1 calls x0 and is not told. *)
Definition untracked_user : nuser nat nat nat nat :=
  mkNUser (fun f args => match f with 0 => Return (Some (VAtom (atoms args))) | _ => lambda 0 end)
          (fun _ => Look (fun w : nat => Return (Some (VAtom w)))) Nat.eqb.

Lemma untracked :
  exists vs outs, nrun untracked_user 2 [PNew 0 [PFun 0]; PNew 1 []; PCall 1; PEnv (fun _ => 8); PCall 0; PCall 1] [] 3 = Some (vs, 8, outs) /\
    results outs = map (fun n => Ok (Some (VAtom n))) [3; 8; 3].
Proof. do 2 eexists. split; vm_compute; reflexivity. Qed.

(** ** Functions that come back to themselves *)

(** x0 has a plain function that calls x1, and x1 takes [std::ref(x0)]; x2 calls itself;
    x3 does not. *)
Definition loop_user : nuser nat nat nat nat :=
  mkNUser (fun f args => match f with 0 => CallLazy 2 (fun _ => Return None) | _ => Return (Some (VAtom (atoms args))) end)
          (fun d => match d with 0 => Act S (Look (fun _ => lambda 1)) | _ => Return (Some (VAtom 4)) end) Nat.eqb.

Definition loop_program : list (nop nat nat nat nat) :=
  [PNew 7 [PFun 0; PValue (VAtom 1)]; PNew 8 [PRef 0]; PNew 0 []; PNew 9 [PFun 1]; PCall 3; PEnv S].

Lemma ex_loop :
  Forall (fun o => match o with PCopy _ => False | _ => True end) loop_program /\
  circular (body loop_user) (plain loop_user) (definitions loop_program []) (fun x => x < 3) /\
  exists vs outs, nrun loop_user 1 loop_program [] 0 = Some (vs, 1, outs) /\ results outs = [Ok (Some (VAtom 4))].
Proof.
  split; [repeat constructor|]. split.
  { intros i f ss Hx Hi. destruct i as [|[|[|i]]]; [| | |lia]; cbn in Hi; injection Hi as <- <-; cbn; [|lia|].
    - apply enters_act, enters_look. intros _. constructor. lia.
    - constructor. lia. }
  do 2 eexists. split; vm_compute; reflexivity.
Qed.

(** The sum of all that was read. *)
Definition adder : nuser nat (bool * nat) nat nat :=
  mkNUser (fun (_ : nat) (args : list (val nat)) => match args with
                         | [VAtom a] => Look (fun w : bool * nat => if fst w then Return (Some (VAtom a))
                                          else CallLazy 0 (fun r => match r with
                                                                    | Some (Some (VAtom b)) => Return (Some (VAtom (a + b)))
                                                                    | _ => Throw
                                                                    end))
                         | _ => Throw
                         end)
          (fun _ : nat => Look (fun w : bool * nat => Return (Some (VAtom (snd w))))) Nat.eqb.

Lemma ex_previous :
  (forall a b, naeq adder a b = true <-> a = b) /\
  plain adder 1 = Look (fun w : bool * nat => Return (Some (VAtom (snd w)))) /\
  (forall a, body adder 0 [VAtom a] =
     Look (fun w : bool * nat => if fst w then Return (Some (VAtom (id a)))
                    else CallLazy 0 (fun r : option (option (val nat)) => match r with
                                              | Some (Some (VAtom b)) => Return (Some (VAtom (a + b)))
                                              | _ => Throw
                                              end))) /\
  exists vs w outs,
    nrun adder 2 (PNew 0 [PFun 1] :: visits ((true, 5) :: [(false, 5); (false, 7); (false, 7); (false, 2)])) [] (false, 0) = Some (vs, w, outs) /\
    results outs = map (fun n => Ok (Some (VAtom n))) [5; 5; 12; 12; 14].
Proof.
  split; [intros a b; apply Nat.eqb_eq|]. split; [reflexivity|]. split; [reflexivity|].
  do 3 eexists. split; vm_compute; reflexivity.
Qed.

(** Counts the world down to nothing, then doubles on the way back. *)
Definition doubler : nuser nat nat nat nat :=
  mkNUser (fun (_ : nat) (_ : list (val nat)) =>
             Look (fun w => if Nat.eqb w 0 then Return (Some (VAtom (w + 1)))
                            else Act pred (CallLazy 0 (fun r => match r with
                                                                | Some (Some (VAtom b)) => Return (Some (VAtom (2 * b)))
                                                                | _ => Throw
                                                                end))))
          (fun _ : nat => Throw) Nat.eqb.

Lemma ex_doubler :
  (body doubler 5 [] =
     Look (fun w : nat => if Nat.eqb w 0 then Return (Some (VAtom (w + 1)))
                    else Act pred (CallLazy 0 (fun r : option (option (val nat)) =>
                                                 match r with
                                                 | Some (Some (VAtom b)) => Return (Some (VAtom (2 * b)))
                                                 | _ => Throw
                                                 end)))) /\
  Nat.eqb (descend pred 3 3) 0 = true /\ (forall j, j < 3 -> Nat.eqb (descend pred j 3) 0 = false) /\
  nrun doubler 3 [PNew 5 []; PCall 0; PEnv S; PCall 0] [] 3 = None /\
  exists vs outs, nrun doubler 4 [PNew 5 []; PCall 0; PEnv S; PCall 0] [] 3 = Some (vs, 1, outs) /\
    results outs = map (fun n => Ok (Some (VAtom n))) [8; 8].
Proof.
  split; [reflexivity|]. split; [reflexivity|]. split; [intros [|[|[|j]]] Hj; [reflexivity..|lia]|].
  split; [reflexivity|]. do 2 eexists. split; vm_compute; reflexivity.
Qed.

(** The dependency calls the lazy function until the world is down to nothing, and then
    goes up; the wrapped function halves. *)
Definition halver : nuser nat nat nat nat :=
  mkNUser (fun (_ : nat) (args : list (val nat)) => match args with [VAtom a] => Return (Some (VAtom (Nat.div2 a))) | _ => Throw end)
          (fun _ : nat =>
             Look (fun w => if Nat.eqb w 0 then Return (Some (VAtom (w + 9)))
                            else Act pred (CallLazy 0 (fun r => match r with
                                                                | Some (Some (VAtom b)) => Return (Some (VAtom (b + 3)))
                                                                | _ => Throw
                                                                end))))
          Nat.eqb.

Lemma ex_halver :
  (forall a b, naeq halver a b = true <-> a = b) /\
  plain halver 1 =
     Look (fun w : nat => if Nat.eqb w 0 then Return (Some (VAtom (w + 9)))
                    else Act pred (CallLazy 0 (fun r : option (option (val nat)) =>
                                                 match r with
                                                 | Some (Some (VAtom b)) => Return (Some (VAtom (b + 3)))
                                                 | _ => Throw
                                                 end))) /\
  (forall a, body halver 5 [VAtom a] = Return (Some (VAtom (Nat.div2 a)))) /\
  Nat.eqb (descend pred 5 5) 0 = true /\ (forall j, j < 5 -> Nat.eqb (descend pred j 5) 0 = false) /\
  exists vs outs, nrun halver 6 [PNew 5 [PFun 1]; PCall 0] [] 5 = Some (vs, 0, outs) /\
    results outs = [Ok (Some (VAtom 3))] /\
    function_calls (concat (map snd outs)) = map (fun a => (5, [VAtom a])) [9; 7; 6].
Proof.
  split; [intros a b; apply Nat.eqb_eq|]. split; [reflexivity|]. split; [reflexivity|].
  split; [reflexivity|]. split; [intros [|[|[|[|[|j]]]]] Hj; [reflexivity..|lia]|].
  do 2 eexists. split; [vm_compute; reflexivity|]. split; reflexivity.
Qed.

(** Both dependencies read the world; the second calls the lazy function. *)
Definition latest_user : nuser nat nat nat nat :=
  mkNUser (fun (_ : nat) (args : list (val nat)) => match args with [VAtom a; VAtom b] => Return (Some (VAtom (100 * a + b))) | _ => Throw end)
          (fun d : nat => match d with
                          | 0 => Look (fun w => Return (Some (VAtom (w + 1))))
                          | _ => Look (fun w => if Nat.eqb w 0 then Return (Some (VAtom (w + 50)))
                                                else Act pred (CallLazy 0 (fun _ => Look (fun w' => Return (Some (VAtom (w' + 50)))))))
                          end)
          Nat.eqb.

Lemma ex_latest :
  (forall a b, naeq latest_user a b = true <-> a = b) /\
  plain latest_user 0 = Look (fun w : nat => Return (Some (VAtom (w + 1)))) /\
  plain latest_user 1 = Look (fun w : nat => if Nat.eqb w 0 then Return (Some (VAtom (w + 50)))
     else Act pred (CallLazy 0 (fun _ : option (option (val nat)) => Look (fun w' : nat => Return (Some (VAtom (w' + 50))))))) /\
  (forall a b, body latest_user 5 [VAtom a; VAtom b] = Return (Some (VAtom (100 * a + b)))) /\
  Nat.eqb (descend pred 3 3) 0 = true /\ (forall j, j < 3 -> Nat.eqb (descend pred j 3) 0 = false) /\
  exists vs outs, nrun latest_user 4 [PNew 5 [PFun 0; PFun 1]; PCall 0] [] 3 = Some (vs, 0, outs) /\
    results outs = [Ok (Some (VAtom 150))].
Proof.
  split; [intros a b; apply Nat.eqb_eq|]. split; [reflexivity|]. split; [reflexivity|]. split; [reflexivity|].
  split; [reflexivity|]. split; [intros [|[|[|j]]] Hj; [reflexivity..|lia]|].
  do 2 eexists. split; vm_compute; reflexivity.
Qed.

(** ** Functions that call nothing *)
Definition plain_refs : list (sop nat (nat * nat) nat bool) :=
  [SNew 2 [SDep (DFun true)]; SNew 0 [SDRef 0; SDep (DFun false); SDep (DConst (VAtom 10))]; SNew 0 [SDRef 1; SDRef 0]; SCall 2;
   SEnv (set_first 6); SCall 1; SCall 2; SCopy 2; SCall 3].

Lemma ex_plain_refs :
  exists q s outs, quiet_program plain_refs = Some q /\ srun ex_user plain_refs (mkSState [] (5, 3)) = Some (s, outs) /\
    results outs = map (fun n => Ok (Some (VAtom n))) [15; 13; 15; 15] /\
    nth_error q 1 = Some (PNew 0 [PRef 0; PFun false; PValue (VAtom 10)]).
Proof. do 3 eexists. split; [reflexivity|]. split; [vm_compute; reflexivity|]. split; reflexivity. Qed.
