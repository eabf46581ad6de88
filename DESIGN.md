# Formal model of pigro in Rocq (Coq 8.16.1): design

pigro is a header-only C++20 library. `pigro::lazy(f, deps...)` makes a function object
that caches `f`'s result and re-evaluates it when a dependency changed. Everything below
`lazy.h` is infrastructure: tuples that store empty types for free, binders, a "void as a
value" adapter, type-level helpers.

## 1. Three readings of lazy.h

Reading the pinned sources literally gives separable things, and each is modelled.

* **The algorithm**: the body of the lambda at `lazy.h:50-66`. It works on a cache and on
  the results of its dependencies. The documentation (`docs/walkthrough/final_design.md`)
  describes objects that keep this state from call to call. We call such an object *kept*.
  Model: `LazyModel.v` and its variants. Properties C01-C21, C48, C55, C56, C58, C59, C62, C63, C69-C74, C76, C77, C78, C82, C84, C85, C86, C87, C88, C89, C90, C91, C92, C93, C94, C95, C96, C97.
* **The composition as written**: how `lazy.h`, `bind_tuple.h` and `regular_void.h` wire that
  lambda into an object. At the pinned commit the wiring passes things by value:
  - `bind_back_tuple` (`<<`) calls `std::bind_front(f, ...)`, which stores a *copy* of `f`
    (`bind_tuple.h:46`). The lambda that owns the cache is that `f` (`lazy.h:50`).
  - lambda parameters `auto f, auto... deps` are copies (`lazy.h:38,50,70,84`, `regular_void.h:16,29`).
  - `LazyResult{ *cache, changed }` picks the guide `LazyResult(const T &, bool) ->
    LazyResult<const T &>` (`lazy.h:23-24`), hence holds a *reference* to the cache of that copy,
    which is destroyed before the reference is read.

  Model: `Machine.v` with `byref` off. Properties C04 (second half), C35, C38-C43, C45-C47, C52, C53, C57.
  Caching and definedness are **refuted** for it (C45, C46), and what it does instead is
  characterised exactly (C47, C52, C53).
* **The rewired composition**: the same object, layer for layer, in which closure parameters are
  references to the elements and `bind_front`'s copy of the function is a reference (`byref` on).
  It runs exactly as the algorithm (C54; C74 for function objects that calls change), and with lazy functions passed by `std::ref` exactly as
  the algorithm with shared caches (C67, C68). So the by-value wiring is the *only* thing that
  separates the two readings above, and the algorithm model is not a tidied invention.

The two lifetimes readings of the machine: *strict* (reading an object after its lifetime is the
outcome `UB`) and *lenient* (the old contents are read). `Strictness.v` proves that a run either is
`UB` in the strict reading, or is the same in both.

## 2. Model files (rocq/theories)

| file | contents | style |
|---|---|---|
| `Value.v` | values, user-defined equality, CTAD of `std::tuple{...}`, `!=` of optionals | pure |
| `TupleAlg.v` | `tuple_algorithms.h`, `apply.h`, `pack_algorithms.h` with effects | pure, state passing |
| `LazyModel.v` | `lazy.h` algorithm on kept state: dependency trees, exceptions, logs, programs | state machine |
| `ThrowModel.v` | the same for result types whose copying, comparing and assigning may throw | state machine |
| `DocModel.v` | the two designs in docs/walkthrough (dependencies.md, final_design.md) | state machine |
| `CompareModel.v` | the design of `dependencies.md` (as in `DocModel.v`) with the comparisons it makes |
| `RepairModel.v` | `LazyModel.v` with up to four changes of `lazy.h` that are not in /repo |
| `SharedDocModel.v` | the design of `dependencies.md` (as in `DocModel.v`) with `std::ref` |
| `VersionModel.v` | `SharedModel.v` with version numbers instead of flags, a change of `lazy.h` that is not in /repo; results are copied |
| `OnceModel.v` | call_once.md and caching.md: the first designs and the code they replace | state machine |
| `NestedModel.v` | lazy functions whose functions call lazy functions, themselves included; caches are read and written at the moment the code does | fuelled interpreter |
| `StateModel.v` | lazy functions over function objects that calls change, wrapped or plain | state machine |
| `ThreadModel.v` | the algorithm as single accesses to caches, for several threads | interleaving of resumptions |
| `GuardModel.v` | threads that call lazy functions under one mutex of the user (pigro has none); the calls are those of `ThreadModel.v`, access by access |
| `MoveModel.v` | lazy functions that are moved from, programs with `std::move` | functions; what moves leave is a parameter |
| `Constraints.v` | constraints and overload resolution between constrained templates; `ensure_lazy`, `compressed_tuple_element` | function |
| `SharedModel.v` | lazy functions shared through `std::ref`; values are read after all dependencies were called, as references (lazy.h:23-24,57) | state machine on a heap |
| `Partition.v` | `partition.h`, both parts of `overload.h` | pure, types are an arbitrary decidable type |
| `CppTypes.v` | cv/ref-qualified types, `forward_like.h`, `utils.h`, `fwd_capture.h`, `recursive.h` qualifiers, `get`, `to_tuple.h`, `tuple_size/element`, `concepts.h:23-41` | pure; ill-formed code is `None` |
| `Layout.v` | emptiness and size of the classes built by all headers | pure |
| `ClassLayout.v` | the same with class identities (Itanium ABI); `empty_object` | pure |
| `ClassLazy.v` | the classes of `bind_tuple.h`, `regular_void.h` and `lazy.h` with identities | pure |
| `ClassUncapture.v` | the classes of `uncapture.h` with identities | pure |
| `Special.v` | which special member functions these classes have; the constructors of `compressed_tuple` | pure |
| `TypedModel.v` | lazy.h with the types that the compiler computes: `result_t`, the type of `result`, conversion from one to the other; programs that do not compile | pure, effects, exceptions |
| `Uncapture.v` | `uncapture.h` | pure, state passing |
| `Machine.v` | a small C++ abstract machine: objects, references, lifetimes, undefined behaviour; `fwd_capture.h`, `compressed_tuple.h`, `bind_tuple.h`, `regular_void.h`, `lazy.h` composed object by object | fuelled interpreter |
| `Recursive.v` | `recursive.h` at run time: bodies that call `self`, by value or by reference | fuelled interpreter |
| `BindTypes.v` | the trailing return types of `bind_tuple.h` and `apply.h` against the bodies: viable, error, or accepted with a type | functions on types and expressions, the user's callables being a parameter |
| `RegularVoid.v` | `std::optional<regular_void>` | pure |
| `Programs.v` | programs that create, copy, call lazy functions in a changing world, on the machine | fuelled interpreter |
| `RefPrograms.v` | the same with dependencies passed by `std::ref` | fuelled interpreter |
| `TupleOps.v`, `ViewOps.v` | histories of tuples, variables and results of `to_tuple` on the machine and as plain values | both |
| `TupleSpec.v`, `LazySpec.v`, `LazySpec2.v`, `OptionalSpec.v`, `HistorySpec.v`, `ThrowSpec.v`, `DocSpec.v`, `NestedSpec.v`, `StateSpec.v`, `StreamSpec.v`, `SharingSpec.v`, `RecursiveSpec.v`, `BindTypesSpec.v`, `MachineSpec.v`, `MachineSpec2.v`, `BindSpec.v`, `RewiredSpec.v`, `RewiredRefSpec.v`, `RewiredStateSpec.v`, `ConstraintsSpec.v`, `ThreadSpec.v`, `MoveSpec.v`, `CostSpec.v`, `ClassLayoutSpec.v`, `ClassLazySpec.v`, `ClassUncaptureSpec.v`, `LawSpec.v`, `SpecialSpec.v`, `ArrangeSpec.v`, `SliceSpec.v`, `GroupSpec.v`, `RelateSpec.v`, `CoarseSpec.v`, `TypedSpec.v`, `FewestSpec.v`, `ThreadShareSpec.v`, `GuardSpec.v`, `CompareSpec.v`, `VersionSpec.v` | vocabulary of the statements: cache-free expressions and their eager evaluation, expected effects, composed objects as trees, evaluation from scratch, sequences of calls. No change flags, no helper of the models' lookup code | spec |
| `*Examples.v` | concrete user functions and programs: non-vacuity cases and witnesses of refutations | |
| `TupleAlgProofs`, `LazyProofs` (refinement to eager evaluation), `LazyGeneral` (impure, throwing functions), `LazyRel` (values up to a relation), `LazyThms`, `OptionalThms`, `SharedProofs`, `HistoryThms`, `RecoverThms`, `StreamThms`, `ShareThms`, `SharingThms`, `ThrowThms`, `DocThms`, `DocFinal`, `OnceThms`, `NestedThms`, `NestedCalls`, `NestedNeed`, `NestedSelf`, `NestedShared` (NestedModel and SharedModel agree), `StateThms`, `PartitionProofs`, `TupleThms`, `CppTypesProofs`, `LayoutProofs`, `Footprint` (with the specification of C60), `UncaptureProofs`, `RecursiveThms`, `BindTypesThms`, `MachineLib`, `MachineFrame`, `Composed` (the composed object, layer by layer), `Strictness`, `MachineThms`, `BindThms`, `SeqThms`, `BindFull` (binders), `TupleOpsProofs`, `ViewOpsProofs`, `RegularVoidProofs`, `ProgramThms`, `RefThms`, `Rewired`, `RewiredThms`, `RewiredRefs`, `RewiredRefCalls`, `RewiredRefLazy`, `RewiredRefThms`, `RewiredState`, `RewiredStateThms`, `TwiceThms`, `ConstraintsThms`, `ThreadThms`, `MoveThms`, `CostThms`, `ClassLayoutThms`, `ClassLazyThms`, `ClassUncaptureThms`, `LawThms`, `SpecialThms`, `ArrangeThms`, `SliceThms`, `GroupThms`, `RelateThms`, `CoarseThms`, `TypedThms`, `FewestThms`, `ThreadShareThms`, `GuardThms`, `CompareThms`, `CompareExamples`, `RepairThms`, `SharedDocThms`, `SharedDocSettled`, `VersionThms`, `VersionSettled`, `SharedSettled` | lemmas | |
| `PropsTuple`, `PropsLazy`, `PropsOptional`, `PropsHistory`, `PropsThrow`, `PropsStream`, `PropsSharing`, `PropsDoc`, `PropsOnce`, `PropsNested`, `PropsState`, `PropsTypes`, `PropsLayout`, `PropsFootprint`, `PropsUncapture`, `PropsRecursive`, `PropsBind`, `PropsMachine`, `PropsComposed`, `PropsRef`, `PropsRewired`, `PropsRewiredRef`, `PropsTwice`, `PropsView`, `PropsConstraints`, `PropsThreads`, `PropsMove`, `PropsCost`, `PropsClassLayout`, `PropsClassLazy`, `PropsClassUncapture`, `PropsLaws`, `PropsSpecial`, `PropsArrange`, `PropsSlice`, `PropsGroup`, `PropsRelate`, `PropsCoarse`, `PropsTyped`, `PropsFewest`, `PropsThreadShare`, `PropsGuard`, `PropsCompare`, `PropsRepair`, `PropsSharedDoc`, `PropsSettled` | only the property theorems, closed by `exact`, each followed by `Print Assumptions` and by a non-vacuity example | |

## 3. Property by property

| id | modelled by | proof |
|---|---|---|
| C01 | programs over variables holding dependency trees (`LazyModel`) | refinement to `LazySpec` (eager evaluation), invariant "a filled cache is f of its dependencies' last values" |
| C02 | effect log of each call | refinement to the expected log of `LazySpec` |
| C03 | node without dependencies, arbitrary world-changing f | induction on the calls |
| C04 | program steps other than Call; construction and copying on the machine | logs are empty, by cases; symbolic execution of the constructors |
| C05 | list of worlds at which a fresh node is called | corollary of C02's simulation |
| C06 | trees without plain functions | induction |
| C07 | sequence of sampled functions in the log | induction on the tree |
| C08, C09, C10, C11 | log, delivered value and flag of one call, arbitrary user functions | induction on the tree |
| C12 | void results are one value | corollary + invariant |
| C13 | programs | frame lemma + corollary |
| C14 | exceptions are an outcome of user functions | induction on the tree |
| C15 | same | **refuted** by a concrete history; partial: what remains true after an exception, of calls that run everything, and after those until the next exception |
| C16 | arbitrary `veq` | simulation up to `veq`; refuted without the respect condition |
| C17 | arbitrary `veq` | direct |
| C18 | `ensure_lazy` overloads as a decision on two concept flags | cases |
| C19 | CTAD of `std::tuple{...}` in `transform` | **refuted** for one tuple/pair value; proved otherwise |
| C20 | heap of shared nodes | **refuted** by a concrete history; proved for a single consumer, and for variables whose dependencies have no other user |
| C21 | one more call | corollary of C02 |
| C22-C25 | effectful projections as state-passing functions | induction on lists |
| C26, C27, C49 | type lists as lists; overload resolution as a choice among signatures | induction, `Permutation` |
| C28-C34 | types as (base, const, volatile, ref) | cases. C29: like `std::get`; C30: for reference elements exactly when it is like `std::get` |
| C35 | histories of gets and assignments through `get` on the machine | simulation by plain values |
| C36, C37, C50, C51, C60, C61 | class layouts | induction on the bases |
| C38-C40 | bound functions from construction on, captures of any kind, any number of calls | induction on arguments and calls |
| C41 | same | **refuted** for `<<`; C39 proves it for `>>` |
| C42 | lifetimes of captured objects | runs with a dead object are `UB`, with live ones defined |
| C43 | `regularized_void`, round trip, `optional<regular_void>` | symbolic execution; bisimulation with `std::optional` |
| C44 | nested invocables | induction |
| C45, C46 | machine run on the object `pigro::lazy` builds | **refuted**; the true parts are C52, C53 |
| C47, C52, C53 | same, all trees, arbitrary user functions | induction on the tree, through all layers; exact outcome of every call |
| C48 | kept state | induction: the outcome "empty cache read" is unreachable |
| C54 | rewired machine against `LazyModel` | simulation of every step, both directions of definedness |
| C55 | optionals as values, `opt_ne` | refinement as for C02 with exact comparison outcomes; nested optionals **refuted** |
| C56 | heap of shared nodes, throwing functions, any `veq` | invariant "every cache holds a mixed value"; induction on fuel and trees |
| C57 | `to_tuple` and default construction in histories as in C35 | simulation of every step; a relation for references into tuples |
| C58 | kept state, with copies, comparisons and assignments that may throw (`ThrowModel.v`) | refinement to `LazyModel` if nothing throws; invariant as for C56; **refuted**: right after a throwing comparison; exceptions reach the caller (operations watched by a flag); caches never emptied |
| C59 | kept state; the designs of the documentation (`DocModel.v`) | refinement of both to the specification of C02; the second call of a dependency finds nothing changed; with exceptions and effects a simulation of the library step by step (`DocFinal.v`); the first design with throwing functions: invariant "cached result = result for the remembered arguments" |
| C62 | kept state, throwing functions, any `veq` | induction on the tree; a node's sequence of calls is split into those of its dependencies |
| C63 | heap of shared nodes, two levels (sources and consumers) | invariant: every node remembers the world of the last call that reached it; refinement to a function of the history |
| C64 | bodies as trees of actions; `recursive.h` as a fuelled interpreter | fuel monotonicity; big-step relations for a global and for local variables; well-founded induction |
| C65 | declarations and bodies of the binders' call operators as functions on expressions (type, category), `std::invoke` on user callables as a parameter | equational; case analysis on types |
| C66 | machine, with `std::reference_wrapper` as an object that holds a reference (`RefPrograms.v`) | as C52, under an invariant of the store: which object each variable holds |
| C67 | rewired machine with `std::ref`, against `SharedModel` | simulation of every step under an invariant of the store (where each variable is, what it holds); store laws for disjoint and nested objects |
| C68 | heap of shared nodes; the machine through C67 | invariant: a cache that is filled stays filled; induction on fuel and trees |
| C69 | the code printed in call_once.md, caching.md (`OnceModel.v`) | simulation of every step; induction on the places |
| C70 | kept state; the programs of extra_laziness.md and reactivity_all_the_way_down.md (`ExtraSpec.v`) | simulation of all continuations, with the number of values not yet loaded as an index; induction on the sequence of worlds |
| C71 | kept state; functions that call lazy functions (`NestedModel.v`) | induction on the order of definitions: after a call, what it covers is up to date in this world; the history of calls as a ghost |
| C72, C73 | the same, arbitrary functions | induction on the bound and on what functions do; a relation between states that every step preserves; reachability |
| C74 | kept state of caches and function objects (`StateModel.v`); the rewired machine | invariants over trees and programs; evaluation from scratch as an invariant of caches; simulation of every step, function objects being changed in place |
| C75 | rules of the standard on constraints (`Constraints.v`) | normal forms against truth assignments; induction over sorted candidates; the types of dependencies by what calling them gives |
| C76 | kept state, one access at a time (`ThreadModel.v`) | agreement with `LazyModel` by induction over trees; footprints of threads as an invariant of all schedules; local traces for the converse |
| C77 | kept state, with moves (`MoveModel.v`) | simulation between moving and copying programs; induction over trees for what is left |
| C78 | kept state, shared by reference (`SharedModel.v`) | induction on the depth of references and over trees; a potential that counts the nodes not yet up to date |
| C79 | layout with identities (`ClassLayout.v`), pure | induction over classes with an invariant of the part laid out so far; agreement with `Layout.v` through a layout without conflicts |
| C80 | layout with identities (`ClassLazy.v`), pure | induction over the tree; what an object may begin with, so that no two empty classes meet |
| C81 | layout with identities (`ClassUncapture.v`), pure | induction over the values; bounds on the tags of the classes inside |
| C82 | algorithm on kept state (`LazyModel.v`), any user functions; (3) pure ones | simulation between the runs of two programs; for identities with two relations between trees (caches agree; caches of identities still missing); induction over expressions for fusion |
| C83 | classes with identities (`Special.v`), pure | induction over types; every composition keeps `stored parts have the trait` |
| C84 | algorithm on kept state, pure functions | induction over expressions, for any relation of logs closed under concatenation; permutations |
| C85 | algorithm on kept state, functions with effects and exceptions | simulation of a program by a part of it, with an injective renaming of variables |
| C86 | algorithm on kept state with `std::ref`, functions with effects and exceptions | frame of a call (what it may modify), renaming of variables, simulation of a program by a part of it |
| C87 | algorithm on kept state, by value and with `std::ref`; functions with effects and exceptions | logical relation between two runs (parametricity), induction on lazy functions and programs |
| C88 | algorithm on kept state; pure functions, two equalities | simulation between two runs, in which each result of the coarser one is older or equal, induction on lazy functions and programs |
| C89 | algorithm on kept state, with types (`TypedModel.v`) | type preservation and refinement of `LazyModel` by `TypedModel`, induction on lazy functions and programs |
| C90 | algorithm on kept state; pure functions, against all strategies | adversary argument: a fresh value for everything not asked, which spreads to the result |
| C91 | kept state, one access at a time, with references (`ThreadModel.v`, `SharedModel.v`) | simulation of `SharedModel` by unfolded references, by induction over depth and structure; footprints of unsettled parts |
| C92 | kept state, one access at a time, with references, under a mutex (`GuardModel.v`, `SharedModel.v`) | invariant over the schedule (linearisation at the release); well-founded induction for progress |
| C93 | kept state; documentation (`CompareModel.v`) | invariants of C02 and C59 for both designs at once; counting by induction over expressions |
| C94 | kept state with changes (`RepairModel.v`) | the invariants of C01 and C02 without their conditions; one counterexample per change |
| C95 | documentation (`SharedDocModel.v`) | invariant: the cached result is that of the cached arguments; references go to earlier variables |
| C96 | kept state with a change (`VersionModel.v`) | invariant: a cached result is that of the values its dependencies had with the version numbers seen; simulation of `LazyModel.v` |
| C97 | kept state with references (`SharedModel.v`) | invariant: what a call reaches is settled (caches filled, samples current) and a settled call changes nothing; induction on reference depth and structure |

`MANIFEST.json` names the theorems. `_refuted` theorems are existence statements about the
literal claim; a property whose literal claim is refuted has status `partial`.

## 4. Trusted base

* Coq 8.16.1's kernel (`vm_compute` is used in examples and refutations).
* `Print Assumptions` prints "Closed under the global context" for **every** property theorem: no
  axiom, neither of our own nor of the standard library. (A listing of all loaded modules shows
  `Coq.ssr.ssrunder`, loaded by standard library modules; no theorem depends on it.)
* The reading of the C++ code, that is, the definitions with `src/...` citations in their comments.
* Of user code we assume only what a theorem's hypotheses say (`pure_user`, `sound_eq`, ...).

### What is modelled, header by header

| header | modelled | not modelled |
|---|---|---|
| `apply.h` | 8-17: element order (C24), arguments as references (machine), return type (C65) | |
| `bind_tuple.h` | 13-58 completely (C38-C42, layouts C36, return types C65) | in the run-time models, which `operator()` a call resolves to is decided by arity; C65: calls of a binder with an `idx<i>`, and whether captures can be copied |
| `compressed_tuple.h` | 18-64, 83-86 (types: C29, C30; state: C35; size: C36, C37), 92-98 (C33) | that the default constructor (53-54) moves from its temporaries is C57, which values `Ts{}` have is a parameter; which overload (18-35) is chosen: C75 |
| `concepts.h` | 8-21 as two flags of a dependency (C18), and as constraints (C75); 23-24 (`is_empty`); 26-41 | what calls a type allows (a parameter of C75) |
| `empty_object.h` | `get` is a copy of the (only) value of an empty class; the address it reads and the size of its storage (C79) | that it reads an inactive union member (undefined by the standard) |
| `forward_like.h` | completely (C28) | |
| `fwd_capture.h` | completely | |
| `lazy.h` | completely: 17-33 (results), 35-44, 46-67, 69-76, 78-90, 96-103 | `LazyResult(int &&, bool)` (25) is never chosen: all initialisers are lvalues |
| `overload.h` | both branches (C27, C49) | overload resolution is abstracted to a choice function on the set of signatures |
| `pack_algorithms.h` | completely (C25) | |
| `partition.h` | completely (C26) | |
| `recursive.h` | completely (qualifications: C34; run time: C64) | |
| `regular_void.h` | completely (C43) | |
| `to_tuple.h` | completely (types: C32; state, for an lvalue and for a temporary: C57) | |
| `tuple_algorithms.h` | completely (C22, C23) | |
| `uncapture.h` | completely (C44, C51; ambiguous bases: C81) | |
| `utils.h` | `as_nonconst` (C31), `rebind_container` (C33) | macros are expanded by hand |

Of the documentation, the code of `docs/walkthrough/call_once.md`, `caching.md` (C69),
`dependencies.md`, `syntactic_sugar.md`, `comparisons.md` and `final_design.md` (C59) is modelled; the programs of
`extra_laziness.md` and `reactivity_all_the_way_down.md` are those of C70.

### Reading decisions

* `static_cast<Ts...>(values)...` (`compressed_tuple.h:59`) is read element by element.
* `template<empty T, size_t tag>` (`uncapture.h:20`) names a concept that is not visible there; read as
  `concepts::empty`.
* `compressed_tuple_element(T)` (constrained) against `(T &&)`: the more constrained one wins, although
  their parameters differ in form (the rule before P2113; C75 has both readings, in the other one every
  empty element is ambiguous).
* `unwrap_value`'s first lambda takes `auto &self`, but is called with an rvalue copy; `self` is
  unused, the call is read as viable.
* Probing `regularized_void`'s lambda with `idx<0>` may be a hard error on some compilers; read as
  not viable.
* `std::tuple{ f }` where `f` is a function object is a tuple of that object. `overload{ overload{..} }`
  and `compressed_tuple{ ct }` with a single argument of the same template: not reached by pigro itself.
* A result type `std::optional<T>`: `cache != result` compares two optionals
  ([optional.relops], both operands are optionals), C55.
* A call with a dangling reference to an object of an *empty* class is left open in C42 (such a
  reference is stored as nothing).
* `final_design.md:29` evaluates arguments in an unspecified order; read from left to right. A value
  dependency of `syntactic_sugar.md` (a lazy function that returns it) is read as the value.
* The names `f`, `t`, `back_args` in the trailing return types of the lambdas in `bind_tuple.h` are the
  parameters of the enclosing functions (C++20; under P2036 they would be the captures, and
  `bind_back` would not be callable at all).
* `t << f` with `f` returning a reference into its arguments: results are values in the model.

### Simplifications

* A move is a copy; copy constructors and destructors of user types do nothing observable (on kept
  state they may throw, C58).
* User functions map argument values to argument values and a result. After a call every lvalue
  argument is written back; theorems on final contents assume that the referenced objects are distinct.
* Objects are not split into bytes, const is kept for arguments only.
* Layouts: no virtual functions, no bit-fields. `Layout.v` assumes that no two subobjects of the same
  empty class meet at one address; `ClassLayout.v` (C79) drops this assumption for the Itanium ABI and
  shows where it matters (nested `compressed_tuple`s with the same empty class) and that it does not
  for lazy functions over types of the user (C80; `const` and references in the types that lambdas
  are instantiated with are ignored, which gives more conflicts, not fewer). Final empty
  classes are excluded (`empty_object` is ill-formed for them).
* In all models but `TypedModel.v` values have no types beyond their structure: whether a value is taken
  apart as a tuple, or compared as an optional, is read off the value. C89 shows that this gives the same
  outputs as deciding by types, except where a lazy function with a tuple or pair as its only dependency
  wraps a function that has another return type for the elements; there the result is converted, which
  the other models leave out.
* The log of a call records a comparison also where it is trivial (void, empty optional).

Not modelled: whether the headers compile (template instantiation errors other than those of types
of values, C89; overload ambiguity other than C75), threads other than C76, C91 and C92, compiler optimisation of undefined behaviour, constexpr evaluation, exceptions
thrown by user copy constructors or comparison operators outside C58 (in particular when function
objects are copied), allocation failure.

## 5. Tests of the theorems against wrong programs

`seeded/LOG.jsonl` has one line per seeded error: the definition edited, the edit, the claim it breaks,
the property theorems whose proofs no longer go through, and what was tightened when none failed.
The errors were seeded in a copy outside this directory: the statement files stayed as they are, one
model definition was changed, and every lemma was replayed. A lemma that fails is counted, then
assumed, so that all affected lemmas are found; a property theorem "fails" if it depends on a failed one.
A proof that fails does not by itself show that the statement is false of the edited program. For the models
of C95 to C97 this was checked separately, by computing with the edited models on random programs; edits that
turned out to be harmless are noted so.
An edit that leaves all theorems intact is either an equivalent program (noted so) or led to a stronger
theorem.

## 6. Tests of the models against the repository's tests

`RepoTests.v` replays the tests of `/repo/tests` that have a counterpart in the models, as literal
examples. These are no proofs; they check that the models were read off the right code. They agree
except where the sources cannot pass their own tests either: caching as composed (C45, C46), the memory
taken by a plain function dependency (C60; `lazy.test.cpp` also contradicts itself about `sizeof(f9)`),
and two lines of a skipped test of `to_tuple` (C30, C32).
