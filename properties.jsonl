{"id": "C01", "title": "A lazy function returns what eager evaluation would return", "statement": "A 'kept' lazy function is one whose closure state (the cache of lazy.h:49-66 and the states of its dependencies) is kept from call to call, as docs/walkthrough/final_design.md promises. In any program that creates lazy functions (from wrapped functions and dependencies that are constants, plain functions or earlier lazy functions), copies them, calls them and changes the outside inputs in any order, every call returns exactly the value obtained by evaluating the whole dependency expression from scratch at the moment of the call, provided wrapped functions depend on their arguments only and == on values is equality. Excluded: a node whose only dependency has a std::tuple or std::pair value, which is spread into several arguments (C19). Also excluded: results of type std::optional holding a std::optional (C55).", "quantifier": "every program (finite sequence of create/copy/call/input-change operations), every dependency tree, every pure wrapped function", "why_tests_cant": "Staleness depends on the history of earlier calls and input changes at every node of an unbounded tree; tests try a handful of trees and three calls.", "anchors": ["src/pigro/lazy.h: detail::lazy, detail::lazy_value, detail::ensure_lazy, pigro::lazy"]}
{"id": "C02", "title": "The exact effects of a call are determined by which inputs changed", "statement": "A 'kept' lazy function is one whose closure state (the cache of lazy.h:49-66 and the states of its dependencies) is kept from call to call, as docs/walkthrough/final_design.md promises. In such a program each call performs exactly these observable actions, in this order: dependencies are processed left to right, depth first; a plain function dependency is called once; a wrapped function is called, with the current dependency values, iff it was never evaluated or the value of one of its dependencies differs from the value it had at that dependency's previous evaluation; each evaluation with a filled cache performs exactly one comparison, old value against new; nothing else is called or compared. Excluded: a node whose only dependency has a std::tuple or std::pair value, which is spread into several arguments (C19). Also excluded: empty std::optional results (C55).", "quantifier": "every program, every node of every dependency tree, every call", "why_tests_cant": "Call counts after three calls in a two-level chain say nothing about arbitrary trees and histories.", "anchors": ["src/pigro/lazy.h: detail::lazy", "src/pigro/tuple_algorithms.h: any, transform"]}
{"id": "C03", "title": "Without dependencies the wrapped function runs at most once", "statement": "A 'kept' lazy function is one whose closure state (the cache of lazy.h:49-66 and the states of its dependencies) is kept from call to call, as docs/walkthrough/final_design.md promises. A lazy function without dependencies runs its wrapped function on its first call only, whatever the function does to the outside world, and every later call returns the first result, as long as the first call does not throw.", "quantifier": "every number of calls, every wrapped function including impure ones, every interleaved change of the outside world", "why_tests_cant": "at-most-once must hold after any number of calls and outside changes", "anchors": ["src/pigro/lazy.h: detail::lazy", "docs/walkthrough/call_once.md"]}
{"id": "C04", "title": "Creating or copying a lazy function evaluates nothing", "statement": "Creating a lazy function from any dependencies, or copying one, calls no wrapped function, no dependency function and no comparison; only calls do.", "quantifier": "every program and every dependency list", "why_tests_cant": "tests check two counters once; the claim is about every construction", "anchors": ["src/pigro/lazy.h: pigro::lazy, detail::lazy", "docs/walkthrough/extra_laziness.md"]}
{"id": "C05", "title": "The wrapped function is re-evaluated exactly when a dependency value changed", "statement": "A 'kept' lazy function is one whose closure state (the cache of lazy.h:49-66 and the states of its dependencies) is kept from call to call, as docs/walkthrough/final_design.md promises. For a freshly created lazy function called at a sequence of moments, the k-th call evaluates the wrapped function iff k is 1 or some dependency's value at this moment differs from its value at the previous call. Excluded: a node whose only dependency has a std::tuple or std::pair value, which is spread into several arguments (C19). Also excluded: empty std::optional results (C55).", "quantifier": "every sequence of outside states, every list of dependencies", "why_tests_cant": "the iff has to hold at every call of every history", "anchors": ["src/pigro/lazy.h: detail::lazy", "docs/walkthrough/dependencies.md"]}
{"id": "C06", "title": "Constant dependencies never cause re-evaluation", "statement": "A 'kept' lazy function is one whose closure state (the cache of lazy.h:49-66 and the states of its dependencies) is kept from call to call, as docs/walkthrough/final_design.md promises. A lazy function all of whose dependencies are constants (values, or lazy functions that themselves depend only on constants) evaluates every wrapped function in its tree at the first call and none at any later call, whatever happens outside.", "quantifier": "every constant-only dependency tree, every number of calls", "why_tests_cant": "a negative claim over unboundedly many later calls", "anchors": ["src/pigro/lazy.h: detail::lazy_value, detail::ensure_lazy", "docs/walkthrough/syntactic_sugar.md"]}
{"id": "C07", "title": "Plain function dependencies are sampled once per occurrence on every call, left to right", "statement": "A 'kept' lazy function is one whose closure state (the cache of lazy.h:49-66 and the states of its dependencies) is kept from call to call, as docs/walkthrough/final_design.md promises. Every call of a lazy function calls each plain function dependency in its tree exactly once per occurrence, in left-to-right depth-first order, whether or not anything is re-evaluated, and even if wrapped functions have side effects, as long as nothing throws.", "quantifier": "every tree, every call, every behaviour of user functions", "why_tests_cant": "an ordering and counting claim over all trees", "anchors": ["src/pigro/lazy.h: detail::ensure_lazy, detail::lazy"]}
{"id": "C08", "title": "Re-evaluation stops where values stop changing", "statement": "A 'kept' lazy function is one whose closure state (the cache of lazy.h:49-66 and the states of its dependencies) is kept from call to call, as docs/walkthrough/final_design.md promises. If every dependency of a node evaluates to an equal value as before, then nothing above re-runs because of it: the node's wrapped function is not called, the node performs no comparison and it reports 'unchanged', however much was re-evaluated below it. Also excluded: empty std::optional results (C55).", "quantifier": "every tree, every state reachable by calls, every user function", "why_tests_cant": "cut-off must hold at every depth", "anchors": ["src/pigro/lazy.h: detail::lazy", "docs/README.md: skipping re-evaluation"]}
{"id": "C09", "title": "Unchanged lazy dependencies are never compared", "statement": "A 'kept' lazy function is one whose closure state (the cache of lazy.h:49-66 and the states of its dependencies) is kept from call to call, as docs/walkthrough/final_design.md promises. A call compares a node's values only if that node's wrapped function was evaluated in this very call and the node already had a cached value; then exactly one comparison (cached against new) is made. In particular the first call compares nothing.", "quantifier": "every tree and state, every user function, including throwing ones", "why_tests_cant": "counts of comparisons for all trees and histories", "anchors": ["src/pigro/lazy.h: detail::lazy", "docs/walkthrough/comparisons.md"]}
{"id": "C10", "title": "The reported change flag is exact", "statement": "A 'kept' lazy function is one whose closure state (the cache of lazy.h:49-66 and the states of its dependencies) is kept from call to call, as docs/walkthrough/final_design.md promises. The is_changed flag a lazy function hands to its dependents is true iff this is its first evaluation or its value differs (by the value type's own !=) from the value it handed out last time. Also excluded: empty std::optional results (C55).", "quantifier": "every tree, every call history", "why_tests_cant": "flag exactness is an invariant over histories", "anchors": ["src/pigro/lazy.h: detail::lazy, LazyResult"]}
{"id": "C11", "title": "At most one evaluation of each node per call", "statement": "A 'kept' lazy function is one whose closure state (the cache of lazy.h:49-66 and the states of its dependencies) is kept from call to call, as docs/walkthrough/final_design.md promises. One call evaluates each wrapped function of the tree at most once per occurrence, in dependencies-before-dependents order, and every evaluation receives exactly the values its dependencies delivered in this call, for arbitrary (impure, throwing) user functions.", "quantifier": "every tree, every state, every user function", "why_tests_cant": "bounds per call for unbounded trees", "anchors": ["src/pigro/lazy.h: detail::lazy"]}
{"id": "C12", "title": "Void functions are called once, and notify dependents once", "statement": "A 'kept' lazy function is one whose closure state (the cache of lazy.h:49-66 and the states of its dependencies) is kept from call to call, as docs/walkthrough/final_design.md promises. Wrapping a void function yields a lazy function returning void that runs it under the same re-evaluation rule; because all void results are equal, a dependent of a lazy void function is re-evaluated on its account only the first time.", "quantifier": "every wrapped void function and every history", "why_tests_cant": "the void/regular_void encoding must agree in every history", "anchors": ["src/pigro/regular_void.h", "src/pigro/lazy.h: pigro::lazy"]}
{"id": "C13", "title": "Copies are independent", "statement": "A 'kept' lazy function is one whose closure state (the cache of lazy.h:49-66 and the states of its dependencies) is kept from call to call, as docs/walkthrough/final_design.md promises. Lazy functions have value semantics: calling one lazy function changes neither the value, nor the future calls and comparisons, of any other lazy function, including its copies, the originals it was copied from, and lazy functions that received it as a dependency.", "quantifier": "every program, every pair of distinct variables", "why_tests_cant": "non-interference over all programs", "anchors": ["src/pigro/lazy.h: detail::lazy ([=] capture, auto deps)"]}
{"id": "C14", "title": "Exceptions propagate and a failed first evaluation is retried", "statement": "A 'kept' lazy function is one whose closure state (the cache of lazy.h:49-66 and the states of its dependencies) is kept from call to call, as docs/walkthrough/final_design.md promises. If a wrapped or dependency function throws, the call throws, the failing node's cache is untouched, and nodes to its right and above are neither evaluated nor modified; if the failing node had never been evaluated, the next call evaluates it again.", "quantifier": "every tree and state, every position of the throwing function", "why_tests_cant": "crash points: every position in every tree", "anchors": ["src/pigro/lazy.h: detail::lazy"]}
{"id": "C15", "title": "After an exception the next call does not return an outdated value", "statement": "A 'kept' lazy function is one whose closure state (the cache of lazy.h:49-66 and the states of its dependencies) is kept from call to call, as docs/walkthrough/final_design.md promises. If evaluating a wrapped function threw because a dependency changed, a later call must not return the value cached before the change. Also excluded: results of type std::optional holding a std::optional (C55).", "quantifier": "every tree, every history with exceptions", "why_tests_cant": "needs a crash point between dependency update and cache update", "anchors": ["src/pigro/lazy.h: detail::lazy lines 51-60"]}
{"id": "C16", "title": "User-defined equality: results are right up to that equality", "statement": "A 'kept' lazy function is one whose closure state (the cache of lazy.h:49-66 and the states of its dependencies) is kept from call to call, as docs/walkthrough/final_design.md promises. If the value type's == is any equivalence and every wrapped function respects it, every call returns a value equal (by that ==) to the eagerly computed one; without the respect condition this can fail. Also excluded: results of type std::optional holding a std::optional (C55).", "quantifier": "every equivalence relation on values, every program", "why_tests_cant": "coarse equalities are never exercised by tests", "anchors": ["src/pigro/lazy.h: detail::lazy line 58-59"]}
{"id": "C17", "title": "Values that are not equal to themselves", "statement": "A 'kept' lazy function is one whose closure state (the cache of lazy.h:49-66 and the states of its dependencies) is kept from call to call, as docs/walkthrough/final_design.md promises. For result values with x != x (NaN), every evaluation reports a change, so dependents are re-evaluated each time such a value is produced again; the returned value is still the current one. Also excluded: results of type std::optional holding a std::optional (C55).", "quantifier": "every tree, every equality relation, reflexive or not", "why_tests_cant": "non-reflexive equality is never exercised by tests", "anchors": ["src/pigro/lazy.h: detail::lazy line 58"]}
{"id": "C18", "title": "Dependency classification", "statement": "A dependency callable both with no argument and with nullptr (returning a value/is_changed pair) is used as a lazy function as is; otherwise one callable with no argument is sampled at every call; anything else is a constant handed unchanged to the wrapped function. The classes are exhaustive and exclusive.", "quantifier": "every dependency", "why_tests_cant": "a decision rule over all argument types", "anchors": ["src/pigro/lazy.h: detail::ensure_lazy", "src/pigro/concepts.h: lazy_function, lazy_function_unwrapped"]}
{"id": "C19", "title": "The wrapped function receives exactly one argument per dependency", "statement": "The wrapped function is called with as many arguments as there are dependencies, the i-th being the i-th dependency's value, whatever the value types are.", "quantifier": "every list of dependency values of every type, std::tuple and std::pair included", "why_tests_cant": "needs the one shape (a single tuple-valued dependency) that class template argument deduction treats specially", "anchors": ["src/pigro/tuple_algorithms.h: transform", "src/pigro/lazy.h: detail::lazy lines 55-56"]}
{"id": "C20", "title": "A lazy function shared by reference keeps all its dependents up to date", "statement": "A 'kept' lazy function is one whose closure state (the cache of lazy.h:49-66 and the states of its dependencies) is kept from call to call, as docs/walkthrough/final_design.md promises. If one lazy function is given by reference (std::ref) to several lazy functions, or is also called directly, every dependent still returns an up-to-date value.", "quantifier": "every program with shared lazy functions", "why_tests_cant": "depends on the interleaving of calls through different dependents", "anchors": ["src/pigro/lazy.h: detail::ensure_lazy, detail::lazy"]}
{"id": "C21", "title": "Repeating a call changes nothing", "statement": "A 'kept' lazy function is one whose closure state (the cache of lazy.h:49-66 and the states of its dependencies) is kept from call to call, as docs/walkthrough/final_design.md promises. If nothing outside changed since the previous successful call, a call returns the same value, reports unchanged, and calls nothing but the plain function dependencies. Excluded: a node whose only dependency has a std::tuple or std::pair value, which is spread into several arguments (C19). Also excluded: empty std::optional results (C55).", "quantifier": "every tree, every reachable state, pure functions", "why_tests_cant": "idempotence at every reachable state", "anchors": ["src/pigro/lazy.h: detail::lazy"]}
{"id": "C22", "title": "transform projects every element in order", "statement": "transform(data, p) yields the tuple of p(x1), ..., p(xn) in order, applying p once per element, left to right, whenever the projected list is not a single std::tuple or std::pair.", "quantifier": "every tuple and projection, including effectful ones", "why_tests_cant": "arity and element types unbounded", "anchors": ["src/pigro/tuple_algorithms.h: transform"]}
{"id": "C23", "title": "any is a short-circuiting disjunction", "statement": "any(data, p) is true iff p holds for some element, false for the empty tuple, and p is applied exactly to the elements up to and including the first one satisfying it, in order.", "quantifier": "every tuple and predicate", "why_tests_cant": "arity unbounded; short-circuit order", "anchors": ["src/pigro/tuple_algorithms.h: any"]}
{"id": "C24", "title": "apply passes all elements in order", "statement": "apply(f, t) calls f exactly once with the elements of t in index order, for std::tuple and compressed_tuple alike, and returns what f returns.", "quantifier": "every tuple size, every f", "why_tests_cant": "arity unbounded", "anchors": ["src/pigro/apply.h: apply, apply_impl"]}
{"id": "C25", "title": "enumerate_pack numbers a pack", "statement": "enumerate_pack(f, x0, ..., xn-1) calls f once with items of index i and value xi for each i in order, a single tuple argument counting as one element; enumerate_n<n>(f) calls f with items (i, i) for i < n.", "quantifier": "every pack length and contents", "why_tests_cant": "arity unbounded", "anchors": ["src/pigro/pack_algorithms.h: enumerate_pack, enumerate_n, Item"]}
{"id": "C26", "title": "partition is a stable partition", "statement": "filter_if keeps exactly the types satisfying the predicate in their original order; partition lists those first, then the others, both in original order, losing and inventing none; negating a predicate twice gives it back.", "quantifier": "every type list, every trait", "why_tests_cant": "type lists are unbounded", "anchors": ["src/pigro/partition.h: filter_if, concat, partition, Predicate"]}
{"id": "C27", "title": "Reordering overload bases loses no functor", "statement": "The MSVC overload, which sorts its bases into empty ones first, still holds every functor it was given exactly once, each initialised from the argument of its own type, provided the types are pairwise distinct; with a repeated type the initialisation by type is ill-formed.", "quantifier": "every list of functor types and values", "why_tests_cant": "unbounded packs", "anchors": ["src/pigro/overload.h: overload, overload_impl"]}
{"id": "C28", "title": "forward_like transfers constness and value category", "statement": "forward_like<Like>(t) yields t with exactly Like's const/volatile and with Like's value category (non-references count as rvalues); it is rejected exactly when it would turn an rvalue into an lvalue or drop t's own const/volatile.", "quantifier": "every Like type and every argument type and value category", "why_tests_cant": "all combinations of base type, cv and reference", "anchors": ["src/pigro/forward_like.h: like, forward_like"]}
{"id": "C29", "title": "get on value elements behaves like std::get on std::tuple", "statement": "For a compressed_tuple element of non-reference, non-empty type, get<I> yields the same type and value category as std::get<I> on the std::tuple with the same element types, for each of &, &&, const &, const &&; the only exception is a volatile element of a const tuple, which get rejects.", "quantifier": "every element type, every qualification of the tuple", "why_tests_cant": "all type combinations", "anchors": ["src/pigro/compressed_tuple.h: compressed_tuple_element, get", "src/pigro/recursive.h: operator()", "src/pigro/utils.h: as_nonconst"]}
{"id": "C30", "title": "get on reference elements: exact result, and where it differs from std::get", "statement": "For elements declared as references (to non-volatile, non-empty types) the result of get<I> is given for every qualification of the tuple: a const compressed_tuple<T&> yields const T& (rvalue: const T&&), where std::get yields T&; a T&& element behaves like a stored T. It equals std::get's exactly if the tuple is not const, or the referred-to type is const already and not (an lvalue reference element in an rvalue tuple).", "quantifier": "every reference element type, every qualification", "why_tests_cant": "all type combinations", "anchors": ["src/pigro/compressed_tuple.h: compressed_tuple_element, get"]}
{"id": "C31", "title": "as_nonconst removes top-level const/volatile and nothing else", "statement": "as_nonconst(e) has e's type without const/volatile and e's value category, for lvalues and rvalues.", "quantifier": "every expression type and category", "why_tests_cant": "all type combinations", "anchors": ["src/pigro/utils.h: as_nonconst"]}
{"id": "C32", "title": "to_tuple is a tuple of the get results", "statement": "to_tuple(t) has one element per element of t, the i-th being a reference of the type get<i>(t) has (prvalue results of empty elements become dangling rvalue references).", "quantifier": "every element list, every qualification", "why_tests_cant": "arity and types unbounded", "anchors": ["src/pigro/to_tuple.h: to_tuple"]}
{"id": "C33", "title": "tuple_size and tuple_element agree with std::tuple", "statement": "For compressed_tuple<Ts...>, tuple_size is the number of Ts, tuple_element<I> is the I-th of Ts exactly as written (for a const compressed_tuple with const added) and is ill-formed iff I is out of range, so every compressed_tuple is tuple_like.", "quantifier": "every type list, every index", "why_tests_cant": "type lists unbounded", "anchors": ["src/pigro/compressed_tuple.h: tuple_size, tuple_element", "src/pigro/utils.h: rebind_container", "src/pigro/concepts.h: tuple_like"]}
{"id": "C34", "title": "recursive hands the callable itself in the caller's qualification", "statement": "Calling recursive{F} with arguments calls F's own operator() with the recursive object itself first, qualified (const, lvalue/rvalue) as the call expression was, followed by the arguments in order, if F accepts that; otherwise const is added or an rvalue is passed as const lvalue, and the call is rejected only if F accepts none of these.", "quantifier": "every argument list and qualification, every F", "why_tests_cant": "all combinations", "anchors": ["src/pigro/recursive.h: operator()"]}
{"id": "C35", "title": "get reads and writes exactly the designated element", "statement": "get<I> of a compressed_tuple refers to the I-th element given at construction; what is written through it is read back by later gets of I and by nothing else; copies of the tuple are unaffected, except for elements declared as lvalue references, which refer to the original object.", "quantifier": "every tuple, index and written value", "why_tests_cant": "lens laws over unbounded tuples and histories", "anchors": ["src/pigro/compressed_tuple.h: compressed_tuple, get, compressed_tuple_element", "src/pigro/fwd_capture.h"]}
{"id": "C36", "title": "Empty elements occupy no storage", "statement": "A compressed_tuple is an empty class iff all its element types are empty; so is the function object made by >> or << iff the function and all tuple elements are; a lazy function is never empty.", "quantifier": "every list of element types", "why_tests_cant": "type lists unbounded", "anchors": ["src/pigro/compressed_tuple.h: compressed_tuple_element", "src/pigro/empty_object.h", "src/pigro/bind_tuple.h"]}
{"id": "C37", "title": "Size of a compressed_tuple", "statement": "sizeof a compressed_tuple equals that of a plain struct of its non-empty elements in order (1 if there are none); inserting or removing empty elements never changes it. (For elements that contain no compressed_tuple themselves: C79 gives the exact condition and what happens otherwise.)", "quantifier": "every list of element sizes and alignments, where no two subobjects of the same empty class meet at one address (C79)", "why_tests_cant": "type lists unbounded", "anchors": ["src/pigro/compressed_tuple.h", "src/pigro/overload.h (non-MSVC)"]}
{"id": "C38", "title": "bind_back appends the bound arguments", "statement": "bind_back(f, b1..bm)(a1..an) calls f once with a1..an, b1..bm in this order and returns its result, at every call.", "quantifier": "every n, m, every f, every number of calls", "why_tests_cant": "arity and history unbounded", "anchors": ["src/pigro/bind_tuple.h: bind_back", "src/pigro/fwd_capture.h"]}
{"id": "C39", "title": "tuple >> f prepends the tuple elements", "statement": "(t >> f)(a1..an) calls f once with the elements of t followed by a1..an and returns its result.", "quantifier": "every tuple, n, f", "why_tests_cant": "arity unbounded", "anchors": ["src/pigro/bind_tuple.h: bind_front_tuple, operator>>"]}
{"id": "C40", "title": "tuple << f appends the tuple elements", "statement": "(t << f)(a1..an) calls f once with a1..an followed by the elements of t and returns its result.", "quantifier": "every tuple, n, f", "why_tests_cant": "arity unbounded", "anchors": ["src/pigro/bind_tuple.h: bind_back_tuple, operator<<"]}
{"id": "C41", "title": "A bound function object keeps its state from call to call", "statement": "If f has internal state that calls modify, (t >> f) called repeatedly sees the state left by the previous call; so does (t << f) (which is false: << calls a copy of f each time); changes made through reference parameters to tuple elements are kept by both.", "quantifier": "every stateful f, every number of calls", "why_tests_cant": "state over unbounded call histories", "anchors": ["src/pigro/bind_tuple.h: bind_front_tuple, bind_back_tuple"]}
{"id": "C42", "title": "Lvalues are captured by reference, rvalues by value", "statement": "bind_back (and compressed_tuple<T&>) given an lvalue refers to the caller's object: later changes are seen and changes are visible to the caller; given an rvalue it owns a copy. Calling after a referenced object died is undefined behaviour, and this is the only way bind_back itself goes wrong.", "quantifier": "every sequence of writes and calls, every lifetime", "why_tests_cant": "lifetimes and aliasing histories", "anchors": ["src/pigro/fwd_capture.h: fwd_capture, access", "src/pigro/bind_tuple.h: bind_back"]}
{"id": "C43", "title": "void regularisation is transparent", "statement": "regularized_void(f) calls f once with the same arguments and returns regular_void if f returns void and f's result otherwise; unregularized_void undoes this; optional<regular_void> compares like an ordinary optional of a one-value type.", "quantifier": "every f and arguments", "why_tests_cant": "all functions", "anchors": ["src/pigro/regular_void.h"]}
{"id": "C44", "title": "uncaptured values are appended in order", "statement": "(uncaptured(v1..vn) >> f)(a1..am) calls f with a1..am, v1..vn; f's state and changes f makes to the values through references are kept from call to call; the base classes created for the values, over any number of >>, carry pairwise distinct tags.", "quantifier": "every n, m and values", "why_tests_cant": "arity unbounded", "anchors": ["src/pigro/uncapture.h"]}
{"id": "C45", "title": "A lazy function as composed by pigro::lazy remembers its result", "statement": "Calling a pigro::lazy object twice runs a void wrapped function without dependencies once only. (False of the code: lazy.h composes by-value lambda parameters and std::bind_front, so each call works on a copy and the object never changes.)", "quantifier": "every wrapped function, every number of calls", "why_tests_cant": "needs tracking of copies across six binder layers", "anchors": ["src/pigro/lazy.h: detail::lazy, unwrap_value, pigro::lazy", "src/pigro/bind_tuple.h: bind_back_tuple", "src/pigro/regular_void.h: unregularized_void"]}
{"id": "C46", "title": "A pigro::lazy call returns a defined value", "statement": "Calling a pigro::lazy object whose wrapped function returns a (non-empty) value never reads an object after its lifetime. (False of the code: the LazyResult deduction guide stores a reference to the cache inside a temporary, read after it is destroyed.)", "quantifier": "every wrapped function, all dependencies", "why_tests_cant": "lifetime errors often appear to work in tests", "anchors": ["src/pigro/lazy.h: LazyResult deduction guides, detail::lazy, lazy_value, unwrap_value"]}
{"id": "C47", "title": "Calling a lazy function as composed never modifies it", "statement": "Under the code's own composition the lazy object and everything it stores is bit for bit the same after any call as before; hence each call evaluates the whole tree again (even if dead objects are assumed to keep their contents).", "quantifier": "every lazy object, every call", "why_tests_cant": "a non-modification claim over all trees", "anchors": ["src/pigro/lazy.h", "src/pigro/bind_tuple.h"]}
{"id": "C48", "title": "A call never dereferences an empty cache", "statement": "On kept state no sequence of creations, copies, calls and outside changes, with wrapped and plain functions that may do anything including throw, ever dereferences an empty cache.", "quantifier": "all programs, all user functions (impure, throwing), all starting states", "why_tests_cant": "The danger is in call histories with exceptions at arbitrary points; tests cover a few histories.", "anchors": ["src/pigro/lazy.h: detail::lazy"]}
{"id": "C49", "title": "Both versions of overload behave alike", "statement": "The MSVC version of overload (bases sorted, initialised by type) and the other version (bases in the given order) accept exactly the same lists of functors, and a call resolves to the same functor, or to none, in both.", "quantifier": "every list of functors, every viability and better-match relation", "why_tests_cant": "Each compiler sees only one of the two versions, so no test compares them.", "anchors": ["src/pigro/overload.h: overload"]}
{"id": "C50", "title": "Laziness costs just the cache", "statement": "The size of a lazy function is that of a struct holding the cache and, unless all of them are empty classes, a struct of the non-empty ones among the wrapped function and the dependencies; the void adapters, unwrap_value and the binders add nothing.", "quantifier": "every cache, function and dependency size and alignment, both ABIs", "why_tests_cant": "Sizes can be asserted for a few types only.", "anchors": ["src/pigro/lazy.h: lazy", "src/pigro/bind_tuple.h", "src/pigro/regular_void.h"]}
{"id": "C51", "title": "Uncaptured empty values occupy no storage", "statement": "uncaptured(v1..vn) >> f is an empty class iff all values and f are of empty class; uncaptured values of empty class do not change the size of f.", "quantifier": "every list of types", "why_tests_cant": "Sizes can be asserted for a few types only.", "anchors": ["src/pigro/uncapture.h: CompressedInvocable"]}
{"id": "C52", "title": "A lazy function that returns a value is undefined behaviour as composed", "statement": "In every program that creates, copies and calls pigro::lazy objects, the first call that should return a value of a non-empty class has undefined behaviour (it reads a dead object), unless an earlier call had; precisely the reads of non-empty values through a LazyResult are undefined, including the int read for every plain function dependency, and nothing else is.", "quantifier": "every program, every wrapped and plain function, all values", "why_tests_cant": "a test run may see the right value in freed stack memory; only the lifetime of every temporary along the call chain settles it", "anchors": ["src/pigro/lazy.h:17-33", "src/pigro/lazy.h:35-44", "src/pigro/lazy.h:50-66", "src/pigro/lazy.h:69-76", "src/pigro/lazy.h:78-103", "src/pigro/bind_tuple.h:36-58"]}
{"id": "C53", "title": "void lazy functions are defined, and evaluated at every call", "statement": "Calls of pigro::lazy objects whose wrapped functions all return void, with dependencies of the same kind, never have undefined behaviour, in any order and number; each call runs the wrapped functions of the whole tree, dependencies first, from left to right.", "quantifier": "every tree of void functions, every sequence of calls", "why_tests_cant": "the number of evaluations of arbitrary trees over arbitrary call sequences is unbounded", "anchors": ["src/pigro/lazy.h:35-67", "src/pigro/lazy.h:92-103", "src/pigro/regular_void.h:15-75", "src/pigro/bind_tuple.h:20-58"]}
{"id": "C54", "title": "With closure parameters taken by reference, the composition is the caching algorithm", "statement": "If the closures of the library took the bound function, dependencies, values and functors by reference instead of by copy, and nothing else were changed, every program that creates, copies and calls pigro::lazy objects over functions whose calls do not change them would return the same results, perform the same calls and comparisons and change the outside world in the same way as the caching algorithm with kept state, and no call would have undefined behaviour.", "quantifier": "every program, every wrapped and plain function that its calls do not change, all values, both readings of dead objects", "why_tests_cant": "the changed library does not exist to be tested, and equality with the algorithm ranges over all programs, functions and worlds", "anchors": ["src/pigro/lazy.h:35-103", "src/pigro/regular_void.h:15-39", "src/pigro/bind_tuple.h:13-58", "src/pigro/recursive.h"]}
{"id": "C55", "title": "Results of type std::optional are compared as optionals", "statement": "A 'kept' lazy function is one whose closure state (the cache of lazy.h:49-66 and the states of its dependencies) is kept from call to call, as docs/walkthrough/final_design.md promises. The comparison `cache != result` of lazy.h:58 with a result of type std::optional compares two optionals. Consequently (1) for results that are at most singly optional (and for values not equal to themselves) every call still returns the eagerly computed value and performs exactly these actions: dependencies left to right, depth first; a plain function is called once per call; a wrapped function is called iff it was never evaluated or a dependency reports a change; an evaluated part reports a change iff its result is an empty optional and it had been evaluated before, or its result is no empty optional and it was never evaluated or differs from the previous one. So a wrapped function runs at every call in which a plain dependency yields an empty optional, even if nothing changed. (2) With an optional holding an optional, a change from an empty optional to one holding an empty optional goes unnoticed and a call can return an outdated value.", "quantifier": "every program of creations, copies, calls and outside changes; every pure user function; every sound equality", "why_tests_cant": "needs optional results, an overload choice nobody looks at, and all histories; the effect of (1) is only superfluous work, which value tests do not see", "anchors": ["src/pigro/lazy.h: detail::lazy line 49 and 58"]}
{"id": "C56", "title": "After any history a call completes and its value comes from inputs really read", "statement": "A 'kept' lazy function is one whose closure state (the cache of lazy.h:49-66 and the states of its dependencies) is kept from call to call, as docs/walkthrough/final_design.md promises. Whatever happened before - wrapped or plain functions threw, lazy functions are shared by reference, operator== equates too much or too little - every call completes (returns or throws, never reads an empty cache), and a returned value is what the wrapped functions compute when every occurrence of a plain function is given a value it had at some call so far. Functions are assumed to compute from their arguments and the outside world and not to change it; plain functions may throw, wrapped functions may throw.", "quantifier": "every program that creates, copies, shares, calls lazy functions and changes the outside world; every operator==; every pattern of exceptions", "why_tests_cant": "histories with exceptions and sharing are unbounded, and outdated values do occur (C15, C20), so an example test cannot tell an outdated value from a wrong one", "anchors": ["src/pigro/lazy.h: detail::lazy lines 46-67", "src/pigro/lazy.h: detail::ensure_lazy"]}
{"id": "C57", "title": "to_tuple refers to the elements", "statement": "After auto w = to_tuple(t) for an lvalue compressed tuple t, std::get<i>(w) is the element get<i>(t) itself: reading it gives the element's current value, assigning it assigns the element (or, for an element declared T&, the object referred to), and assignments to the element show in w. Elements of an empty class are the exception: w refers to a temporary copy that no longer exists, and assigning through w is undefined behaviour. After auto w = to_tuple(<a temporary compressed tuple>) only the elements declared T& can be used that way; reading or assigning any other (reading: of non-empty class) is undefined behaviour. A default-constructed compressed tuple holds the default values and behaves like any other tuple afterwards.", "quantifier": "any history of creating variables, tuples (from variables, by copying, by default construction) and results of to_tuple, of any length, interleaved with reading and assigning variables, elements and elements of results of to_tuple; any number and values of elements", "why_tests_cant": "a dangling reference to an object of an empty class usually appears to work; aliasing shows only in the interleavings a test happens to try", "anchors": ["src/pigro/to_tuple.h:11-17", "src/pigro/apply.h:8-17", "src/pigro/compressed_tuple.h:18-64"]}
{"id": "C58", "title": "Values whose copying or comparing throws", "statement": "Copying a dependency's value, comparing a result with the cached one, storing it, and copying it for the caller are operations of the value type and may throw. (1) If only copies for the caller throw, those results are lost and nothing else: all other results, all actions, and the state afterwards are as without exceptions, and every delivered result is the right one. (2) Wherever and whenever such operations (and the functions) throw, a later call never reads an empty cache, returns a value computed by its functions from inputs really read so far, and returns the right value if it ran all its functions - provided an assignment that throws leaves the old or the new value. (3) Otherwise the value may be outdated: an exception in the comparison makes the next call return the old value. (4) A call returns normally if and only if nothing it did has thrown; (5) however it ends, it changes nothing but caches, only those of functions it called, and leaves none of these empty.", "quantifier": "all programs; all result types, with operations that throw at arbitrary times (depending on the values, the outside world and their own history); all wrapped functions, pure except that they may throw", "why_tests_cant": "exceptions from copy constructors and operator== are rarely injected, and the number of places and times where they can be thrown is unbounded", "anchors": ["src/pigro/lazy.h:27-29", "src/pigro/lazy.h:39-41", "src/pigro/lazy.h:50-66"]}
{"id": "C59", "title": "The designs of the walkthrough describe the library", "statement": "Pure functions, exact ==, no single tuple-valued dependency, no empty optionals, state kept: (1) the design of dependencies.md / syntactic_sugar.md, which remembers the last result and the last arguments, behaves as the library: in every program every call returns the same result and calls the same wrapped and plain functions with the same arguments in the same order; only comparisons differ. (2) The design of final_design.md, which asks the dependencies for changes and calls them again for their values, returns the same results, calls the same wrapped functions with the same arguments in the same order and ends with the same caches; its calls of plain functions include those of the library in order. The same holds, with the same world at the end, for wrapped functions that throw, return anything and change the world and plain functions that throw, provided plain functions change nothing and do not read what wrapped ones change, values equal themselves, hold no empty optional and are not tuples. (3) The difference: when a plain function under a chain of n + 1 lazy functions changes and every value along the chain changes with it, the final design calls it n + 2 times, the library once; with a plain function that returns something else each time even the results differ. (4) If functions may throw, every result the first design delivers is still the right one (for every sound ==, whatever the optionals), because it remembers the arguments only after the function returned; the library and the final design, under the same conditions, return an outdated value after an exception.", "quantifier": "all programs (creations, copies, calls, changes of the world), all pure user functions, all chain lengths n", "why_tests_cant": "equivalence of three algorithms over all programs", "anchors": ["docs/walkthrough/dependencies.md:37-50", "docs/walkthrough/syntactic_sugar.md:11-25", "docs/walkthrough/final_design.md:23-68", "docs/walkthrough/comparisons.md", "src/pigro/lazy.h:46-67"]}
{"id": "C60", "title": "Memory footprint of a lazy function with its dependencies", "statement": "(1) The size of a lazy function is exactly that of a struct of its cache and, unless all are empty, a struct of the non-empty ones among the wrapped function and its dependencies, where a value dependency counts as its value, a lazy dependency as itself, and a plain function as a struct of its cache and of its captures and an int. (2) The size is never less than the sum of the sizes of these parts; (3) it is that sum if all parts have the same alignment. (4) A plain function costs more than its cache and captures (what the test memory_footprint expects): lazy_value(0, std::true_type{}) stores an int. (5) The cache of a function returning a T has the size of a T plus its alignment (the value, a flag, padding) and the alignment of T; that of a function returning nothing is one byte.", "quantifier": "all caches, functions and lists of dependencies of any kind, any sizes and alignments, both ABIs and both versions of overload", "why_tests_cant": "tests check a few combinations on one compiler", "anchors": ["src/pigro/lazy.h:46-103", "src/pigro/regular_void.h:45-47", "tests/lazy.test.cpp:190-230"]}
{"id": "C61", "title": "Size of an overload", "statement": "(1) An overload is laid out as a class deriving from its non-empty functions in the given order; (2) it is empty iff all functions are, then of size 1, and empty functions never change its size; (3) the version that sorts its bases has the same size, alignment and emptiness as the other; (4) its size is the sum of the sizes of the non-empty functions if these have equal alignments and no tail padding - in general it is not (an ABI may put a function into the padding of the one before).", "quantifier": "all lists of functions, any sizes and alignments, both ABIs", "why_tests_cant": "tests check five lists", "anchors": ["src/pigro/overload.h:11-38", "tests/overload.test.cpp:24-60"]}
{"id": "C62", "title": "What a lazy function does at all its calls, without caches", "statement": "A 'kept' lazy function is one whose closure state (the cache of lazy.h:49-66 and the states of its dependencies) is kept from call to call, as docs/walkthrough/final_design.md promises. The results, change flags, exceptions and actions (calls with their arguments, comparisons with their operands, in order) of all calls of a lazy function are given part by part from what its dependencies do: a value returns itself unchanged; a part whose dependencies all returned is evaluated iff it never returned before or a dependency reports a change; it then reports a change iff it never returned before or the result differs (by the given ==) from what it returned last; otherwise it returns what it returned last, unchanged; if a dependency throws, the dependencies to its right are not called, the part does nothing and the exception passes; if the part throws, its dependencies keep what they returned, so the change is not reported again. Functions may throw and read the outside world but do not change it.", "quantifier": "every tree, every sequence of calls and of outside worlds, every pattern of exceptions, every operator==", "why_tests_cant": "the complete effects of unboundedly many calls, in particular after exceptions", "anchors": ["src/pigro/lazy.h: detail::lazy lines 46-67", "src/pigro/lazy.h: detail::ensure_lazy", "src/pigro/lazy.h: lazy_value"]}
{"id": "C63", "title": "What happens when several lazy functions share others by reference", "statement": "A 'kept' lazy function is one whose closure state (the cache of lazy.h:49-66 and the states of its dependencies) is kept from call to call, as docs/walkthrough/final_design.md promises. Sources are lazy functions built by value; consumers are lazy functions whose dependencies are std::ref of sources, copies of sources, plain functions and values. Pure functions, exact ==, no empty optionals, no single tuple-valued dependency. (1) The results and actions of all calls of sources and consumers, in any order and in any worlds, are determined by the history of calls alone: a source reports a change iff it differs from what it was when any call last reached it, another dependency iff it differs from what it was at the consumer's last call; the consumer is evaluated iff this is its first call or a dependency reports a change, and otherwise returns what it returned last. (2) A consumer never mixes inputs: it returns what its function computes from the values of all its dependencies at one of its own calls (at its first call: at that call). (3) If since its last call all its sources have been reached by others in the present world, and its other dependencies are unchanged, it returns its last result, however much the sources have changed. (4) Conversely, if it was right at its last call and since then nobody reached one of its sources in a world where that source had another value than at that call, it is right.", "quantifier": "every set of sources and consumers, every sequence of calls and outside worlds, all pure user functions", "why_tests_cant": "depends on the interleaving of unboundedly many calls through different dependents", "anchors": ["src/pigro/lazy.h: detail::ensure_lazy lines 78-90", "src/pigro/lazy.h: detail::lazy lines 46-67", "src/pigro/concepts.h:14-21"]}
{"id": "C64", "title": "recursive ties the knot", "statement": "Calling recursive{F}(x), where F's body may call self(y) any number of times, read and assign its captured variables, throw and catch: (1) if F only reads its variables and calls self with smaller arguments only (in a well-founded order), the call ends and yields what the function satisfying F's equation yields at x, whether self is taken by value or by reference; (2) if self is taken by reference, F's variables behave as one global variable of a recursive procedure; (3) if self is taken by value, every invocation works on its own copy, made when it starts: nested calls influence the object only through their outcomes; (4) recursion on smaller arguments always ends, and outcomes are unique; (5) calling a temporary is the same if self is taken by reference, or if moving the variables leaves them as they are; by value the body of the outermost invocation otherwise sees moved-from variables, so that (6) it may yield something else than calling a variable.", "quantifier": "every callable F, argument, captured state, well-founded order, depth of recursion", "why_tests_cant": "recursion depth and the interleaving of nested calls and assignments are unbounded; the tests compute five Fibonacci numbers", "anchors": ["src/pigro/recursive.h:10-34", "tests/recursive.test.cpp"]}
{"id": "C65", "title": "Which calls of bound functions compile, and with what type", "statement": "(1) bind_back(f, back...)(front...) is viable (does not drop out of overload resolution) exactly if f can be invoked with front... and back... all perfectly forwarded, and its type is the type of that invocation; a viable call compiles exactly if f, as an lvalue, can also be invoked with front... forwarded and back... as lvalues, with a result that converts. So if everything bound is an lvalue, it compiles exactly if the direct call does; for a function object with one non-template call operator a viable call fails to compile exactly if something bound from an rvalue meets a parameter T&&, or T that cannot be copied, or f was an rvalue with a &&-qualified call operator. (2) A call of t >> f or t << f, const or not, is viable exactly if f can be invoked, as an lvalue, with the elements of the lvalue t and the arguments (perfectly forwarded for >>, as rvalue copies, as is f, for <<), and has that type; it compiles exactly if the same holds for the binder's members (const in a const binder; not for empty classes), for >> also with the arguments as lvalues, and if asking whether the function takes an index tag is not an error itself. So for a non-const binder and lvalue arguments it compiles exactly if it is viable. (3) Function objects with a const call operator and parameters that are copyable values or const references can be bound and called in every way: it compiles exactly if the classes agree with the parameters in the right order, and is otherwise not viable. (4) Not every viable call compiles, not every call whose body would compile is viable, >> does not forward rvalue arguments, << does not take variables by reference, and a const binder of a mutable function is viable without compiling.", "quantifier": "every callable (given by what invoking it with expressions of any type and category yields), bound and further arguments of any number, type, constness and value category, tuple, const or non-const binder", "why_tests_cant": "the tests compile a handful of calls; what must not compile, or must drop out of overload resolution, for which types, cannot be listed", "anchors": ["src/pigro/bind_tuple.h:13-50", "src/pigro/apply.h:8-17", "src/pigro/fwd_capture.h:12-22", "tests/bind_tuple.test.cpp"]}
{"id": "C66", "title": "std::ref makes no difference, as composed", "statement": "Whether existing lazy functions are handed to pigro::lazy by std::ref(x) or by value, any program that creates, copies and calls lazy functions in a changing world shows the same results at every call, performs the same actions in the same order and leaves the world the same. Exactly: every call evaluates the whole tree, through copies and references, from scratch, up to the first value that may not be read from a dead object; and no object that existed before the call has changed, the variables referred to included. (So sharing by reference cannot be used to keep the caches that copying loses; nor does it show stale values, as it would if caches were kept, C20.)", "quantifier": "every program (any number of lazy functions, references, references to functions that hold references, copies of those), user functions that may have state, throw or change the world; both readings of reads from dead objects", "why_tests_cant": "a test sees a few graphs of references; that nothing at all can be told apart is a statement about all programs", "anchors": ["src/pigro/lazy.h:46-103", "src/pigro/bind_tuple.h:20-50", "src/pigro/regular_void.h:15-39"]}
{"id": "C67", "title": "Sharing by std::ref, with parameters by reference", "statement": "If the closures took what is bound to them by reference instead of by value, and nothing else changed, a program that creates lazy functions from functions, values, copies of lazy functions and std::ref of lazy functions, copies and calls them in a changing world would show the results, perform the actions in the order and leave the world exactly as the algorithm says in which a shared function has one cache (the one C20, C56 and C63 are about), where the arguments of a function are read only after all its dependencies were called. No call would be undefined; only exceptions of the user's functions come out. If every lazy function has at most one user, std::ref and passing by value could not be told apart.", "quantifier": "every program (any number of lazy functions, any acyclic graph of references and copies), functions that may throw or change the world, but are not changed by being called; both readings of reads from dead objects", "why_tests_cant": "the library as it is does not keep results (C45), so no test can see this; it says which part of the code is responsible", "anchors": ["src/pigro/lazy.h:17-103", "src/pigro/bind_tuple.h:20-50", "src/pigro/regular_void.h:15-73"]}
{"id": "C68", "title": "The same lazy function twice by std::ref: the same value twice", "statement": "A function that was given std::ref of one lazy function at two places (or more) is always called with the same value at these places, even if that lazy function is re-evaluated between the two times it is asked and gives another result the second time (values are read through references to its cache, after all dependencies were called). Only results of type void are exempt, which are passed on as they are. Passed by value the two arguments can differ.", "quantifier": "every program, graph of references and copies, functions that may throw, be impure or change the world, at every call; on the algorithm and on the composed library with parameters by reference", "why_tests_cant": "a test has to guess a world in which the shared function changes between two dependencies of one call", "anchors": ["src/pigro/lazy.h:17-66"]}
{"id": "C69", "title": "The first designs of the walkthrough, and the code they replace", "statement": "(1) The simplified lazy() of call_once.md (a flag) and that of caching.md (an optional) are the algorithm of the library for functions without dependencies, of type void and of other types respectively: any program that creates, copies and calls lazy functions in a changing world shows the same results, performs the same actions and leaves the same world, also if the functions throw (they are called again by the next call) or change the world. (2) In the example of call_once.md, initialising two systems through lazy functions initialises both exactly once and before the first use, for every sequence of places reached, as the flags were meant to; the flags as printed initialise OpenCL again at every place reached before the first one that sets its flag, and OpenGL once.", "quantifier": "every program without dependencies, arbitrary functions; every sequence of places", "why_tests_cant": "the documentation is not tested at all; equivalence of two implementations is about all programs", "anchors": ["docs/walkthrough/call_once.md:35-116", "docs/walkthrough/caching.md:23-32", "src/pigro/lazy.h:46-66"]}
{"id": "C70", "title": "Extra laziness, and reactivity all the way down", "statement": "(1) Passing lazy(h, constants...) as a dependency instead of the value of h(constants...), where h returns the same each time: in every continuation of the program all operations yield the same results and perform the same actions, except that h is called when the value is first needed, at most once by the lazy function it was passed to, and never at creation. (2) The program of reactivity_all_the_way_down.md, as written, follows the position of the mouse but not the drawing mode: the mode is read at the first call only, because lazy(get_drawing_mode) has no dependencies. (3) With get_drawing_mode itself as the dependency the result is always that of the current mode and position.", "quantifier": "(1) any program state, wrapped functions (throwing, reading and changing the world), position among the dependencies, continuation (calls, copies, nested use, changes of the world); (2), (3) any functions and any sequence of worlds", "why_tests_cant": "the continuations are unbounded, and the documentation's program is not among the tests; that it is not reactive shows only when the mode changes between two calls", "anchors": ["docs/walkthrough/extra_laziness.md:21-26", "docs/walkthrough/reactivity_all_the_way_down.md:1-21", "src/pigro/lazy.h:46-103"]}
{"id": "C71", "title": "Sharing through functions", "statement": "A lazy function x that other lazy functions use through a plain function that calls it ([&] { return x(); }), rather than by value or by std::ref, is shared correctly: for any number of users, any depth, any mix with constants and other plain functions, every call of every lazy function returns what evaluation from scratch in the current world returns. No copy is made, so nothing is computed twice: in one call no wrapped function is called twice, and in the whole program no wrapped function is called twice in succession with equal arguments. With std::ref in place of the function the first half is false.", "quantifier": "every program of lazy functions of pure wrapped functions; plain functions that look at the world and call lazy functions defined before, in any order and depending on the results; programs that create, call and copy in a changing world; sound operator== (and for the second half exact, different wrapped functions, and no empty optionals)", "why_tests_cant": "sharing shows only in sequences of calls of different users between changes of the world; the tests have a single user of each lazy function", "anchors": ["src/pigro/lazy.h:46-103", "docs/walkthrough/reactivity_all_the_way_down.md:1-21"]}
{"id": "C72", "title": "Functions that call lazy functions", "statement": "Wrapped functions and plain functions may themselves call lazy functions, change the world, throw and catch. (1) If each calls only lazy functions defined before its own, every call ends, and at most as many calls are under way as there are lazy functions. (2) A lazy function without dependencies that has once returned a value returns that value ever after, without calling anything, whatever its function does and whatever happens in between. (3) Lazy functions without dependencies whose functions call each other are evaluated by need: every call returns the value of the function, each function is called at most once, and those called are exactly those that a requested value needs. (4) What a wrapped function calls is not a dependency: a lazy function does not follow those that its wrapped function calls. (5) Where no function calls a lazy function, programs with values, plain functions and std::ref as dependencies behave, action for action, as the algorithm of the other properties.", "quantifier": "(1), (2) arbitrary functions, programs and worlds; (3) any list of functions that call earlier ones, any sequence of calls", "why_tests_cant": "termination and 'ever after' are about unboundedly many programs and calls; no test has a wrapped function that calls a lazy function", "anchors": ["src/pigro/lazy.h:46-73"]}
{"id": "C73", "title": "Functions that come back to themselves", "statement": "(1) A lazy function that, before it has a value, comes back to itself, by its first dependency or by its wrapped function, directly or through others, never returns; it never gets a value. (2) A lazy function that has a value, whose dependency has changed and whose wrapped function calls the lazy function itself, sees its previous value: the inner call finds the dependency up to date and returns the cache. So results build on each other, one step for every change of the dependency: after the first call the result is next(argument, previous result), computed once per change. (3) A wrapped function without dependencies that, by the state of the world, comes back to itself k times and then stops, returns after exactly k levels; each level then overwrites the cache and the outermost value is what stays. (4) If it is a dependency that comes back k times, the inner calls leave their values in the caches, and the outer ones compare with these: the wrapped function is called once at the bottom and then once for every level whose argument differs from that of the level below. (5) Arguments are read when all dependencies have been called: if a later dependency calls the lazy function, the outer call gets what the innermost one stored for the earlier dependencies.", "quantifier": "(1) every program without copies, every cycle; (2) every wrapped function of this form, every sequence of worlds; (3)-(5) every function of the form, every number of levels", "why_tests_cant": "not returning cannot be tested; the second part depends on the order in which the caches of dependency and function are written, for sequences of calls", "anchors": ["src/pigro/lazy.h:50-66", "src/pigro/lazy.h:82-86"]}
{"id": "C74", "title": "Function objects with state keep it in the lazy function", "statement": "Function objects may change when they are called, as [n = 0]() mutable { return n++; }. (1) A call of a kept lazy function finds each of its function objects in the state in which that lazy function's last call of it left it, whether that call returned or threw. (2) Copies and other lazy functions are not affected: a copy goes on with its own copies of the function objects. (3) If the wrapped functions have no state and plain function dependencies return, a program returns the results, and leaves the world, of evaluating from scratch at every call, which calls every plain function object once, from left to right. (4) Over functions that calls do not change this is the algorithm of C01-C21. (5) With closure parameters taken by reference, and nothing else changed, the composition of the library does exactly this. (As written it does not: every call starts from the initial state, see C47.)", "quantifier": "(1) every lazy function with distinct function objects, every sequence of calls and worlds, every functions; (2) every program of calls; (3) every program, every stateful plain functions; (4) every program; (5) every program over functions that fail only by throwing", "why_tests_cant": "which of the nested copies of a function object a call changes can be seen only over sequences of calls, copies and exceptions of arbitrary functions; (5) quantifies over programs and object layouts", "anchors": ["src/pigro/lazy.h:50-66", "src/pigro/lazy.h:82-86", "src/pigro/lazy.h:96-103", "src/pigro/regular_void.h:15-23", "src/pigro/bind_tuple.h:36-50"]}
{"id": "C75", "title": "Which overload is chosen", "statement": "(1) A constraint subsumes another exactly if it implies it, whatever its atomic constraints stand for; the overload chosen is the one that holds and asks for strictly more than all others that hold, and the call is ill-formed exactly if one of the constraints checked on the way cannot be checked; among overloads each of which asks for strictly more than all later ones, the first one whose constraint holds is chosen, and the choice is never ambiguous. (2) Thus ensure_lazy takes a dependency for a lazy function, a plain function or a value exactly as follows: it is ill-formed if asking whether f(nullptr) (lvalue) or f() (rvalue) can be called is an error in the body of a generic function; lazy, if f(nullptr) has the members value and is_changed and an rvalue can be called with nothing; a function, if only the latter; a value, if an rvalue cannot be called with nothing. Never ambiguous. (3) What pigro::lazy returns is taken for a lazy function, by copy or by std::ref; what detail::lazy returns, for a value. (4) The dependencies that can be used are exactly those whose question (2) is no error and that are values, lazy, or return something if called as lvalue. (5) Not all callables are called: one callable as lvalue only (mutable lambda with & qualifier) is taken for a value, one callable as rvalue only for a function, which is an error; by std::ref neither happens. (6) With std::is_invocable_v in the place of the concept std::invocable in lazy_function_unwrapped, every lazy function would be ambiguous. (7) For empty elements the two overloads of compressed_tuple_element differ in the form of their parameters: the constrained one is chosen if constraints decide all the same, and the call is ambiguous if they do not (P2113).", "quantifier": "every constraint and every set of overloads (1); every type of dependency, as far as the constraints can tell (2)-(5); every value type (6); both readings of the standard (1)-(7)", "why_tests_cant": "the set of types is unbounded, and a program that does not compile is not a test", "anchors": ["src/pigro/concepts.h:8-24", "src/pigro/lazy.h:78-90", "src/pigro/lazy.h:96-103", "src/pigro/compressed_tuple.h:18-35"]}
{"id": "C76", "title": "Lazy functions and threads", "statement": "Of the algorithm on kept state, access by access, the threads taking turns in any order. (1) Without other threads a call does what C01-C21 say. (2) Threads no one of which writes what another one uses have no data race, and each does exactly what it does alone; a copy that a thread has made for itself is its own, and a lazy function that is settled may be called by all. If the outside world stays as it is, every thread gets the results of the program of its own calls. (3) A lazy function is settled if it contains no plain function and all its caches are filled, which is so after one call that returned. (4) That is necessary: if two threads call the same lazy function, it is not settled, and both calls return, there is a data race, whatever the order of steps and the other threads. (5) Were accesses to caches atomic, no thread would read an empty cache, but that would not be enough: a function without dependencies could run twice, and a call could return an outdated value.", "quantifier": "every set of threads, operations (calls, copies), schedules, changes of the outside world, user functions (2), (4); every lazy function (1), (3)", "why_tests_cant": "the number of schedules is unbounded, and a data race is undefined behaviour that need not show", "anchors": ["src/pigro/lazy.h:17-33", "src/pigro/lazy.h:39-41", "src/pigro/lazy.h:46-76", "src/pigro/lazy.h:78-103"]}
{"id": "C77", "title": "Moving lazy functions", "statement": "(1) A program that does not use a lazy function after it was moved from (auto y = std::move(x), or lazy(f, std::move(x))) does, operation by operation, what the program does that copies instead: same results, calls and comparisons, and moving itself evaluates nothing, whatever moving leaves in the moved-from values and function objects. (2) If moving leaves everything as it is, that holds for every program. (3) Calling a moved-from lazy function is never undefined behaviour, but its caches are not empty. If it is built from constants and was called, it returns what the move has left of its value, forever, without evaluating anything. (4) Otherwise a call does (apart from comparisons) what the first call does of a lazy function built anew from what the move has left of functions and constants - of a copy never called, if it leaves them as they are -, provided that every function in it depends on some function, and that none returns something equal to what the move has left of its last value. (5) Without the last proviso the result can be wrong.", "quantifier": "every program with moves, history, user functions (throwing, impure), any leftovers of moves", "why_tests_cant": "use after move of generic code with arbitrary value types; the wrong values need a coincidence", "anchors": ["src/pigro/lazy.h:46-67", "src/pigro/lazy.h:69-103", "src/pigro/fwd_capture.h:12-15", "src/pigro/regular_void.h:45-55"]}
{"id": "C78", "title": "Cost of a call with sharing", "statement": "Lazy functions may use each other by std::ref, so that several ways lead to the same one. (1) A call that returns calls every plain function once per way to reach it, left to right - sharing saves none of these calls - and evaluates nothing more often or in another order than the program with std::ref(x) replaced by x would. (2) If functions depend on their arguments only (or throw), values equal themselves and plain functions return no empty optionals, one call calls each wrapped function at most once per lazy function that owns it, however many ways lead to it. (3) In a ladder of n+1 lazy functions, each depending on the one before twice by std::ref, every call of the last one that returns calls the plain function at the bottom 2^n times and at most n+1 wrapped functions; with copies instead of references the first call calls 2^(n+1)-1 wrapped functions.", "quantifier": "(1) all programs, histories, functions and results (also exceptions); (2) all programs, histories and selections of functions; (3) all n and all histories after the ladder was built", "why_tests_cant": "The cost grows with the number of ways through a graph of arbitrary shape after arbitrary histories; a test fixes one graph and one history.", "anchors": ["src/pigro/lazy.h:50-66", "src/pigro/lazy.h:78-90", "src/pigro/concepts.h:14-21"]}
{"id": "C79", "title": "Layout with class identities; empty_object", "statement": "In C++ two subobjects of the same class never share an address. For every class built from scalars, bases and members the layout rules of the Itanium ABI give a valid layout: (1) no two subobjects of the same empty class have the same address, bases and members are aligned, inside the object and do not overlap; (2) nothing has to be moved for this - and size and alignment are those computed without regard to identities (C36, C37, C50, C51, C60, C61) - exactly if the places computed without regard to identities are all different, in particular if no empty class occurs twice; (3) so the size of a compressed_tuple is that of a plain struct of its non-empty elements whenever no element contains a compressed_tuple, even if the same empty class occurs many times; (4) but compressed_tuple{ e, compressed_tuple{ e, ... t } }, n+1 deep with the same empty e, has size sizeof(t) + n * alignof(t); (5) empty_object<T>::get() for an empty T copies an object at the address of its local storage, whose size and alignment are those of T.", "quantifier": "every class over scalars with power-of-two alignment, without virtual functions or bit-fields; (3) every list of such elements; (4) every empty class, every scalar, every n; (5) every empty class and every address", "why_tests_cant": "Class types and nesting depths are unbounded; the library's tests measure a handful of flat tuples.", "anchors": ["src/pigro/compressed_tuple.h:18-61", "src/pigro/empty_object.h:8-31", "src/pigro/overload.h:35-38", "src/pigro/recursive.h:10-34"]}
{"id": "C80", "title": "Layout of lazy functions with class identities", "statement": "Two subobjects of the same class never share an address, and a tree of lazy functions contains many empty classes several times. Still nothing has to be moved: (1) for every tree of lazy functions, plain functions and values over types of the user, the layout with identities is the one without (C50, C60), however deep it is and however often the same types occur; (2) if all non-empty parts have the same alignment, its size is the sum of the sizes of the non-empty caches, functions and values in the whole tree, and of an int for every plain function; (3) it is never less; (4) not so for values that are pigro's own classes: a compressed_tuple ending in a std::false_type, as a value, takes more than its size.", "quantifier": "every tree of lazy_type over user types (scalars with power-of-two alignment and classes whose empty subobjects are the user's), every int type; the Itanium ABI, overload as at the pinned commit", "why_tests_cant": "Trees are unbounded in depth and width and the types of the leaves are arbitrary; the library's tests measure a dozen flat lazy functions.", "anchors": ["src/pigro/lazy.h:35-103", "src/pigro/bind_tuple.h:20-50", "src/pigro/regular_void.h:15-39", "src/pigro/compressed_tuple.h:18-61"]}
{"id": "C81", "title": "Uncaptured values with class identities", "statement": "For uncaptured(ts...) >> f where no two subobjects of the same class may share an address: (1) if all values are empty the result has exactly the layout of f, even if the same class is given many times and whatever f is, unless f itself contains empty classes of uncapture.h; (2) for any values of the user and a lambda f the layout is that computed without regard to identities (C51), unless f is an empty class that is also inside one of the values; (3) then with equal alignments the size is the sum of the sizes of the non-empty values and of f; (4) the calls U::get_value() and F::operator() in CompressedInvocable are never ambiguous, whatever the values are, if f is not made by uncapture.h: the tags tell all bases apart; (5) but uncaptured(t) >> overload{ uncaptured(t) >> f, g } has two bases of one class, so U::get_value() is ambiguous and the object cannot be called, and an empty t takes space.", "quantifier": "(1) every list of empty classes and every class f; (2), (3) every list of types of the user and every lambda of the user; (4) every list of types, every f; (5) every t, f, g; the Itanium ABI", "why_tests_cant": "Lists of types are unbounded; the test file of uncapture.h has no test.", "anchors": ["src/pigro/uncapture.h:12-71"]}
{"id": "C82", "title": "Refactoring laws", "statement": "(1) Passing a constant to lazy is the same as binding it to the function: a program in which some lazy(f, xs..., v, ys...) are replaced by lazy(g, xs..., ys...), where g(xs..., ys...) does what f(xs..., v, ys...) does, has the same results, the same effects on the world and the same actions in the same order (but if a single dependency remains and its value is a tuple or pair then not, since that is spread). (2) A lazy identity of a lazy function is a copy of it: a program in which some lazy(identity, x) are replaced by copies of x, wherever and whenever x was called before, has the same results and the same actions but for the calls of identities and the comparisons of their results, provided that values that compare equal are equal (otherwise the identity keeps the older value). (3) Splitting a function costs no evaluations of what was there before: if in an expression some h(xs..., ys..., zs...) are replaced by f(xs..., g(ys...), zs...) with the same meaning, then every call returns the same value and the same flag and evaluates the same functions in the same order, but for f, g and h, and h is called exactly if f or g is.", "quantifier": "(1), (2) every program, every world, every user functions, which may throw and have effects ((2): that return no tuples, pairs or optionals of optionals); (3) every expression, every sequence of worlds, all pure functions with an exact equality that return no empty optionals", "why_tests_cant": "Tests compare single pairs of programs; the laws are about all programs, and about functions that throw in between.", "anchors": ["src/pigro/lazy.h:46-103"]}
{"id": "C83", "title": "Copying, moving and assigning", "statement": "Which special member functions pigro's objects have, whatever the types of the user have: (1) a lazy function with all its dependencies can be copied (moved, copied trivially) exactly if the caches and everything the user gave can be, where empty classes do not count; (2) it can never be assigned, by copy or by move, nor created by default; (3) a compressed_tuple can be created by default exactly if all elements can, copied or moved exactly if all elements that are not empty classes can, and assigned only if all elements are empty classes (so, unlike std::tuple, compressed_tuple<int> is not assignable); (4) t >> f and t << f can be copied or moved if t and f can, and assigned or created by default only if both are empty; (5) uncaptured(ts...) >> f can be copied, moved and assigned exactly if the values (those that are not empty) and f can, and never be created by default; (6) creating a compressed_tuple from another one of its type copies or moves it, except that compressed_tuple<T> b(a) with a single element takes a non-const lvalue a for the element, not for a tuple to copy.", "quantifier": "every lazy function type with any tree of dependencies, every list of element types, every assignment of special members to the types of the user", "why_tests_cant": "Which types can be assigned is decided for each instantiation; no test of the repository assigns a lazy function or a tuple.", "anchors": ["src/pigro/compressed_tuple.h:18-64", "src/pigro/lazy.h:35-103", "src/pigro/bind_tuple.h:20-58", "src/pigro/uncapture.h:12-71"]}
{"id": "C84", "title": "Dependencies in another order, left out or repeated", "statement": "(1) If in an expression some functions get their dependencies in another order (and are changed to take their arguments in that order), then every call returns the same value and the same flag, and evaluates the same functions, each as many times as before. (With functions that throw this fails: a change of a dependency left of the one that throws is forgotten.) (2) A dependency that a function does not look at can be left out: every call returns the same value and the same flag, and evaluates nothing more often than before. (3) Dependencies can also be given several times: every call returns the same value and the same flag, and evaluates nothing that would not be evaluated otherwise.", "quantifier": "every expression, with any number of such replacements in any places; every sequence of worlds; all pure functions with an exact equality that return no empty optionals", "why_tests_cant": "Tests compare single pairs of expressions at a few calls.", "anchors": ["src/pigro/lazy.h:46-67", "src/pigro/lazy.h:96-103"]}
{"id": "C85", "title": "Lazy functions that are not related do not affect each other", "statement": "(1) Whatever the functions of the user do, lazy functions that are created and copied but neither called nor used by others that are make no difference: without them the rest of the program has the same outputs and leaves the same outside world. (2) If the functions of the user do not modify the outside world (they may read it, and throw), calls of lazy functions that the rest does not use make no difference either. (3) So what is observed of a lazy function is determined by its own creation and calls and those of what it was created from: programs that have them in common agree on them, wherever they stand. (4) Calls of two lazy functions can be swapped: same outputs, same final state. (Not if functions modify the outside world.)", "quantifier": "every program and every part of it, every world, all functions of the user as said", "why_tests_cant": "Tests look at programs with one or two lazy functions; that nothing else in a program matters is about all programs.", "anchors": ["src/pigro/lazy.h:46-67", "src/pigro/lazy.h:96-103"]}
{"id": "C86", "title": "Groups of lazy functions that share nothing do not affect each other", "statement": "In programs where lazy functions share dependencies through std::ref: (1) whatever the functions of the user do, lazy functions that are not called make no difference to the rest, even if they refer to lazy functions that are called. (2) If the functions of the user do not modify the outside world, then calls make no difference to a group of lazy functions unless what is called refers, directly or indirectly, to something in the group; it may have been created by value from something in the group that has no references. (3) Programs that have a group in common agree on what is observed of it. (4) Calls of two lazy functions that do not refer, directly or indirectly, to a common object can be swapped: same outputs, same final state. For two that do, neither (2) nor (4) holds, even if all functions are pure and neither refers to the other: whichever is called first after a change gets it, and the other misses it.", "quantifier": "every program and every group in it, every world, all functions of the user as said", "why_tests_cant": "Whether two functions of a program share something is not visible in either; tests would have to try all arrangements of references and calls.", "anchors": ["src/pigro/lazy.h:46-67", "src/pigro/lazy.h:78-90", "src/pigro/lazy.h:96-103"]}
{"id": "C87", "title": "The library knows values only through ==", "statement": "(1) If the functions of two users do corresponding things to corresponding values and worlds, whatever corresponds to what, and == gives the same answers on corresponding values, then corresponding programs have corresponding outputs: results, exceptions, calls with their arguments, and comparisons, in the same order. (2) The same for programs in which lazy functions are shared by std::ref. (3) So if == compares only a key of values, which all functions respect, then results have the key that eager evaluation on keys gives. (4) What the sampled function wrapper passes as an argument (the 0 of lazy.h:85) does not matter. The correspondence has to preserve which values are tuples, pairs, optionals and void: for a representation of numbers by pairs it fails.", "quantifier": "all types of values, worlds and functions, all relations between them, all users of the library, all programs", "why_tests_cant": "That nothing but == is used of a type is a statement about all types; a test uses some.", "anchors": ["src/pigro/lazy.h:46-67", "src/pigro/lazy.h:78-90", "src/pigro/lazy.h:96-103", "src/pigro/tuple_algorithms.h:8-23"]}
{"id": "C88", "title": "A coarser equality never leads to more evaluations", "statement": "Let functions be pure and return no optional of an optional, and compare two equalities of which one calls equal whatever the other does, is an equivalence, and is respected by all functions. Then in every program every call has, with the coarser one, a result equal by it to that with the finer one, and evaluates the same functions in the same order except that some are left out: in every single call, not only in total. If functions do not respect the coarser equality, a call can evaluate functions that it would not evaluate with the finer one.", "quantifier": "all types of values, all pure functions, all pairs of equalities as described, all programs", "why_tests_cant": "It compares all pairs of equalities on all programs, call by call.", "anchors": ["src/pigro/lazy.h:46-67", "src/pigro/lazy.h:78-90", "src/pigro/tuple_algorithms.h:8-23"]}
{"id": "C89", "title": "Types of lazy functions", "statement": "In C++ it is decided by types whether a single value is taken apart as a tuple, whether two optionals are compared, and whether a result is void. (1) For functions with given return types (per types of arguments, as templates have) a program runs exactly if it compiles, and then every call of x returns a value of the type computed for x, nothing if that is void; functions are only called with arguments for which a call compiles; what is compared is of the same type, or of types between which != compiles. (2) If every wrapped function has the same return type for its dependencies as for what it is called with, the outputs are those of the same program without types, in which these decisions are made by looking at values. (3) That is so if no lazy function has a tuple or pair as its only dependency. Otherwise the type of the cache (for the tuple) and of the result (for its elements) can differ, and the result is converted: a call can return 3 where the function returned 3.5.", "quantifier": "all types of values, all functions with effects and exceptions, all return types and conversions, all programs", "why_tests_cant": "It is about all types of values, and all programs that compile.", "anchors": ["src/pigro/lazy.h:46-67", "src/pigro/lazy.h:78-90", "src/pigro/lazy.h:96-103", "src/pigro/regular_void.h:15-39", "src/pigro/regular_void.h:45-71", "src/pigro/tuple_algorithms.h:8-13"]}
{"id": "C90", "title": "Nothing is evaluated in vain", "statement": "Let functions be pure and return values of one type that has infinitely many values. (1) Compare lazy functions with any other way to find the results of all calls of a program that is right whatever the wrapped functions are: with any memory, any order of evaluation, knowing the program and all inputs, past and future. It calls every function with all the arguments with which the lazy functions call it. (2) So if no function is called twice with the same arguments, nothing makes fewer calls. (3) If it is also right whatever the plain functions are, it calls every plain function that a call of a lazy function calls, at the same time. If arguments recur, lazy functions can make more calls than needed, as they remember only the last result.", "quantifier": "all types of values, all pure functions, all programs, all strategies", "why_tests_cant": "It compares with all other algorithms.", "anchors": ["src/pigro/lazy.h:46-67", "src/pigro/lazy.h:78-90"]}
{"id": "C91", "title": "Threads and std::ref", "statement": "Of the algorithm on kept state, access by access, for lazy functions that refer to each other with std::ref. (1) The variables of any program with references can be laid out in memory, each function with a cache of its own; without other threads a call, and any sequence of calls, then does access by access what the reference semantics of C55/C67 says: same results, same calls and comparisons, same state left. (2) If several threads call variables of the program, and any two threads reach through references only settled lazy functions in common (even if the functions they call are not settled themselves), there is no data race, whatever the schedule; if moreover the outside world stays as it is, every thread that ends gets exactly the results of the program of its own calls, and the variables it reaches are left as that program leaves them. (3) Conversely, if two threads reach a common lazy function that is not settled, and both calls return, there is a data race, whatever the schedule and the other threads do.", "quantifier": "every program with references, memory layout, number of threads, sequence of calls per thread, schedule, user functions (returning void always or never)", "why_tests_cant": "the number of reference graphs and schedules is unbounded, and a data race is undefined behaviour that need not show", "anchors": ["src/pigro/lazy.h:17-33", "src/pigro/lazy.h:39-41", "src/pigro/lazy.h:46-76", "src/pigro/lazy.h:78-103", "src/pigro/concepts.h:14-21"]}
{"id": "C92", "title": "One mutex is enough", "statement": "Of the algorithm on kept state, access by access, for lazy functions that refer to each other with std::ref, called by several threads that hold one common mutex during each call (released also if the call throws; changes of the outside world are made under the same mutex). (1) Whatever the schedule and whatever the user functions do, there is an order of all completed calls, in which the calls of each thread are in its own order, such that the program of one thread that makes the calls in this order gets the same results as the threads, and leaves the variables and the outside world as the threads left them; no call has undefined behaviour. (2) Between two accesses by different threads the first thread released the mutex and the second acquired it afterwards, so there is no data race, even where C91 shows that without the mutex there is one. (3) There is no deadlock: from every reachable state all calls can be completed.", "quantifier": "every program with references, memory layout, number of threads, sequence of calls per thread, schedule, user functions (returning void always or never)", "why_tests_cant": "the number of schedules is unbounded, and a missing or misplaced lock need not show", "anchors": ["src/pigro/lazy.h:17-33", "src/pigro/lazy.h:39-41", "src/pigro/lazy.h:46-76", "src/pigro/lazy.h:78-103"]}
{"id": "C93", "title": "What avoiding comparisons saves", "statement": "comparisons.md replaces the design of dependencies.md (which remembers the arguments and compares all of them at each call) by that of the library, to save comparisons and memory. For pure functions without null or spread-out values: (1) the calls of both give the same results (C59); if a lazy function is called again and none of the plain functions it reads has changed, the library makes exactly one comparison for each plain function among its direct and indirect dependencies, and the older design exactly as many plus one for each value and each lazy function among them; neither calls a wrapped function. (2) After any call the library stores one value for each lazy function and one for each plain function; the older design stores as many plus one for each value and each lazy function among the dependencies. (3) In any call the library makes at most one comparison per evaluation (this for all user functions, also if they throw), the older design at most one per dependency. (4) It is not true that the library never makes more comparisons than the older design: when plain functions have changed it may make n + 2 where the older design makes one, for every n.", "quantifier": "every program, user functions (pure for (1) and (2)), dependency trees, histories", "why_tests_cant": "counts depend on the shape of the dependency tree and on the history; tests fix both", "anchors": ["docs/walkthrough/comparisons.md:23-42", "docs/walkthrough/comparisons.md:101-101", "docs/walkthrough/comparisons.md:220-220", "docs/walkthrough/dependencies.md:37-50", "src/pigro/lazy.h:46-76"]}
{"id": "C94", "title": "Changes under which results are never outdated", "statement": "Four small changes of the library: if the wrapped function throws, the cache is emptied; if a dependency throws, as well; transform makes a tuple of exactly the given types instead of leaving them to deduction; a new result is compared with the value in the cache instead of with the optional. (1) With the first two, after any history and whatever threw, a call throws or returns the value for the current inputs (C15 without restriction), for the values of C01; with all four, for all values, also single tuples and optionals of optionals. (2) None of the four can be left out, whatever is done about the others: some pure or throwing functions, program and inputs then make a call return another value. (3) Without any of them it is the library. (4) The first two change no result, effect or state as long as no call throws, for all user functions. (5) With the last two, for pure functions the effects are exactly those of C02 for all values. (6) With any of them, a call evaluates every part at most once, dependencies first.", "quantifier": "every program, user functions (pure or throwing for (1), pure for (5)), dependency trees, histories, exceptions, subset of the changes", "why_tests_cant": "which calls are outdated depends on the history of exceptions and on the types of the values; tests fix both", "anchors": ["src/pigro/lazy.h:50-66", "src/pigro/lazy.h:51", "src/pigro/lazy.h:58", "src/pigro/tuple_algorithms.h:8-13"]}
{"id": "C95", "title": "Sharing in the design of the walkthrough", "statement": "In the design of dependencies.md, in which a lazy function remembers its last result and the arguments it was computed from, with lazy functions given to others by std::ref: (1) for pure functions and an == that never calls different values equal, every call of every program returns the value for the current inputs, however many dependents a lazy function has and however it is called in between (C20 holds of that design; it is false of the library, which passes flags instead of comparing arguments). (2) If functions throw, every call throws or returns that value. (3) Without std::ref it is, for all user functions, the design of C59 and C93. (4) For pure functions and reflexive ==, a call brings everything up to date that it refers to by std::ref, directly or indirectly: calling any of it afterwards, or the same lazy function again, evaluates no function.", "quantifier": "every program with copies and references, dependency graphs, histories, exceptions", "why_tests_cant": "outdated values depend on the interleaving of calls through different dependents; tests fix it", "anchors": ["docs/walkthrough/dependencies.md:37-50", "docs/walkthrough/syntactic_sugar.md:11-25", "docs/walkthrough/comparisons.md:92-96", "src/pigro/lazy.h:78-80"]}
{"id": "C96", "title": "Version numbers instead of flags", "statement": "If a lazy function returns with its value a version number, counted up whenever its result changes, and is evaluated again when the version numbers of its arguments are not those of its last evaluation (instead of when one of them reports a change): (1) for pure functions and values as in C01, lazy functions shared by std::ref keep all their dependents up to date (C20). (2) If functions throw, every call throws or returns the value for the current inputs, with sharing and without (C15). (3) Without std::ref, as long as no call throws, every call has the same result and makes the same evaluations and comparisons in the same order as the library, for all user functions. (4) For pure functions, reflexive == and plain functions that return no empty optional, a call brings everything up to date that it refers to by std::ref, directly or indirectly: calling any of it afterwards, or the same lazy function again, evaluates no function.", "quantifier": "every program with copies and references, user functions (pure or throwing for (1) and (2)), dependency graphs, histories", "why_tests_cant": "outdated values depend on the interleaving of calls through different dependents and on exceptions; tests fix both", "anchors": ["src/pigro/lazy.h:14-25", "src/pigro/lazy.h:46-67", "src/pigro/lazy.h:78-90"]}
{"id": "C97", "title": "Repeated calls with sharing", "statement": "Pure functions, reflexive ==, plain functions that return no empty optional. After any program with copies and std::ref and a call of a (kept) lazy function x, as long as the outside world stays the same, any calls of x and of the lazy functions it refers to by std::ref, directly, through others or through copies, in any order, evaluate no wrapped function and leave the state of all lazy functions as it is; x returns the same result each time (C21 for sharing; the result may be outdated, C20).", "quantifier": "every program with copies and references, user functions, dependency graphs, histories, sequences of repeated calls", "why_tests_cant": "repetitions of any length after any interleaving of calls through different dependents; tests repeat single calls", "anchors": ["src/pigro/lazy.h:46-67", "src/pigro/lazy.h:78-90", "src/pigro/concepts.h:14-21"]}
