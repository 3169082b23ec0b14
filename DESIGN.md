# Formal model of advanced_library_cpp — design

The source is the header-only C++ library under `/repo/AdvancedLibraryCpp`.
The model is written in Rocq (Coq 8.16.1), in `rocq/theories`. The C++ code was
read as text; it was never built or run.

## Layout

Each header has up to four files:

* `XModel.v`: the code, function by function, each definition citing file and lines.
* `XSpec.v`: a small independent specification (lists, multisets, sums,
  equivalence closures). It does not use helpers of the model.
* `XProofs.v`: lemmas.
* `XProps.v`: the property theorems only, each closed by an earlier lemma,
  followed by `Print Assumptions` and a concrete non-trivial case
  (`Example ..._case`) that meets the hypotheses.

Naming: `Cnn_...` is a theorem for property `Cnn`; `Cnn_..._partial` proves only
part of the English claim; `Cnn_..._refuted` proves that the claim is false of
the faithful model and exhibits a witness.

## Trusted base

* Coq's kernel, and `coqchk`.
* Axioms: what `Print Assumptions` prints under each theorem. The aim is
  "Closed under the global context" everywhere; any exception is listed in the
  section "Axioms" below.
* The reading of C++ semantics in the model files:
  * `size_t` is 64 bits. Wrap-around is written explicitly where the code can
    reach it; elsewhere the comment says why it cannot.
  * `std::vector`, `std::list`, `std::deque`, `std::unordered_map`,
    `std::map`, `std::queue`, `std::stack`, `std::priority_queue`,
    `std::stringstream`, `std::getline` are modelled by their documented
    functional behaviour (lists, association lists). Allocation never fails.
  * Undefined behaviour is a distinct outcome `UB`; exceptions are `Throw`.
  * Element types are abstract types with the operators the code uses; the laws
    assumed of these operators are hypotheses of the theorems.
  * Threads are interleaved at the granularity of mutex-protected sections and
    of single reads and writes of shared flags (sequential consistency).
* Not modelled: memory consumption, running time (except stated step bounds),
  floating-point rounding outside `Double*.v`, C139 and C145-C147 (where a `double` is used
  elsewhere, the comment says what is assumed), exceptions thrown by element operations outside C123, C124, C142, C148, C150, C151, C153 and the cache, template instantiation
  failures.

## Plan per property

Fenwick tree (`fenwick_tree.h`), files `Fenwick*.v`. The state is the built flag
and the cell list; elements are an arbitrary type with operation, inverse and
truthiness; positions are 64-bit numbers in `N`.
* C01, C02, C03, C04, C06, C07: invariant "cell p is the fold of the block of
  length lowbit p ending at p" by induction over the call list; refinement to a
  plain list of elements. C07's safety half is refuted by resize(0).
* C05: direct from the invariant on the built flag, for every history.
* C08: outcome is never `UB`/out of fuel with 64 hops; number theory on lowbit.
* C09: the invariant itself, through the API.
* C10: instance with integer multiplication; update by zero gives a refutation.
* C95: `update_alias` re-reads the argument from the cell it aliases; refuted;
  a reference to an earlier cell is proved harmless.

LRU cache (`cache.h`), files `Lru*.v`. The list of (node, key) plus the map from
keys to nodes are both modelled; refinement to a list of keys.
* C11, C12, C13, C15, C16: invariant + refinement by induction over calls.
* C14: induction over the access string against "first c distinct keys of the
  reversed string".
* C17: proved for capacity >= 1, refuted for capacity 0.
* C18, C19: refuted (iterators into another list; dangling key reference);
  moves are proved.
* C118, C119, files `LruThrow*.v`: the same functions with a list of booleans
  that says which of the points that can throw do (allocation, key copy,
  on_discard) and with `_max_capacity`. Proved: a call that returns does what
  the first model says; the first point is harmless; at most one key is
  affected; clip() repeats after a throwing hook; clear() repairs. Refuted: a
  lookup or an add that throws at its second point. The double product of
  set_capacity is a parameter of which only its range is assumed; from 2^59 on
  the conversion is undefined. Hash and comparison functions do not throw.
* C120, files `LruHook*.v`: on_discard as a sequence of calls chosen by state
  and key, interpreted with nesting and fuel. Proved for hooks that look, look
  up and remove; adding, clipping and clearing hooks are refuted for every full
  cache.
* C125, C126, files `LruIter*.v`: iterators and references as identities of list
  nodes, range-for loops and reverse loops with a body of calls (loop variable
  copied). Refuted: a reference lives as long as its key is in the cache (looking
  the key up moves it to a new node); loops that look up (undefined forwards, keys
  skipped backwards), remove, or add to a full cache. Not
  modelled: assigning one cache to another while iterators are held.

Disjoint sets (`union_set.h`, `union_find.h`), files `Union*.v`. Parent and rank
arrays; `_find` with its exact order of rank updates.
* C20–C26, C28: invariant (parents acyclic, rank of a root is the class size,
  union by size) and refinement to the closure of the joined pairs.
* C24 evaluation order: the order is a parameter of the model.
* C27, C29, C30: refuted with witnesses, exact behaviour proved.
* C96: both flag values and all evaluation orders refine one label machine.
* C142, files `UnionThrow*.v`: insert, emplace, join_sets and resize that throw. The
  state an exception leaves depends on which container throws (`place`); one insertion
  at the end of a container, and one resize, happens or does not. Proof: the arrays are
  those of a clean run with junk at their ends (`padded`), and a renaming of elements
  relates the maps (`sim`). Simplified: lookups that throw leave everything as it is and
  are not steps, except in join_sets; moving an element that throws leaves it usable.
* Not modelled: `reserve`, the variadic constructor of union_find_t (it does not
  compile when used), the hash map behind the ids (an association list).

AVL tree (`binary_tree.h`, `tree.h`), files `Avl*.v`. Inductive tree whose nodes
carry identity, parent pointer, stored height and value.
* C31, C32, C33, C38, C39: refinement to a sorted list, for any stored heights.
* C34: invariant AVL + exact heights, Fibonacci bound.
* C35: invariant; C36, C37: refuted by concrete histories (computed witness).
  `AvlWorstProofs.v`: the tree without addresses and stored heights (proved equal
  step by step), on which C36 is refuted for every size: a round of 47 calls adds one
  node on top of a core of four, the nodes above are never looked at again because
  their difference is not exactly 2; renaming of values carries the round on.
* C40: has_parent proved, parent() refuted. C41, C42: contents proved, heights
  and sizes refuted.
* C123, C124, files `AvlThrow*.v`: the same functions with the points that can
  throw (comparisons, copies with their allocation) given as a list of booleans and
  a table of which kinds can. Invariant without exact heights over all histories;
  what a throwing call did is a relation on the contents (`effect`). Simplified: an
  allocation and the copy into it are one point, an assignment that throws leaves
  the old value, a copy constructor that throws leaks and is only seen as "no copy".
* C129, C130, files `AvlRef*.v`: references to nodes as addresses, for the same model.
  C129: in-order list of (address, value); rotations keep it, an insertion adds one
  pair, a removal is a relation on the list (`unlinked`); addresses are unique over all
  histories. Refuted: a reference lives as long as its value, or keeps its value.
  C130: the five traversals by address on the current tree, a callback being any
  sequence of calls of the tree. The number of calls left is part of the state, so that
  the tree stays below 2^63 nodes. Refuted with witnesses for callbacks that insert or
  remove; for every number of steps for the in_order whose callback inserts the next
  value. Simplified: the value passed to a call of the callback is a copy, not a
  reference into the tree (for that see C39).
* All AVL theorems assume fewer than 2^63 calls (`big`), so that differences of
  heights and the element counter do not wrap.
* Not modelled: the ostream operators, `value(pred)`-style search callbacks,
  freeing memory (a deleted node is one whose address no longer occurs).

Traversals (`tree.h`, `binary_tree.h`), files `Traverse*.v`. Trees are plain
inductive types; a callback sees the node (with everything below it) and all
earlier calls, so it may keep state. Traversals return the calls made.
* C43, C47: structural induction, for a callback that never stops.
* C44, C45: queue/stack loops related to level order and pre-order.
* C46, C97: refuted with witnesses; for every callback the calls are an ordered
  part of the full walk, and what a true answer cuts off is described exactly
  for binary trees.
* C115, files `Walk*.v`: in_order of k-ary trees as a machine with an explicit
  stack, any number of them with the one static variable; a callback that starts
  another traversal is a schedule. Alone the machine is proved to make the calls of
  `kin_order`; the rest by invariants and a measure.
* C151, files `TraverseThrow*.v`: the callback may throw. The eight traversals with the static
  variable threaded through; by induction the calls are those of the callback that
  answers instead, cut after the first that throws.
* Not modelled here: callbacks that change the tree (for k-ary nodes see C133, for
  binary nodes C128).

k-ary nodes (`tree.h`), files `Kary*.v`. Nodes carry identity, parent pointer,
value and slots; a program owns any number of nodes and calls members on any
node it can reach with child(pos).
* C48, C49, C98: invariant over call lists on slots and node identities.
* C51: each operation against the slots as a partial map.
* C50, C53: refuted with witnesses plus the part that holds.
* Not modelled: the copy and move constructors of tree_node_t (templates that cannot
  be used: the class has a deleted copy constructor, and the base is initialised from
  an lvalue). Assignment between nodes: C134.
* C131, C132, files `KaryIter*.v`: the same nodes, known by address in the forest that
  a program owns; beside them the vector of each node as stamps, one for each position
  and the end, and a capacity. What push_back, resize, erase and clear invalidate is
  taken from the C++ standard; the growth of the capacity is arbitrary. An iterator is
  a position with the stamp it had. C131: exact condition for every call, by an
  invariant over programs. C132: loops as fuelled functions, bodies as functions of
  state and earlier turns; induction over the turns. Trusted here: the reading of the
  standard's invalidation rules. Not modelled: const iterators as own types,
  arithmetic on iterators beyond ++ and --.
* C133, files `KaryWalk*.v`: the five traversals on that state, with a callback that
  changes it. As for C128 a callback is described by its effect on the part below and
  including its node, here also by how many iterators of the node survive; `own` runs
  arbitrary calls on the node (and may delete what it extracts) and is shown to be of
  this kind. Each traversal is related to an inductive walk over the changing tree.
  in_order keeps an iterator across calls, so its walk has an undefined end. Refuted:
  termination in general, adding in in_order, delete_child on the own node in
  pos_order. Not modelled: callbacks that start another traversal (the static counter,
  see C115), callbacks that change ancestors or siblings other than by leaving.
* C134, files `KaryHeap*.v`: the same nodes on a heap of cells with explicit addresses
  and pointers, as for C52, with the defaulted copy and move assignment of tree_node_t.
  The specification is a list of trees; `holds` says that the heap is that list. Member
  calls are related to the tree functions of `KaryModel.v`, so C48-C51 apply. Proof by
  separation of the heap into cells (`hold`, closed under permutation). For assignments
  that break the rules the theorems say exactly which nodes are left after all roots
  are destroyed, or that a node is deleted twice; the latter by counting: the nodes a
  successful deletion has deleted are, as a list, its roots and the pointers of the
  deleted nodes. Trusted here: the defaulted assignments copy member by member; a moved
  vector is empty. Not modelled: self move of std::vector (undefined here).

Binary node assignment (`binary_tree.h`), files `Bnode*.v`.
* C52: heap of nodes with explicit addresses, so that aliases can be stated;
  deleted addresses stay in the heap as `None`, reading one is UB, new nodes get
  new addresses. Proved for disjoint trees, by induction on the source tree with
  a frame condition on the heap; each aliasing case is characterised for every
  tree and refuted with a witness.
* C99: the remaining mutators on the same heap; refuted for indices that the
  cast to the enumeration truncates.
* C127, files `BnodeNav*.v`: programs over any number of nodes, whose next call
  may depend on all earlier answers: construction, copy and move construction,
  destruction, the mutators, the assignments and the accessors. The
  specification is a list of trees with addresses; `fair` is the contract of the
  program, stated on the specification alone. A heap `holds` a forest when the
  live cells are exactly its nodes. The proof replaces one subtree at a time
  (`forest_focus`, `change`) and reuses the lemmas of C52 and C99. Refuted: a
  node that was moved from no longer knows the parent that still owns it, which
  is why the contract lets only roots be moved from.
* C128, files `BnodeWalk*.v`: the traversals and searches on the heap of C52, with a
  callback that may change the heap. A callback is described by its effect on the
  part of the tree below and including its node (`does R`); `own` runs arbitrary
  calls of the members of that node and is shown to be of this kind. Each traversal is
  related to an inductive walk over the changing tree; for pruning callbacks the
  walk is bounded by the tree at the start, for value changes it is the full order.
  pos_order also allows a callback that deletes its own node. Refuted: deleting
  the own node elsewhere, deleting a node a search has put aside, adding children
  ahead of the walk (no end for any budget).
* Not modelled: `_height` of the node, what the move of a `T` leaves behind, the
  forwarding constructor that a copy from a non-const node picks (a template; for
  ordinary value types it does not compile), exceptions of `T` and of `new`.

Heap array and segment tree, files `Heap*.v`, `Segment*.v`.
* C54: arithmetic; the boundary case of set_left/set_right is refuted.
* C55–C58, C60: the heap array represents a plain array (relation by recursion on
  ranges, with the pending updates still to be applied); every call keeps it.
  The transform is a parameter: its laws are stated against an elementwise
  meaning `den` of an update and are met by two concrete transforms.
* C59, C60: refuted for a rebuild from nothing and for the const head().
* C152, files `SegmentEmpty*.v`: all histories, rebuilds from nothing included, against
  an array and a flag; two more inductions for the ranges that reach beyond the root,
  which go down the right spine.
* C100: refuted, the criteria is not consulted for nodes without pending update.
* Assumed: vectors below 2^60 elements; the size computation
  `ceil(pow(2, log2(n) + 2))` is a parameter `required` with the hypothesis `enough`:
  room for the cells that n elements take (`takes`). C57 proves that any computation of
  4n with a relative error of at most 2^-31 is enough (a factor of 2^14 more than log2
  and pow need), that it is undefined without room for one of the cells, and that no
  factor below four is enough. The argument: the cells at depth d stay below
  4n - 2 sqrt(4n).
* C153, files `HeapThrow*.v`: heap.h with moves that throw where a script says so and with
  what a move leaves behind (`hollow`). Simplified: resize has the strong guarantee.
* C117: height_of with the floating-point logarithm as a parameter assumed to
  be right below 2^40; wrong for the first position of each level.
* C143-C145, files `SegmentOrder*.v`, `SegmentDoubleProofs.v`: the same model with a join
  that is not associative and no updates (range_operation_t itself overrides join for
  size_t only, so int and double transforms are written by the user; three such are in
  `SegmentOrderSpec.v`). C143: the answer is the value of a bracketing of the elements
  that depends on the size and the range only. C144: `None` stands for what is left
  after a signed overflow. C145: the error bound is by induction on the bracketing, from
  one rounding per addition with relative error 2^-53.
* C149, files `SegmentBracket*.v`: the same model with updates and a join that is not
  associative, for all histories. `brackets` (SegmentBracketSpec.v) gives the brackets by
  halving positions; the laws `bracket_lawful` are those of `lawful` with "join of the
  elements" read with these brackets. Proved lawful: means with range addition,
  differences with range multiplication, "set the range" with any idempotent join
  (minima of doubles with NaN). Refuted: that a law for the elements alone is enough.
* C150, files `SegmentThrow*.v`: the same code with a transform that throws. A script says
  at which points (propagate, join, apply, criteria, build, copy of a value, growth of the heap)
  something throws and what the operation leaves in the nodes it may write (`Clean`: what was
  there, `Dirty`: anything). Proved: no history is undefined, for any script (`C150_histories`); a
  call that returns did what it does in SegmentModel (`C150_returned`); size() and is_built()
  (`C150_state`); for clean scripts queries that throw do no harm (`C150_queries`), updates that
  throw change each element of the range or not (`C150_elements`, which needs the law
  `composes`: what pending updates do to elements does not depend on the value of the node), and a
  rebuild that returns repairs every tree (`C150_repair`). Refuted: queries agree after an update
  that throws (stale inner values), a rebuild that throws leaves the old elements or an unbuilt
  tree, clean exceptions are not needed. Simplified: default construction of values and updates
  and conversion to bool do not throw.
* Not modelled: transforms with
  hidden state or that change start, end or index of a node, the unused interval helpers.

Sequences (`classic/sequences`), files `Cint.v`, `Missing*.v`, `Sub*.v`. Elements
are integers of a signed type with `b` bits, `b` a parameter; overflow is UB.
* C61, C62, C101: soundness of any returned answer proved; positions where the
  search succeeds and positions where it always fails are given for every
  length; completeness refuted (out-of-bounds reads on valid inputs).
* C63–C65: XOR algebra and permutations.
* C66: loop invariant on the prefix sums and the recorded occurrences.
* C67: soundness proved, maximality refuted. C68: exact characterisation,
  correct for a non-positive first element, refuted otherwise.
* C69, C70: memo invariant, for both evaluation orders.
* Assumed in C62: lower * `std::pow`, used for the terms of integer geometric
  sequences, is exact on them; C141 replaces this by exactness of `std::pow` alone.
  The floating-point search is over exact rationals in C101 and over doubles in C140.
* Not modelled: element types narrower than int, the time and memory complexities in the comments.

Tools, files `Tools*.v` (divisors.h, enum_factory.h, random.h,
math_operation.h), `Token*.v` (delimiters.h), `Csv*.v` (read_csv.h).
* C71: strong induction. C72: exact content; 1 and n are missing (refuted).
* C73: induction over the range. C77: arbitrary raw draws, so every behaviour of
  the generator; truncation refuted. C78: induction over the arguments.
* C74: the table lookup and the extraction loop; specification by maximal runs.
* C75: induction over rows; C76: parsing of numerals; refutations.
* Assumed: the ctype functions behave as in the "C" locale; a column descriptor has
  fewer than 2^31 entries. `std::stod` and the value of `static_cast<int>(NaN)`
  are parameters.
* C72 takes the integer part of `std::sqrt` as a parameter with the property
  `square_root`; C135 derives that property from IEEE arithmetic.
* Not modelled: memory.h (make_unique).

Doubles, files `Double*.v`: IEEE 754 binary64 as Coq's SpecFloat (executable
definitions without axioms, 53 bits, rounding to nearest with ties to even, one
NaN). Trusted: that SpecFloat is IEEE arithmetic, that `std::sqrt` is rounded
correctly (IEEE requires it), no wider intermediate results, no fused
multiply-add. `DoubleProofs.v` proves that sums, differences, products and the
conversion of integers answer the double nearest to the exact value, as integers
in units of 2^-1074, that rounding is monotone, and that comparison is that of the
values.
* C135: the double root of a 64-bit number from the integer root of its scaled
  mantissa; divisors_of with it.
* C136: next_random_double with an arbitrary draw c below one, c * (end - start) +
  start as in libstdc++. If end - start was rounded up, the product with c is at
  least one unit below it, hence at most the exact difference.
* C137, files `DoubleSum*.v`: max_sum_of over doubles. Monotonicity of the rounded
  sum (infinities included) gives the invariant of Kadane's loop for left-to-right
  rounded sums; integers within 2^53 are added exactly.
* C140, C141, files `DoubleSearch*.v`: the geometric searches of missing_element.h
  over doubles; std::pow is a parameter. Adding the tolerance is monotone, so a
  rounded term is never told from itself, and the test that should lead to the left
  half cannot fail for numbers; two turns later the iterator is beyond the end. In
  integers only the power is a double.
* C138, C139, files `FenwickSigned*.v`: fenwick_tree.h once more with additions
  that are UB on overflow. Every value the code forms is a sum of neighbouring
  elements, before or after the call, or the difference of a replacement. A generic
  simulation carries defined runs to integers and to doubles.
* C146, C147, files `FenwickError*.v`, `MaxSumErrorProofs.v`: the models of C139 and C137,
  any finite doubles. Invariant of a cell: its distance from the exact sum of its block is
  at most d/2^52 of the magnitude of all that was ever added to the block, d counting the
  values passed to the tree. The magnitudes are kept by a second list of exact numbers
  (`elements magnitude`). Not covered by C146: set_value (its difference is itself a
  rounded query), resize(0), moving away.
* C148, files `FenwickThrow*.v`: the Fenwick tree whose element operations (the operation with
  the assignment of its result, the inverse, copies, `assign` and `fill_n`) throw where a
  script says so. Proved: `C148_returns`, `C148_quiet` (link to C01), `C148_keeps`, `C148_safe`, `C148_query`,
  `C148_first`, `C148_built`, `C148_update`, `C148_rebuild`, `C148_leftovers`. Refuted: the
  strong guarantee of update, a rebuild that throws keeps the old tree or unbuilds it, and a
  build that is repeated after an exception is right (fenwick_tree.h:242-249 clears nothing
  if the tree is not built but its vector is long enough). Not covered: conversions to bool
  and default construction that throw, `bad_alloc` of `reserve`.

Command history, `Command*.v` (command.h): whole programs over one manager;
pointers are numbers, deleting twice is UB. C79: undo and redo refuted; the bound
and the single deletion proved. The missing return of `store` is a parameter:
undefined, or an arbitrary result (`lenient`).

`CommandCopy*.v` (C154): programs with any number of managers that also copy, move and assign
them. command.h declares a destructor and no copy or move, so the implicit copies share the raw
pointers, and moves are copies. `C154_single_owner`, `C154_all_deleted`: without copies each
command is deleted once. `C154_copied`, `C154_assigned`: a shared command makes every execution
that ends both managers undefined. `C154_lost`: an assignment leaks. The members are those of
`CommandModel.v`, with the missing return doing nothing. Not covered: allocations that fail,
destructors of commands that throw or use the manager.

Priority queues of pointers, `PointerOrder*.v` (message_queue.h, pointer_comparison; C155): the
three overloads over a memory of objects, empty and dangling pointers are UB. A container is any
computation that may only compare its elements (`call`, `perform`), so the theorems do not depend
on the heap algorithm of the library. The message queue is that of `MsgQueueModel.v`, with a
memory that does not change. Not covered: orders that throw or have a state, the static in each
overload, reference counts; what a heap does after an object in it changed.

Concurrency, files `Semaphore*.v`, `MsgQueue*.v`, `QueueEnd*.v`, `QueueHook*.v`,
`Thread*.v`, `Timer*.v`, `TimerHook*.v`:
transition systems with any number of client threads that call any members in any
order. A step is one operation on a mutex, condition variable or shared member, a
schedule is a list of steps, theorems are for all schedules. Steps interleave
(sequential consistency); for programs without data races the C++ memory model
gives exactly these executions, and data races are looked for explicitly: two
threads whose next steps access the same non-atomic member, one of them writing.
* A wait on a condition variable may end at any time (notification, time-out or
  spurious wake-up), so notifications have no effect of their own in the model.
  This covers every real behaviour; nothing relies on a notification arriving.
* Semaphore: C80 counts pending acquisitions and releases; C81, C84 replay the log
  of effects on a sequential counter (linearizability); C82 progress by own steps;
  C83 partly refuted by a thread that can never leave; C102 (races) refuted for
  max_count, proved for the rest.
* Message queue: one worker, run() as a sequence of 20 positions, any number of
  callers; the container is a list with a policy that says which element is next
  (the first for std::queue, a greatest one for std::priority_queue, so all ways it
  may break ties are covered). The unlocked look at the queue (message_queue.h:131)
  is modelled as an atomic read; C103 shows that it is a data race, so C85–C89 and
  C104 are about implementations where that read gives a value the queue had.
  wait_for may end at any time. Hooks are events here; what they do is in
  `QueueHook*.v`. Not modelled here: calls during or after the destruction.
  C85, C89 invariant between log and queue; C86, C87 refuted by schedules of a few
  steps, with the exact window proved; C88 an automaton over the hooks.
  C112: the answers of is_running() are recorded as events. C113: `_stopped` is
  never reset, so a thread started again makes one pass over the queue only.
* Destruction of a message queue, files `QueueEnd*.v`, C114: the model above with
  the steps of the destructors. on_new_message after the end of the derived class is
  undefined behaviour (pure virtual). When the destruction begins no other thread is
  in a call and none calls later. Invariants from the begin of the destruction on.
* Hooks of a message queue, files `QueueHook*.v`, C121: around the model above the
  hooks as programs, inductive trees of calls whose continuation gets the whole log,
  so they can use all answers. Their calls are those of a reserved caller that acts
  only while the thread is in a hook; this gives a refinement to the model above and
  with it the older theorems. Termination by a weight on messages; the counterpart
  (resending hooks) by an invariant. A join() in a hook throws (the hook may catch
  it), a start() or an exception that leaves the hook is std::terminate.
* Thread (thread.h): the owner and the thread it runs; a step is a call of the
  owner that returns at once, the end of a waiting call, or the end of run() with
  any code. C90 by an automaton over the log; starting a thread that is still
  joinable ends the program (std::terminate) and a code of -100 means "running"
  (refutations); C105 the race on the exit code.
* Timer (timer.h): the timer's thread with 26 positions, any number of callers, and
  the clock. Time is a number of nanoseconds that only grows (the code uses
  high_resolution_clock, which on some systems can be set back: not modelled).
  C91, C92, C94: invariants by induction over executions; C92 for histories without
  set_interval and notify, with any early wake-ups. C93: two windows of a few
  instructions in which stop() is lost (the callback may then be called any number
  of times while stop(true) waits); outside them at most one more callback and an
  end within a period. C94: refuted, stop() and the thread both call on_stop. C106:
  the races. C107: the destructor of timer_t destroys the function before the base
  class stops the thread. What hooks do is in `TimerHook*.v`. Not modelled: two joins
  at the same time.
  C109: the answers of is_running() and exit_code() are recorded as events and
  compared with what the log says of the thread (`steady`, `code`). C110: the period
  with set_interval() and notify(), bounded by the smallest and the largest period
  asked for, and by the new one if it was asked for while the callback ran. C111: notify() during a wait calls at once; refuted otherwise.
* Hooks of a timer, files `TimerHook*.v`, C122: as for the message queue, with a
  stack of hooks, as stop() calls on_stop: the calls of the n-th hook inside each
  other are those of the reserved caller n, and the stack has any given depth. Not
  modelled: hooks that destroy their timer, and the order between a hook's end and
  the release of the mutex for on_start and on_stop (the destructor of another thread
  may come a little earlier here). Refuted: stop() in on_start (lost), stop(true) in
  a hook (throws), stop() in on_stop (endless recursion, for every depth).
* Lockable (safe.h), files `Lockable*.v`: C108, which constructor is chosen for
  which argument and what it does to value, mutex and source; types that cannot be
  copied or moved are not modelled (such a lockable_t is mostly refused by the
  compiler).
* Timestamp (timestamp.h), files `Stamp*.v`: C116, the clock's answers given from
  outside (one that goes back included), units of whole nanoseconds with an integer
  count, the conversion to double as rounding to 53 bits. Not modelled: duration
  types with a floating-point count or finer than the clock, and the overflow of a
  difference of more than 292 years.

## Axioms

None so far.
