{
 "C07": "REFUTED at size 0: after resize(0) a built tree still counts as built and a query reads outside the array. The _partial theorem covers every size >= 1 (growing changes nothing, shrinking keeps the answers of the surviving prefix).",
 "C10": "REFUTED for the multiplication transform: update by zero, queries behind a zero and set_value on a zero element are wrong. The _partial theorem covers non-zero elements.",
 "C95": "REFUTED: update with a reference to one of the tree's own cells uses a value that changes during the loop. The _partial theorem: a reference to a cell before the updated position is harmless.",
 "C17": "REFUTED for capacity 0: operator[] dereferences a singular iterator (proved for every capacity-0 state). The _partial theorem covers every capacity >= 1.",
 "C18": "REFUTED: the defaulted copy keeps map iterators into the source's list; find, operator[] and remove of any contained key are undefined on the copy (proved for every state). The _partial theorems: const observers of the copy agree; a moved-from cache is a usable empty cache.",
 "C19": "REFUTED: proved that remove() with a reference to any own element is a use after free, in every reachable state.",
 "C27": "REFUTED: insert of an existing element inflates the counters, forgets a root's class size, or tears a member out of its class. The _partial theorem: insert of an id outside the structure changes nothing.",
 "C29": "REFUTED: the id-level members test the id as if it were an element; find(id) can read outside the arrays and handed-out ids are reported missing. The _partial theorem says exactly when find(id) is undefined and that the id API agrees with the element API when the elements are the ids.",
 "C30": "REFUTED: acorn() does not shrink on join; the _partial theorem says it is the number of elements after every history.",
 "C36": "REFUTED: with equal grandchild heights removal does a double rotation; after 8 insertions and 2 removals the tree is unbalanced. Worse, proved for every k: 47k+4 insertions and removals of distinct values leave k+4 elements at height k+3, a list. The _partial theorem: one removal after insertions leaves at most one node off, by two, and the height does not grow.",
 "C37": "REFUTED: equal values are sent right but the rotation choice uses a strict comparison; ten equal values give an unbalanced tree.",
 "C38": "REFUTED on the empty tree (null root dereferenced). The _partial theorem covers every non-empty tree.",
 "C39": "REFUTED for a reference into the tree: proved that every such call ends in a dangling read. The _partial theorem covers every value stored outside the tree.",
 "C40": "parent() is REFUTED: wrong after a rotation (the moved middle subtree keeps its old parent) and dangling after a removal. The _partial theorems: has_parent() is right in every reachable tree; parent() is right everywhere directly after a copy.",
 "C41": "REFUTED: a copy reports height 1, does not stay balanced, assigning an empty tree keeps the old contents with size 0, self-assignment loses the contents. The _partial theorem: contents, shape, size, flag of a copy of any non-empty tree onto any target, and correct answers of every later history.",
 "C42": "REFUTED: a moved-from tree keeps size(). The _partial theorem: the target has everything, the source is empty except for size() and is correct again after clear().",
 "C43": "Calls and counts of the three binary traversals; also links the AVL model's in-order walk to this traversal.",
 "C44": "For every tree, arity and stateful callback; also over binary nodes and for the empty tree.",
 "C45": "For every tree, arity and stateful callback; also over binary nodes and for the empty tree.",
 "C46": "REFUTED: in_order only skips the right subtree, pre_order only prunes the subtree, pos_order ignores the answer. The _partial theorems: calls are an ordered part of the full walk and are counted right; for callbacks on the node alone, exactly which nodes are called.",
 "C47": "in_order assumes that slot counts are below 2^64 (they are size_t).",
 "C97": "REFUTED for pre_order, pos_order, and in_order on nodes without slots. The _partial theorem: calls are an ordered part of the full walk and in_order stops for good after a true on a node with slots.",
 "C48": "All programs over any number of owned nodes; replace_at with an out-of-range position is excluded (undefined, see C50).",
 "C49": "All programs over any number of owned nodes; replace_at with an out-of-range position is excluded (undefined, see C50).",
 "C50": "Proved for insert_at. REFUTED for replace_at: it always writes out of bounds for such positions.",
 "C51": "All slot operations and queries, with what must not change.",
 "C53": "REFUTED: a copy of a tree whose root has a child is released twice; copy assignment over a tree leaks it. The _partial theorems: exactly when copying is right, and moves into an empty tree.",
 "C98": "All programs over any number of owned nodes; replace_at with an out-of-range position is excluded (undefined, see C50).",
 "C52": "Copy and move assignment and construction are right when source and target are in disjoint trees. Aliasing is not safe: n = n drops the children, assigning or moving from a descendant reads deleted memory, n.left() = n never ends, moving from itself drops children and parent; each is proved for every such tree and witnessed by the refutation.",
 "C99": "Everything holds except delete_child(index) for indices from 2^32 on, where the cast to the enumeration truncates: index 2^32 deletes the left child.",
 "C54": "Parent/child arithmetic for every position whose children fit in 64 bits (the first one beyond is refuted), one path from the root to every position, the swaps exchange exactly two elements; set_left/set_right proved where the position has an element; setting a child of a position without one is refuted (grows the array by the wrong amount or throws). height_of: C117.",
 "C55": "For every transform with associative join and no updates; the size computation of the code (floating point) is a parameter that must satisfy enough. Corollaries for the four ready-made trees over size_t.",
 "C56": "For every transform obeying the laws written in SegmentSpec.v and every history of builds, updates and queries; two concrete transforms are shown to obey them.",
 "C57": "Every access of every history is in bounds (it would be UB); the allocation is what the size computation says. Any computation of 4n with a relative error up to 2^-31 is enough for all sizes below 2^60; exact set of cells taken, undefined without room for one of them; no factor below four is enough.",
 "C58": "For every tree, transform and argument (clamping: for every non-empty size below 2^64).",
 "C59": "Proved for rebuilds from a non-empty vector; false for the empty one: the old contents keep answering (what exactly happens then: C152).",
 "C60": "query, query_update and the non-const head throw in every never-built state; the const head reads out of bounds (refuted).",
 "C100": "False: a node without pending update takes the change whatever the criteria says. The partial theorem covers transforms whose apply is right for such nodes.",
 "C61": "Any returned answer is the missing term. It is found at the first two positions, at the positions the halving passes and in all sequences of up to 4 elements; from 5 elements on, a gap in about the last quarter always reads beyond the end (refuted).",
 "C62": "As C61, with std::pow assumed exact on the terms.",
 "C101": "Over exact rationals. Any returned answer is right; a gap in the middle or directly after the first term is found; a gap in the left half behind that never is (refuted).",
 "C63": "Proved for ranges that do not end at the largest int; for those the loop overflows (refuted).",
 "C64": "Proved for a non-empty first list; the empty one is read out of bounds (refuted).",
 "C66": "For sequences whose sum of absolute values fits the type; every answer given is right in any case.",
 "C67": "The answer is the length of some part with the sum, 0 only if there is none, and at least the longest prefix. Not the longest in general (refuted, also for positive elements).",
 "C68": "The first element is added twice: the answer is the greatest sum of the sequence with a positive first element doubled. Right for a non-positive first element, otherwise refuted.",
 "C69": "For sums that fit the type, in both evaluation orders.",
 "C70": "For a cache that is new at the first call and used with one sequence only; another sequence gets wrong answers, shown as a theorem.",
 "C71": "All 64-bit pairs, with the loop bound; gcd(0,0)=0.",
 "C72": "REFUTED as stated: 1 and n are never returned. The _partial theorem says exactly what is: the divisors other than 1 and n, once each, ascending when sorted. Takes the integer part of std::sqrt as a parameter with the property square_root, which C135 derives from IEEE arithmetic.",
 "C73": "Every signed underlying type up to 64 bits, every naming; unknown names give the maximum, the first match wins.",
 "C74": "Maximal runs for every total filter and every input. REFUTED for the shipped filters by the C standard alone where char is signed (negative values passed to isalpha etc.); the _partial theorem covers unsigned char or a library that accepts them (glibc). \"C\" locale.",
 "C75": "Round trip for all tables whose fields contain neither separator nor newline and whose rows do not end in an empty field; REFUTED for an empty last field, which is lost. Offset, missing file, too many fields, failing conversions for every file.",
 "C76": "Text right for every type, numbers right for INT, get_double for DOUBLE. REFUTED: a STR field has uninitialised numbers, a DOUBLE field casts NaN to int. stod is a parameter; stoi is modelled.",
 "C77": "For arbitrary generator output. REFUTED where the range exceeds the generator's or the requested type; the _partial theorem covers all ranges that fit. An empty range is undefined. next_random_double: C136.",
 "C78": "Sum and product equal the fold when the partial results from the right fit, and are never wrong when defined; unsigned sums wrap. REFUTED: a total that fits can overflow on the way; integer division is not undone by multiplication; null values of class types.",
 "C79": "REFUTED: undo after any store takes from the empty deque (proved for every program), redo only ever answers null, a command stored twice is deleted twice, and store has no return statement, so strictly every call of it is undefined. The _partial theorems: where the missing return is harmless, at most 1024 commands are kept, the oldest go first, each distinct command is deleted exactly once.",
 "C80": "Any number of threads, every interleaving; also bounds what they hold together.",
 "C81": "Linearizability against a plain counter, with what each answer then means.",
 "C82": "The waiting thread needs no notification, the mutex is always given back, no deadlock. Fairness among several waiting threads is not claimed by the code and not proved.",
 "C83": "A call of lock that finds no resources throws, and only such a call. REFUTED for a thread that already waits when the number becomes 0: it stays in lock for ever.",
 "C84": "Admission only below the current number; setting the number changes nothing else.",
 "C102": "REFUTED: max_count() reads without the mutex while set_available_resources writes. The _partial theorem: that is the only race.",
 "C85": "Any number of producers, every interleaving, FIFO container; conservation for any container policy; size() is received less gone.",
 "C86": "REFUTED: a message received after the worker's last look at the queue and before it reads the stop flag stays in the queue though its receive_message returned before stop() was called. The _partial theorems: that window is the only one, all else received is processed.",
 "C87": "REFUTED: a message received after discard_messages() returned can be dropped with the earlier ones. Proved: dropped only on request, at most one clearing per call, at most one more message processed before it, nothing left after it.",
 "C88": "Per life of the worker (start to end); also across restarts. The run-twice exception and an empty pop never happen.",
 "C89": "For every policy that selects a greatest element, as std::priority_queue does.",
 "C103": "REFUTED: the worker reads _queue.empty() without the mutex, and is_running() reads _running and _exit_code unsynchronised. The _partial theorem: there is no other race.",
 "C104": "By its own steps only, from every reachable state in which no caller holds the mutex; callers release it within two steps.",
 "C90": "For any calls of one owner and any result of run(). Refuted: start() on a thread not yet joined ends the program; run() returning -100 looks like running for ever.",
 "C91": "Until the next start; the exit code is what the callback returned last, 0 without a callback.",
 "C92": "Counted from the return of the callback before, on_start or the start; histories without set_interval and notify. Nanosecond clock that only grows.",
 "C93": "Refuted: stop() is lost in two windows. Proved: outside them at most one further callback, and the thread ends by itself within a period if its callback returns; stop(true) returns only after the thread ended.",
 "C94": "Refuted: stop() and the thread both call on_stop. Proved: the thread itself calls on_start and on_stop once per cycle.",
 "C105": "Refuted for exit_code() and is_running() while run() ends; proved that only calls while the thread runs can race.",
 "C106": "Refuted for set_interval() and is_running(); proved that there are no other races.",
 "C107": "Refuted; proved that it is the only way: destroyed while its thread runs or started afterwards.",
 "C108": "Refuted: built from an rvalue of the wrapped type it copies, the source keeps its content. The rest proved.",
 "C109": "False proved; true proved except when the callback returns -100, the code that marks a running thread (refuted with a witness); false right after start() or stop(false) although a call of the function follows (refuted reading).",
 "C110": "Proved for every history of set_interval and notify.",
 "C111": "Proved while the thread sleeps (it is then able to call at once); refuted when notify() comes just before the wait or during the callback: _forced_awaken is not looked at before waiting and is cleared after the callback.",
 "C112": "The first part proved exactly; the second refuted: true although the worker will not look at the queue any more.",
 "C113": "Refuted: _stopped is never reset. Proved what happens instead: exactly one pass per later start, and nothing is taken after it.",
 "C114": "Safe with safe_delete(), and it returns; a message that arrives in the window of C86 is lost (refuted), all others are processed. Without safe_delete() refuted: pure virtual call; only if the thread runs and a message is pending.",
 "C115": "Refuted: a nested or parallel traversal that is stopped cuts off another one, one that begins revives a stopped one, and there is always a data race. Proved: ends in any case; without a true answer, and accesses taken one at a time, every traversal is as if alone.",
 "C116": "Proved for a clock that is not behind the last reset: difference is the number of whole units, elapsed that number rounded to a double, later answers not smaller, laps add up within a unit per lap. Refuted: negative answers if the clock is set back (high_resolution_clock may be), laps are not exact, elapsed differs from difference above 2^53 units.",
 "C117": "Proved for every node whose path from the root turns right at least once; refuted otherwise: the leftmost node of every level gets the height of the level above, and height_of(0) converts minus infinity to size_t. The logarithm is a parameter assumed right below 2^40.",
 "C118": "Calls that return do what the model without exceptions says; an exception at the first point changes nothing; at most one key is affected by any exception; after a throwing hook clip() finishes the job (the key is reported twice); clear() always repairs. Refuted: find/operator[] that throw while moving a key leave a dangling iterator (every later use of the key is undefined), add that throws at the map leaves an unremovable key, a throwing hook leaves one key too many. Hash and equality are assumed not to throw.",
 "C119": "Proved for capacities below 2^58 for any double arithmetic with the range given in computed; a reserve that throws changes nothing visible (and is skipped when the call is repeated). Refuted from 2^59 on, for instance for numeric_limits<size_t>::max(): undefined conversion.",
 "C120": "Hooks that only look change nothing; hooks that also find and remove keep everything but operator[] (refuted: the new key may be removed). Refuted for every full cache: a hook that adds the key back or calls clip never returns, one that clears is undefined, one that adds another key loses a third key that is still claimed to be there.",
 "C121": "Proved: looks as if another thread made the calls (so C85-C89 hold), no self-deadlock, messages of on_start and on_new_message are processed, stop() in them loses nothing, discard_messages() takes effect at once, stop() ends the thread if messages dwindle. Refuted: what on_stop sends is not processed; hooks that resend never end; an exception ends the program.",
 "C122": "Proved: executions with hooks are executions of the timer with further threads (so C91-C94 and the others hold), a stop() in the callback is never lost (unlike C93), no callback follows and the thread ends by itself without waiting; hooks that do not throw and whose on_stop does not call stop() return. Refuted: stop() in on_start is lost; stop(true) in the callback joins itself and throws; stop() in on_stop recurses until the stack is full, whatever its depth.",
 "C123": "Proved: for every history with exceptions at any points, no undefined behaviour, contents sorted, size() right, every answer right, and exactly what a throwing call may have done to the contents (insert: nothing or the value went in; remove: nothing or one occurrence was overwritten by a second copy of a greater value, the next one if there are no duplicates); a returning call is the call of C31-C42; insert has no effect when it throws if comparing cannot throw. Refuted: that a throwing insert or remove changes nothing, and that balance and height() survive (a list of any length with height() = 3).",
 "C124": "Proved: a returning copy assignment is that of C41; a throwing one leaves the target untouched or with a partial copy whose root holds a default value, under the target's old size and flag. Refuted: that the target stays valid.",
 "C125": "Exactly which calls invalidate an iterator, for every reachable cache and call; refuted: it lives as long as its key is in the cache, as find() and operator[] move a key that is not in front to a new node.",
 "C126": "Loops with const bodies and with additions that fit visit every key once; refuted: forward loops that look keys up (undefined for two keys or more), that remove, or that add to a full cache; a reverse loop that looks keys up never meets the second last key, for every cache with two keys or more.",
 "C127": "Every program that respects the contract runs without undefined behaviour against a forest specification; navigation is consistent in every heap it can reach. Refuted without the contract: after moving from a child, the child is still owned by its parent but says it has none.",
 "C128": "Holds for every callback that changes only its own node and what is below it. Refuted beyond that: a callback that deletes its own node makes every traversal but pos_order undefined, one that deletes a node waiting in a search makes the search undefined, and one that keeps adding children ahead of the walk never ends.",
 "C129": "Proved for all histories: references survive every call that deletes nothing; a removal ends exactly one reference (without duplicates: of the removed or the next larger value, the others keep their values; with duplicates: none of a smaller value); references handed out are usable. Refuted: a reference is valid while its value is in the tree (the successor's node is deleted), and a valid reference keeps its value.",
 "C130": "Proved: asking callbacks leave every traversal exact; callbacks that delete nothing never make the traversal use a deleted node, and it returns the number of calls. Refuted: inserting callbacks see all values, see none twice (each of the five traversals), or end (in_order, for every number of steps); removing the own value (undefined in four traversals, also when a search is told to stop; pos_order leaves values or uses a deleted node).",
 "C131": "Proved for all programs, widths and growth policies: positions, which calls are defined, exactly which iterators each call ends, that an ended iterator never revives, and which calls keep all. Refuted: an iterator stays valid while its child is in the tree (add_child may move the vector).",
 "C132": "Proved for all states and bodies: undisturbed loops see every slot once in order; calls on the child at hand, extracting all and deleting the next child are fine; exact outcome of adding in a loop; deleting the child at hand is undefined for every node with a slot. Refuted: deleting or adding children in loops is safe.",
 "C133": "All five traversals with state-changing callbacks, in terms of walks over the changing tree; exact orders for value changes, termination for callbacks that add no nodes, pos_order always ends. Refuted: termination in general, adding during in_order, delete_child of the own node during pos_order.",
 "C134": "Programs over k-ary nodes with assignments on a heap, run exactly as the trees say and leak nothing; exact effect of every assignment that breaks the rules: lost nodes or double deletion. Refuted: assigning a value frees the children, copies can be destroyed, a child can be moved to its parent, moved children know their new parent.",
 "C135": "std::sqrt over IEEE doubles (SpecFloat): defined, exact below 2^52, never below the integer root, square below n + 3072; divisors_of with it is right for every 64-bit n. Refuted: the root is always exact; its square stays within 2048 of n.",
 "C136": "Over IEEE doubles, for every draw c in [0,1): the answer is between start and end, both included, monotone in c, defined under the precondition of the distribution. Refuted: end is never answered.",
 "C137": "Over IEEE doubles: the greatest left-to-right rounded sum, with the first element doubled if positive (as C68 for integers); right for first elements that are not positive; exact for integers within 2^53; a NaN makes the search start anew. Refuted: positive first element, nearest to the exact sum, NaN.",
 "C138": "Fenwick tree over a signed type, overflow is UB: defined histories answer as the list of integers; defined if all sums of neighbours fit (and differences of replacements), for non-negative elements if the total fits. Refuted: elements and asked sum fitting suffices; replacement is always possible.",
 "C139": "Fenwick tree over IEEE doubles: exact for integers with sums of neighbours within 2^53 (by simulation of the 54 bit tree of C138). Error bounds for other doubles are C146; three refutations show what fails.",
 "C140": "Over IEEE doubles with std::pow a parameter: answers are right to the last bit; exactly which gaps are found with ten elements or more, UB for all others; integers below 2^52 exact. Refuted: always found; found in the middle (terms within the tolerance); no false answers for complete sequences of nearest doubles.",
 "C141": "Answers are right whatever the power gives; with an exact std::pow the product in double is exact for types of up to 54 bits. Refuted for 64 bits beyond 2^53.",
 "C142": "Failed insertions are invisible to calls about other elements; the failed element counts as present, is undefined to ask for and becomes an alias of the next one. Refuted: the strong guarantee, and that elements never joined are in different sets.",
 "C143": "Any join, no updates: the brackets of an answer are a function of size and range (with updates: C149). Refuted: joined from left to right.",
 "C144": "Exact if all sums of neighbours fit. Refuted: prefix sums suffice.",
 "C145": "Error bound log2(n) * 2^-52 for sums of doubles, exact for integers up to 2^53, minima of numbers. Refuted: additivity, minima with NaN.",
 "C146": "Error bound over all histories of builds, updates, queries and shrinking of a Fenwick tree of doubles (set_value excluded). Refuted: bound by the range itself, undoing.",
 "C147": "Distance of max_sum_of over doubles from the greatest exact sum, with the doubled first element of C68.",
 "C148": "Returning calls are exact, nothing is undefined, throwing updates have a boundary. Refuted: strong guarantee of update and rebuild; a repeated first build is right (it adds to the leftovers).",
 "C149": "Any join, all histories with updates. Refuted: a law for the elements alone is enough.",
 "C150": "Throwing transforms as scripts of mishaps over the model of segment_tree.h; safety for all scripts, element-wise guarantees and harmless queries for operations that leave the nodes unchanged when they throw, repair by rebuild; three refuted statements name the damage (stale inner values, half-done rebuild, half-done propagate). Default construction and conversion to bool are taken not to throw.",
 "C151": "All eight traversals with a callback that may throw: the calls are those of the callback that answers instead, cut after the first that throws; with a callback that never answers true, the prefix of the order up to that node. Refuted: answering true stops a traversal as an exception does. Not covered: callbacks that change the tree, memory exhaustion of the queue, stack and call stack.",
 "C152": "Full characterisation of all histories, rebuilds from nothing included, for lawful transforms. Refuted: an emptied tree clamps positions beyond the end.",
 "C153": "All calls with exceptions at any element operation. Refuted: swaps that throw keep the elements (strong guarantee), stores that throw keep the size. Simplified: resize has the strong guarantee; stores for positions below 2^61.",
 "C154": "Proved for every program over any number of managers (New, calls, copies or moves, assignments, ends), where the missing return of store does nothing. Without copies and undo: defined, each command deleted once. A copied or assigned command makes every execution that ends both managers undefined; assignments leak what the target held. Refuted: independent copies, assignments that delete, moves that give away.",
 "C155": "Proved for every order, memory and any computation that only compares elements: pointers are ordered and handled as their objects, undefined exactly if an empty or dangling pointer is compared; greatest object first in every interleaving of the message queue with unchanging objects. Refuted: a waiting message keeps its place when its object changes; empty pointers have a place."
}