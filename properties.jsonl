{"id": "C01", "title": "Fenwick tree: query is the fold of the range", "statement": "After building from a vector and applying any sequence of update, set_value, rebuild, resize (to at least one cell) and query calls, query(s,e) returns the combination of the current elements at the 1-based positions between s and e (clamped to the last position; position 0 contributes nothing).", "quantifier": "every element type with a commutative, associative, cancellable operation; every input vector; every finite sequence of calls; every pair of positions", "why_tests_cant": "arrays, positions and call histories are unbounded; the implicit binary-indexed layout depends on the low bits of every position", "anchors": ["AdvancedLibraryCpp/structures/fenwick_tree.h query, update, set_value, rebuild, resize, _build, _update, _range_query, lsb"]}
{"id": "C02", "title": "Fenwick tree: update touches exactly one element", "statement": "update(p,v) returns true exactly when p is below size(); for 1<=p<size() every later query whose range contains p is combined with v once and every query that does not contain p is unchanged.", "quantifier": "every built tree, position and value", "why_tests_cant": "a missed or doubled cell is visible only to particular ranges of particular sizes", "anchors": ["AdvancedLibraryCpp/structures/fenwick_tree.h update, _update, next_update"]}
{"id": "C03", "title": "Fenwick tree: set_value overwrites exactly one element", "statement": "If set_value(p,v) returns true then query(p,p)=v afterwards and query(q,q) is unchanged for all q<>p; if p is 0 or not below size() it returns false and no query changes.", "quantifier": "every built tree, position and value", "why_tests_cant": "needs all values, all positions, all previous contents", "anchors": ["AdvancedLibraryCpp/structures/fenwick_tree.h set_value"]}
{"id": "C04", "title": "Fenwick tree: query is symmetric and clamps", "statement": "query(s,e)=query(e,s), and positions at or beyond size() behave as the last valid position.", "quantifier": "every built non-empty tree, every s,e including the largest size_t", "why_tests_cant": "two 64-bit arguments", "anchors": ["AdvancedLibraryCpp/structures/fenwick_tree.h query"]}
{"id": "C05", "title": "Fenwick tree: unbuilt trees always throw", "statement": "On a tree that was default constructed or moved from, query, update and set_value throw and change nothing.", "quantifier": "every history that ends in an unbuilt tree, every argument", "why_tests_cant": "all histories", "anchors": ["AdvancedLibraryCpp/structures/fenwick_tree.h query, update, set_value, operator=, is_built"]}
{"id": "C06", "title": "Fenwick tree: rebuild forgets the past", "statement": "After rebuild(input,n) every observable answer equals that of a tree freshly constructed from the first n elements of input, whatever was stored before.", "quantifier": "every previous history, input and n", "why_tests_cant": "stale cells show only for particular size sequences", "anchors": ["AdvancedLibraryCpp/structures/fenwick_tree.h rebuild, _build"]}
{"id": "C07", "title": "Fenwick tree: resize keeps the surviving prefix", "statement": "resize(m) with m<=size() keeps all answers for positions below m; resize to a larger size changes nothing; and the tree stays safe to use afterwards.", "quantifier": "every built tree and every m", "why_tests_cant": "every size", "anchors": ["AdvancedLibraryCpp/structures/fenwick_tree.h resize, query"]}
{"id": "C08", "title": "Fenwick tree: no out-of-bounds access, guaranteed termination", "statement": "update and query terminate in at most 64 hops and only touch cells below size(), for every argument, provided size() is at least 1.", "quantifier": "every size up to the address space and every 64-bit position", "why_tests_cant": "index arithmetic wraps at 2^64; boundaries cannot be enumerated", "anchors": ["AdvancedLibraryCpp/structures/fenwick_tree.h _update, _range_query, lsb, next_query, next_update"]}
{"id": "C09", "title": "Fenwick tree: at(p) is the block sum", "statement": "at(p) returns the combination of the elements in the block of length lowbit(p) that ends at p, and throws out_of_range when p is not below size().", "quantifier": "every history and position", "why_tests_cant": "all sizes/positions", "anchors": ["AdvancedLibraryCpp/structures/fenwick_tree.h at, operator[]"]}
{"id": "C10", "title": "Fenwick tree: multiplicative trees", "statement": "With multiplication/division over integers the range query is the exact product while all stored elements are non-zero; updates by zero are honoured.", "quantifier": "every integer vector, history and range", "why_tests_cant": "zero is one value among 2^32 and interacts with truthiness tests", "anchors": ["AdvancedLibraryCpp/structures/fenwick_tree.h update, _range_query", "AdvancedLibraryCpp/tools/math_operation.h multiplication_t, division_t"]}
{"id": "C11", "title": "LRU cache: capacity is never exceeded", "statement": "After every public call size() is at most capacity().", "quantifier": "every sequence of add, find, operator[], remove, set_capacity, clip, clear", "why_tests_cant": "unbounded histories", "anchors": ["AdvancedLibraryCpp/structures/cache.h add, clip, set_capacity"]}
{"id": "C12", "title": "LRU cache: no duplicates and lookup agrees with contents", "statement": "values() never holds a key twice and contains(k) holds exactly when k is in values(); size() is the length of values().", "quantifier": "every history and key", "why_tests_cant": "unbounded histories", "anchors": ["AdvancedLibraryCpp/structures/cache.h contains, values, size, add, remove, move_to_front"]}
{"id": "C13", "title": "LRU cache: behaves as a recency list", "statement": "Every call sequence produces the same results as an ordered list in which a successful find or operator[] moves the key to the front, add puts new keys in front, and overflow drops keys from the back.", "quantifier": "every call sequence, every key type with decidable equality", "why_tests_cant": "unbounded histories; the list/map pair must stay coherent", "anchors": ["AdvancedLibraryCpp/structures/cache.h all public methods"]}
{"id": "C14", "title": "LRU cache: contents are the most recently used distinct keys", "statement": "When a cache of fixed capacity c is used through operator[] only, values() is the list of the c most recently used distinct keys, most recent first.", "quantifier": "every access string, every capacity >=1", "why_tests_cant": "unbounded histories", "anchors": ["AdvancedLibraryCpp/structures/cache.h operator[], values, most_recent, least_recent"]}
{"id": "C15", "title": "LRU cache: the discard hook fires exactly once per evicted key", "statement": "on_discard is called exactly for the keys dropped by overflow, least recently used first, never for remove() or clear(); every key added is either still present or was removed, cleared or discarded exactly once.", "quantifier": "every call sequence", "why_tests_cant": "counts over unbounded histories", "anchors": ["AdvancedLibraryCpp/structures/cache.h clip, on_discard, remove, clear"]}
{"id": "C16", "title": "LRU cache: last_operation and clipped report the truth", "statement": "After add, last_operation() tells whether the key was new; after remove, whether it was present; clipped() is the number of keys dropped by the last clip.", "quantifier": "every state and key", "why_tests_cant": "all states", "anchors": ["AdvancedLibraryCpp/structures/cache.h last_operation, clipped, add, remove, clip"]}
{"id": "C17", "title": "LRU cache: operator[] returns the requested key", "statement": "cache[k] refers to an element equal to k, which is then most_recent(), for every capacity.", "quantifier": "every state, key and capacity", "why_tests_cant": "the failure needs one particular capacity", "anchors": ["AdvancedLibraryCpp/structures/cache.h operator[], find"]}
{"id": "C18", "title": "LRU cache: copies are independent and usable", "statement": "A copied cache answers every later call as the original would, and neither affects the other.", "quantifier": "every state and every later call sequence", "why_tests_cant": "iterator validity is not visible to a passing test", "anchors": ["AdvancedLibraryCpp/structures/cache.h cache_t(const cache_t&)"]}
{"id": "C19", "title": "LRU cache: remove accepts any key reference", "statement": "remove(k) works when k is a reference obtained from the cache itself (e.g. least_recent()).", "quantifier": "every state and every reference returned by the cache", "why_tests_cant": "a dangling read often happens to work", "anchors": ["AdvancedLibraryCpp/structures/cache.h remove, most_recent, least_recent"]}
{"id": "C20", "title": "Disjoint sets: same() is the generated equivalence", "statement": "same(a,b) holds exactly when a and b are related by the reflexive-symmetric-transitive closure of the joined pairs.", "quantifier": "every size and every sequence of join/same/find/size_of calls", "why_tests_cant": "unbounded call sequences; compression rewrites the structure on reads", "anchors": ["AdvancedLibraryCpp/structures/union_set.h join, same, find, _find, _join"]}
{"id": "C21", "title": "Disjoint sets: disjoint() counts the classes", "statement": "disjoint() equals the number of equivalence classes.", "quantifier": "every history", "why_tests_cant": "unbounded histories", "anchors": ["AdvancedLibraryCpp/structures/union_set.h disjoint, join, resize"]}
{"id": "C22", "title": "Disjoint sets: size_of() is the class size", "statement": "size_of(x) equals the number of elements equivalent to x, although path compression rewrites ranks.", "quantifier": "every history and element", "why_tests_cant": "rank bookkeeping under compression is history dependent", "anchors": ["AdvancedLibraryCpp/structures/union_set.h size_of, _find, _join"]}
{"id": "C23", "title": "Disjoint sets: join reports whether it merged", "statement": "join(a,b) returns true exactly when a and b are valid and were in different sets.", "quantifier": "every history and arguments", "why_tests_cant": "unbounded histories", "anchors": ["AdvancedLibraryCpp/structures/union_set.h join"]}
{"id": "C24", "title": "Disjoint sets: find is canonical, total and does not change the partition", "statement": "find(x) is in the class of x, equal for equivalent elements, the not_found value exactly for out-of-range arguments; calling it changes no later answer; it always terminates; the unspecified evaluation order of nested finds is irrelevant.", "quantifier": "every history, every argument, both evaluation orders", "why_tests_cant": "compression side effects and evaluation order", "anchors": ["AdvancedLibraryCpp/structures/union_set.h find, _find, same, join"]}
{"id": "C25", "title": "Disjoint sets: logarithmic depth", "statement": "No lookup follows more than log2(class size) links.", "quantifier": "every history", "why_tests_cant": "asymptotic bound", "anchors": ["AdvancedLibraryCpp/structures/union_set.h _join, _find"]}
{"id": "C26", "title": "Disjoint sets: resize adds singletons and keeps the partition", "statement": "resize(n) keeps all relations between old elements and adds n-size new singleton classes; smaller n changes nothing.", "quantifier": "every history and n", "why_tests_cant": "unbounded", "anchors": ["AdvancedLibraryCpp/structures/union_set.h resize"]}
{"id": "C27", "title": "Disjoint sets: insert keeps the counters right", "statement": "Calling insert with an already present element changes nothing observable.", "quantifier": "every history and element", "why_tests_cant": "needs arbitrary histories", "anchors": ["AdvancedLibraryCpp/structures/union_set.h insert"]}
{"id": "C28", "title": "Union-find over elements: element-level API is the generated equivalence", "statement": "insert/emplace, join_sets, same_set, find_by_elem, size_of(element), exists and disjoint over arbitrary element values implement the equivalence generated by the joined pairs of inserted elements.", "quantifier": "every element type with equality, every history", "why_tests_cant": "unbounded histories", "anchors": ["AdvancedLibraryCpp/structures/union_find.h insert, emplace, join_sets, same_set, find_by_elem, size_of, exists, disjoint"]}
{"id": "C29", "title": "Union-find over elements: id-level API is safe", "statement": "find(id), same(id,id), join(id,id) and exists_set accept every 64-bit id and report not_found/false for ids never handed out.", "quantifier": "every history, every id", "why_tests_cant": "failure depends on the relation between element values and ids", "anchors": ["AdvancedLibraryCpp/structures/union_find.h find, same, join, exists"]}
{"id": "C30", "title": "Disjoint sets: acorn() counts the root sets", "statement": "acorn() equals the number of sets without parent.", "quantifier": "every history", "why_tests_cant": "unbounded histories", "anchors": ["AdvancedLibraryCpp/structures/union_set.h acorn", "AdvancedLibraryCpp/structures/union_find.h acorn"]}
{"id": "C31", "title": "AVL tree: set semantics", "statement": "Without duplicates, any sequence of insert, remove, contains, size and clear behaves like a mathematical set: insert returns true iff absent, remove returns true iff present, contains is membership, size is cardinality.", "quantifier": "every totally ordered type and every call sequence", "why_tests_cant": "unbounded histories; rotations differ per shape", "anchors": ["AdvancedLibraryCpp/structures/binary_tree.h avl_tree_t insert, remove, contains, size, clear"]}
{"id": "C32", "title": "AVL tree: multiset semantics", "statement": "With duplicates enabled the tree behaves like a multiset, also when duplicates are switched on and off between calls.", "quantifier": "every call sequence", "why_tests_cant": "unbounded; equal keys move to either side under rotation", "anchors": ["AdvancedLibraryCpp/structures/binary_tree.h avl_tree_t insert, remove, contains, size, enable_duplicates"]}
{"id": "C33", "title": "AVL tree: in-order traversal is sorted and complete", "statement": "in_order visits the stored values in non-decreasing order, each exactly once, and returns size().", "quantifier": "every call sequence", "why_tests_cant": "unbounded histories", "anchors": ["AdvancedLibraryCpp/structures/binary_tree.h in_order, insert, remove"]}
{"id": "C34", "title": "AVL tree: insertion keeps the tree balanced", "statement": "After any sequence of insertions without duplicates every node has children whose heights differ by at most one, hence height() is at most about 1.44 log2(n+2).", "quantifier": "every insertion sequence", "why_tests_cant": "asymptotic; all shapes", "anchors": ["AdvancedLibraryCpp/structures/binary_tree.h insert, rotate_if_needed, rotate_left, rotate_right, double_rotate_left, double_rotate_right"]}
{"id": "C35", "title": "AVL tree: height() is the true height", "statement": "height() equals the longest root-to-leaf path after every sequence of insertions, removals and clears.", "quantifier": "every call sequence", "why_tests_cant": "stored heights must be repaired on all paths", "anchors": ["AdvancedLibraryCpp/structures/binary_tree.h height, rotate_if_needed, rotate_on_remove_if_needed"]}
{"id": "C36", "title": "AVL tree: removal keeps the tree balanced", "statement": "After any mix of insertions and removals every node has children whose heights differ by at most one.", "quantifier": "every call sequence", "why_tests_cant": "the failing shapes are rare", "anchors": ["AdvancedLibraryCpp/structures/binary_tree.h remove, rotate_on_remove_if_needed"]}
{"id": "C37", "title": "AVL tree: duplicates keep the tree balanced", "statement": "With duplicates enabled, after any sequence of insertions every node has children whose heights differ by at most one.", "quantifier": "every insertion sequence", "why_tests_cant": "the failing shapes are rare", "anchors": ["AdvancedLibraryCpp/structures/binary_tree.h insert, rotate_if_needed"]}
{"id": "C38", "title": "AVL tree: left_most/right_most are the extremes", "statement": "On a non-empty tree left_most() is the minimum and right_most() the maximum; on an empty tree the call is reported as an error.", "quantifier": "every call sequence", "why_tests_cant": "unbounded histories", "anchors": ["AdvancedLibraryCpp/structures/binary_tree.h left_most, right_most"]}
{"id": "C39", "title": "AVL tree: remove_all removes every occurrence", "statement": "remove_all(v) returns the multiplicity of v, afterwards v is absent and every other value keeps its multiplicity; also when v is a reference into the tree.", "quantifier": "every history, value and every reference", "why_tests_cant": "aliasing and duplicates", "anchors": ["AdvancedLibraryCpp/structures/binary_tree.h remove_all, remove"]}
{"id": "C40", "title": "AVL tree: parent links are right", "statement": "After any history a node reports has_parent() iff it is not the root, and parent() is the node whose child it is.", "quantifier": "every history and node", "why_tests_cant": "depends on rotations with an inner subtree", "anchors": ["AdvancedLibraryCpp/structures/binary_tree.h rotate_left, rotate_right, remove", "AdvancedLibraryCpp/structures/tree.h parent, has_parent"]}
{"id": "C41", "title": "AVL tree: a copy is equivalent to the original", "statement": "A copy has the same contents, size and height and stays balanced under later insertions; assigning an empty tree empties the target.", "quantifier": "every source tree, target tree and later history", "why_tests_cant": "all shapes", "anchors": ["AdvancedLibraryCpp/structures/binary_tree.h operator=(const binary_node_t&)", "AdvancedLibraryCpp/structures/tree.h tree_t operator=(const tree_t&)"]}
{"id": "C42", "title": "AVL tree: moved-from trees are empty", "statement": "After moving from a tree it is empty, size() is 0 and it can be reused with correct answers; the target has the old contents, size and height.", "quantifier": "every source tree", "why_tests_cant": "all shapes", "anchors": ["AdvancedLibraryCpp/structures/binary_tree.h avl_tree_t", "AdvancedLibraryCpp/structures/tree.h tree_t operator=(tree_t&&)"]}
{"id": "C43", "title": "Binary tree traversals visit every node once", "statement": "With a callback that never stops, pre_order, in_order and pos_order call it once per node in the respective order and return the number of nodes.", "quantifier": "every binary tree", "why_tests_cant": "all shapes", "anchors": ["AdvancedLibraryCpp/structures/binary_tree.h in_order, pre_order, pos_order"]}
{"id": "C44", "title": "Breadth first search", "statement": "breadth_first_search calls the callback in level order, stops right after the first true and returns the number of nodes visited.", "quantifier": "every tree, arity and callback", "why_tests_cant": "all shapes and callbacks", "anchors": ["AdvancedLibraryCpp/structures/tree.h breadth_first_search"]}
{"id": "C45", "title": "Depth first search", "statement": "depth_first_search calls the callback in pre-order, stops right after the first true and returns the number of nodes visited.", "quantifier": "every tree, arity and callback", "why_tests_cant": "all shapes and callbacks", "anchors": ["AdvancedLibraryCpp/structures/tree.h depth_first_search"]}
{"id": "C46", "title": "Recursive traversals stop when the callback returns true", "statement": "If the callback returns true on a node, in_order/pre_order/pos_order make no further callback.", "quantifier": "every binary tree and callback", "why_tests_cant": "all shapes and callbacks", "anchors": ["AdvancedLibraryCpp/structures/tree.h in_order, pre_order, pos_order", "AdvancedLibraryCpp/structures/binary_tree.h in_order, pre_order, pos_order"]}
{"id": "C47", "title": "k-ary traversals", "statement": "On a tree_node_t tree with a callback that never stops, pre_order and pos_order visit each node once; in_order visits a node with s child slots max(1,s-1) times between its children; all return the number of nodes.", "quantifier": "every k-ary tree", "why_tests_cant": "all shapes", "anchors": ["AdvancedLibraryCpp/structures/tree.h tree_node_t in_order, pre_order, pos_order"]}
{"id": "C48", "title": "k-ary node: never more than the maximum number of children", "statement": "No sequence of add_child, insert_at_first_null, insert_at, replace_at, extract_child, delete_child makes a node hold more than max_node_size children; the operations answer nullptr/false instead.", "quantifier": "every call sequence", "why_tests_cant": "unbounded histories", "anchors": ["AdvancedLibraryCpp/structures/tree.h tree_node_t"]}
{"id": "C49", "title": "k-ary node: every child is owned exactly once", "statement": "Over any call sequence each child node ever created is either still attached, was handed back by extract_child, or was deleted exactly once.", "quantifier": "every call sequence", "why_tests_cant": "leaks and double frees need all histories", "anchors": ["AdvancedLibraryCpp/structures/tree.h tree_node_t add_child, insert_at, replace_at, delete_child, extract_child, clear"]}
{"id": "C50", "title": "k-ary node: out-of-range positions are refused", "statement": "insert_at and replace_at with a position not below max_node_size change nothing and return nullptr.", "quantifier": "every node and position", "why_tests_cant": "every 64-bit position", "anchors": ["AdvancedLibraryCpp/structures/tree.h insert_at, replace_at"]}
{"id": "C51", "title": "k-ary node: slot positions are stable and predictable", "statement": "insert_at(p) puts the child at slot p, keeps order of the others, child(i)/find/has_child/children_count agree with the slots; errors are null_node for empty slots and out_of_range beyond the end.", "quantifier": "every node and position", "why_tests_cant": "all histories", "anchors": ["AdvancedLibraryCpp/structures/tree.h insert_at, insert_at_first_null, child, find, has_child, children_count, first, last"]}
{"id": "C52", "title": "Binary node assignment is safe under aliasing", "statement": "n = n and n = n.left() leave n equal to the assigned value.", "quantifier": "every node", "why_tests_cant": "aliasing", "anchors": ["AdvancedLibraryCpp/structures/binary_tree.h operator=(const binary_node_t&), operator=(binary_node_t&&)"]}
{"id": "C53", "title": "k-ary tree copies own their nodes", "statement": "After copying a tree_t over tree_node_t, destroying both trees frees each node exactly once.", "quantifier": "every tree", "why_tests_cant": "double free is not reliably visible", "anchors": ["AdvancedLibraryCpp/structures/tree.h tree_node_t operator=, tree_t operator=(const tree_t&)"]}
{"id": "C54", "title": "Heap array: navigation laws", "statement": "parent_of inverts left_child_of and right_child_of, distinct positions have distinct children, and set_left/set_right store the value at the child position growing the array as needed.", "quantifier": "every index below the overflow bound, every heap size", "why_tests_cant": "64-bit index space", "anchors": ["AdvancedLibraryCpp/structures/heap.h parent_of, left_child_of, right_child_of, set_left, set_right"]}
{"id": "C55", "title": "Segment tree: query is the fold of the range", "statement": "For every associative join, query(s,e) after building from a non-empty vector is the join of the elements s..e in order.", "quantifier": "every non-empty vector, associative join, range", "why_tests_cant": "all sizes and ranges", "anchors": ["AdvancedLibraryCpp/structures/segment_tree.h query, build, _range_query"]}
{"id": "C56", "title": "Segment tree: lazy range updates are equivalent to eager ones", "statement": "For every lawful transform any sequence of query_update and query calls returns what applying each change element by element to a plain array would.", "quantifier": "every lawful transform, vector and call sequence", "why_tests_cant": "lazy propagation is history dependent", "anchors": ["AdvancedLibraryCpp/structures/segment_tree.h query_update, _range_update, _range_query"]}
{"id": "C57", "title": "Segment tree: all heap accesses are in bounds", "statement": "Every node index used by build, query and update is below 4n, the allocated size.", "quantifier": "every n>=1, every range", "why_tests_cant": "all sizes", "anchors": ["AdvancedLibraryCpp/structures/segment_tree.h minimum_required_size_for_head, build, _range_query, _range_update"]}
{"id": "C58", "title": "Segment tree: query is symmetric and clamps", "statement": "query(s,e)=query(e,s) and positions beyond the end behave as the last position.", "quantifier": "every s,e", "why_tests_cant": "two 64-bit arguments", "anchors": ["AdvancedLibraryCpp/structures/segment_tree.h query, query_update"]}
{"id": "C59", "title": "Segment tree: rebuild forgets the past", "statement": "After rebuild(v) all answers equal those of a tree freshly built from v, also for the empty v.", "quantifier": "every history and vector", "why_tests_cant": "stale nodes/pending updates", "anchors": ["AdvancedLibraryCpp/structures/segment_tree.h rebuild, build"]}
{"id": "C60", "title": "Segment tree: unbuilt trees throw", "statement": "query, query_update and head on a tree that was never built throw.", "quantifier": "every argument", "why_tests_cant": "all arguments", "anchors": ["AdvancedLibraryCpp/structures/segment_tree.h query, query_update, head"]}
{"id": "C61", "title": "Missing element of an arithmetic progression", "statement": "Given a sorted arithmetic progression with exactly one interior (or first) element missing, find_missing_arithmetic_in_sorted returns it.", "quantifier": "every length, start, factor and missing position", "why_tests_cant": "all lengths and positions", "anchors": ["AdvancedLibraryCpp/classic/sequences/missing_element.h find_missing_arithmetic_in_sorted"]}
{"id": "C62", "title": "Missing element of a geometric progression", "statement": "Given a sorted integer geometric progression with exactly one interior (or first) element missing, find_missing_geometric_in_sorted returns it.", "quantifier": "every length, start, factor and missing position", "why_tests_cant": "all lengths and positions", "anchors": ["AdvancedLibraryCpp/classic/sequences/missing_element.h find_missing_geometric_in_sorted"]}
{"id": "C63", "title": "Missing element of a sequential range", "statement": "Given lower..lower+n with one element removed, in any order, find_missing_sequential_range returns that element.", "quantifier": "every n>=1, lower, missing element, permutation", "why_tests_cant": "factorially many inputs", "anchors": ["AdvancedLibraryCpp/classic/sequences/missing_element.h find_missing_sequential_range"]}
{"id": "C64", "title": "Element not common to two lists", "statement": "If two lists are equal as multisets except for one extra element in one of them, find_not_common_element returns the extra element.", "quantifier": "every pair of lists, every order", "why_tests_cant": "all permutations", "anchors": ["AdvancedLibraryCpp/classic/sequences/missing_element.h find_not_common_element"]}
{"id": "C65", "title": "Non repeated element", "statement": "If exactly one value occurs an odd number of times, find_non_repeated_element returns it.", "quantifier": "every list", "why_tests_cant": "all multisets and orders", "anchors": ["AdvancedLibraryCpp/classic/sequences/missing_element.h find_non_repeated_element"]}
{"id": "C66", "title": "Longest zero-sum subarray", "statement": "max_length_of_sum with required sum 0 returns the length of the longest contiguous subarray with sum 0 (0 if none).", "quantifier": "every integer sequence", "why_tests_cant": "all sequences", "anchors": ["AdvancedLibraryCpp/classic/sequences/subarray.h max_length_of_sum"]}
{"id": "C67", "title": "Longest subarray with a given sum", "statement": "max_length_of_sum(r) returns the length of the longest contiguous subarray with sum r.", "quantifier": "every integer sequence and r", "why_tests_cant": "all sequences", "anchors": ["AdvancedLibraryCpp/classic/sequences/subarray.h max_length_of_sum"]}
{"id": "C68", "title": "Maximum subarray sum", "statement": "max_sum_of returns the maximum sum of a non-empty contiguous subarray.", "quantifier": "every non-empty integer sequence", "why_tests_cant": "all sequences", "anchors": ["AdvancedLibraryCpp/classic/sequences/subarray.h max_sum_of"]}
{"id": "C69", "title": "Subset-sum counting", "statement": "sum_of_subsets returns the number of sub-multisets (by position) whose sum is the requested one (modulo 2^64).", "quantifier": "every integer sequence and sum", "why_tests_cant": "exponential", "anchors": ["AdvancedLibraryCpp/classic/sequences/subset.h sum_of_subsets"]}
{"id": "C70", "title": "Subset-sum cache can be reused", "statement": "A cache filled by earlier calls on the same sequence gives the same answers for every later sum.", "quantifier": "every sequence and list of sums", "why_tests_cant": "all query orders", "anchors": ["AdvancedLibraryCpp/classic/sequences/subset.h sum_of_subsets"]}
{"id": "C71", "title": "gcd", "statement": "gcd(a,b) terminates and is the greatest common divisor.", "quantifier": "all pairs of 64-bit numbers", "why_tests_cant": "2^128 pairs", "anchors": ["AdvancedLibraryCpp/tools/divisors.h gcd"]}
{"id": "C72", "title": "Divisors", "statement": "divisors_of(n) returns all divisors of n without repetition, ascending when sorted.", "quantifier": "every 64-bit n", "why_tests_cant": "2^64 inputs", "anchors": ["AdvancedLibraryCpp/tools/divisors.h divisors_of"]}
{"id": "C73", "title": "Enum factory round trip", "statement": "from_string(to_string(v))=v for all v in the range when names are distinct; unknown names give maximum; the first match wins otherwise.", "quantifier": "every enum range and naming", "why_tests_cant": "all namings", "anchors": ["AdvancedLibraryCpp/tools/enum_factory.h from_string"]}
{"id": "C74", "title": "Stream tokenizer", "statement": "Words read through a custom delimiter are the maximal runs of accepted characters: none empty, none containing a delimiter, concatenation equals the filtered input.", "quantifier": "every input and filter", "why_tests_cant": "all strings", "anchors": ["AdvancedLibraryCpp/tools/delimiters.h get_table, filters"]}
{"id": "C75", "title": "CSV reading", "statement": "Reading back rows written with the separator yields the same fields, rows before start offset are skipped, rows with more fields than described stop the reading and keep earlier rows.", "quantifier": "every table", "why_tests_cant": "all strings", "anchors": ["AdvancedLibraryCpp/tools/read_csv.h read_csv_file"]}
{"id": "C76", "title": "CSV field getters", "statement": "get_int/get_double/string of a field return the parsed numbers and the text for every field type.", "quantifier": "every text and field type", "why_tests_cant": "all texts; uninitialised reads often look right", "anchors": ["AdvancedLibraryCpp/tools/read_csv.h generic_field_t"]}
{"id": "C77", "title": "Random helpers stay in range", "statement": "next_random(a,b) lies in [a,b], next_random_char(set) is a member of set, next_random_string(n,set) has length n and only characters of set.", "quantifier": "every generator behaviour", "why_tests_cant": "probabilistic", "anchors": ["AdvancedLibraryCpp/tools/random.h"]}
{"id": "C78", "title": "Math operations", "statement": "The variadic sum/multiplication/minimum/maximum equal the list fold, and reverse operations undo their operation.", "quantifier": "every argument list", "why_tests_cant": "all lists", "anchors": ["AdvancedLibraryCpp/tools/math_operation.h"]}
{"id": "C79", "title": "Command history: undo/redo", "statement": "undo() returns the last stored command, redo() the last undone one; at most 1024 commands are kept; each command is deleted once.", "quantifier": "every call sequence", "why_tests_cant": "all histories", "anchors": ["AdvancedLibraryCpp/structures/command.h"]}
{"id": "C80", "title": "Semaphore: resource bound", "statement": "If every thread releases only what it acquired, never more threads hold the semaphore than there are resources (fixed resource number).", "quantifier": "every number of threads and every interleaving", "why_tests_cant": "all schedules", "anchors": ["AdvancedLibraryCpp/concurrency/semaphore.h lock, try_lock, unlock"]}
{"id": "C81", "title": "Semaphore: accounting", "statement": "count() equals acquisitions minus effective releases; release on an idle semaphore changes nothing; try_lock succeeds iff a resource is free.", "quantifier": "every interleaving", "why_tests_cant": "all schedules", "anchors": ["AdvancedLibraryCpp/concurrency/semaphore.h try_lock, unlock, count"]}
{"id": "C82", "title": "Semaphore: no lost wake-up", "statement": "Whenever a resource is free and a thread waits in lock, that thread can complete lock without help of any notification.", "quantifier": "every reachable state", "why_tests_cant": "liveness over all schedules", "anchors": ["AdvancedLibraryCpp/concurrency/semaphore.h lock, unlock"]}
{"id": "C83", "title": "Semaphore: zero resources", "statement": "lock on a semaphore with no resources throws rather than blocking for ever.", "quantifier": "every interleaving, including concurrent set_available_resources", "why_tests_cant": "schedules", "anchors": ["AdvancedLibraryCpp/concurrency/semaphore.h lock, set_available_resources"]}
{"id": "C84", "title": "Semaphore: changing the resource number", "statement": "After set_available_resources(n) no thread is admitted while n or more hold the semaphore; already admitted threads keep it.", "quantifier": "every interleaving", "why_tests_cant": "schedules", "anchors": ["AdvancedLibraryCpp/concurrency/semaphore.h set_available_resources, lock, max_count"]}
{"id": "C85", "title": "Message queue: FIFO and at most once", "statement": "Messages are processed in the order received, each at most once, none invented.", "quantifier": "every number of producers, every interleaving", "why_tests_cant": "schedules", "anchors": ["AdvancedLibraryCpp/concurrency/message_queue.h receive_message, run, pop"]}
{"id": "C86", "title": "Message queue: stop processes what was received before", "statement": "Every message whose receive_message returned before stop() was called is processed before the worker ends.", "quantifier": "every interleaving", "why_tests_cant": "the losing window is a few instructions", "anchors": ["AdvancedLibraryCpp/concurrency/message_queue.h stop, run"]}
{"id": "C87", "title": "Message queue: discard drops only earlier messages", "statement": "discard_messages drops only messages received before the call.", "quantifier": "every interleaving", "why_tests_cant": "schedules", "anchors": ["AdvancedLibraryCpp/concurrency/message_queue.h discard_messages, run"]}
{"id": "C88", "title": "Message queue: hooks", "statement": "on_start is called once before any message is processed, on_stop once after all.", "quantifier": "every interleaving", "why_tests_cant": "schedules", "anchors": ["AdvancedLibraryCpp/concurrency/message_queue.h run"]}
{"id": "C89", "title": "Message queue: priority order", "statement": "With a priority queue every processed message is a greatest element of the queue at that time.", "quantifier": "every interleaving", "why_tests_cant": "schedules", "anchors": ["AdvancedLibraryCpp/concurrency/message_queue.h pop, priority_message_queue_t"]}
{"id": "C90", "title": "Thread wrapper life cycle", "statement": "exit_code() is NOT_STARTED before start, the value returned by run after join; is_running reflects it; start on a running thread is safe.", "quantifier": "every call sequence and run result", "why_tests_cant": "histories", "anchors": ["AdvancedLibraryCpp/concurrency/thread.h"]}
{"id": "C91", "title": "Timer: callback failure ends the timer", "statement": "After the interval callback reports failure it is never called again and exit_code() is the failure code.", "quantifier": "every interleaving", "why_tests_cant": "schedules", "anchors": ["AdvancedLibraryCpp/concurrency/timer.h run, timer_t::on_interval"]}
{"id": "C92", "title": "Timer: period", "statement": "Without forced wake-up, consecutive interval callbacks are separated by at least the interval; the remaining wait never exceeds it.", "quantifier": "every sequence of wake-ups and delays", "why_tests_cant": "time and spurious wake-ups", "anchors": ["AdvancedLibraryCpp/concurrency/timer.h run"]}
{"id": "C93", "title": "Timer: stop() stops", "statement": "After stop() returns at most one further interval callback starts and join() returns.", "quantifier": "every interleaving", "why_tests_cant": "the losing windows are a few instructions", "anchors": ["AdvancedLibraryCpp/concurrency/timer.h stop, run, safe_delete"]}
{"id": "C94", "title": "Timer: on_stop is called once", "statement": "One start/stop cycle calls on_stop exactly once.", "quantifier": "every interleaving", "why_tests_cant": "schedules", "anchors": ["AdvancedLibraryCpp/concurrency/timer.h stop, _on_stop, run"]}
{"id": "C95", "title": "Fenwick: update accepts a reference to its own cell", "statement": "update(i, t.at(j)) adds the value that at(j) had when the call was made, like update(i, copy of t.at(j)).", "quantifier": "every tree, index pair and transform", "why_tests_cant": "needs an argument that aliases a cell touched by the update loop", "anchors": ["AdvancedLibraryCpp/structures/fenwick_tree.h update, at"]}
{"id": "C96", "title": "Disjoint sets: path compression and evaluation order are unobservable", "statement": "Two structures that differ only in the apply_compression flag, driven by the same calls (the compiler may evaluate nested finds in any order), give the same sequence of answers.", "quantifier": "every size, every history, both flags, all evaluation orders, every element type", "why_tests_cant": "relational property over all histories and compilers", "anchors": ["AdvancedLibraryCpp/structures/union_set.h _find, same, join", "AdvancedLibraryCpp/structures/union_find.h _find, _join"]}
{"id": "C97", "title": "Recursive k-ary traversals stop when the callback returns true", "statement": "If the callback returns true on a node of a tree_node_t tree, in_order, pre_order and pos_order make no further callback; the calls made before are those of the full traversal, in order.", "quantifier": "every k-ary tree and callback, also stateful ones", "why_tests_cant": "all shapes and callbacks; a static flag shared by all recursive calls decides", "anchors": ["AdvancedLibraryCpp/structures/tree.h tree_node_t in_order, pre_order, pos_order"]}
{"id": "C98", "title": "k-ary node: parent links", "statement": "Over any call sequence every attached child's parent() is the node that holds it, and owned nodes, including those handed back by replace_at and extract_child, have no parent.", "quantifier": "every call sequence", "why_tests_cant": "unbounded histories over all nodes of a tree", "anchors": ["AdvancedLibraryCpp/structures/tree.h tree_node_t add_child, insert_at, replace_at, extract_child"]}
{"id": "C99", "title": "Binary node: adding, deleting and exchanging children", "statement": "add_left and add_right answer false and change nothing when the side is taken, and otherwise attach one new child whose parent is the node; delete_child releases exactly the subtree of the child and tells whether there was one, and does nothing for an index that is no child; swap exchanges the two values only; clear and the destructor release exactly the subtree.", "quantifier": "every tree, node, side, index and value", "why_tests_cant": "all shapes and all size_t indices; released memory is not visible to a test", "anchors": ["AdvancedLibraryCpp/structures/binary_tree.h add_left, add_right, delete_child, swap, clear, ~binary_node_t"]}
{"id": "C100", "title": "Segment tree: the criteria of the transform is honoured", "statement": "As documented, a matched inner node for which the transform's criteria is false does not take the update itself; the update goes on to its children.", "quantifier": "every transform that keeps the documented contract, every history", "why_tests_cant": "the transforms are user code; the shipped tests use one criteria", "anchors": ["AdvancedLibraryCpp/structures/segment_tree.h _range_update, transform_t::criteria"]}
{"id": "C101", "title": "Missing element of a floating-point geometric sequence", "statement": "find_missing_geometric_in_sorted over a geometric sequence of floating-point numbers returns the one missing term, wherever it is missing.", "quantifier": "every start, ratio, length and missing position", "why_tests_cant": "unbounded lengths and positions", "anchors": ["AdvancedLibraryCpp/classic/sequences/missing_element.h find_missing_geometric_in_sorted (floating-point version)"]}
{"id": "C102", "title": "Semaphore: no data race", "statement": "The members of one semaphore can be called from several threads at the same time without a data race on its data.", "quantifier": "every number of threads, every interleaving", "why_tests_cant": "a race is undefined behaviour that usually looks harmless", "anchors": ["AdvancedLibraryCpp/concurrency/semaphore.h max_count, set_available_resources"]}
{"id": "C103", "title": "Message queue: data races", "statement": "Threads that call the public members of a message queue while its worker runs do not race with it or with each other.", "quantifier": "every number of threads, every interleaving", "why_tests_cant": "a data race need not show in any run", "anchors": ["AdvancedLibraryCpp/concurrency/message_queue.h receive_message, is_running, size, empty, run"]}
{"id": "C104", "title": "Message queue: stop ends the worker", "statement": "After stop() the worker ends by its own steps, whatever is queued, so that join() returns; no caller keeps the queue locked.", "quantifier": "every reachable state, every container policy", "why_tests_cant": "states and schedules", "anchors": ["AdvancedLibraryCpp/concurrency/message_queue.h stop, safe_delete, run"]}
{"id": "C105", "title": "Thread: no data race on the exit code", "statement": "exit_code() and is_running() may be called by the owner while the thread runs, without a data race.", "quantifier": "every sequence of calls, every interleaving with the thread", "why_tests_cant": "a data race need not show in any run", "anchors": ["AdvancedLibraryCpp/concurrency/thread.h start, exit_code, is_running"]}
{"id": "C106", "title": "Timer: no data races", "statement": "The public members of a timer may be called from several threads while it runs, without a data race with its thread or with each other.", "quantifier": "every number of threads, every interleaving", "why_tests_cant": "a data race need not show in any run", "anchors": ["AdvancedLibraryCpp/concurrency/timer.h set_interval, is_running, run", "AdvancedLibraryCpp/concurrency/thread.h start, is_running"]}
{"id": "C107", "title": "Timer: destroying a running timer is safe", "statement": "A timer_t may be destroyed while it runs: its destructor stops and joins the thread, and no destroyed member is used.", "quantifier": "every interleaving", "why_tests_cant": "the use after destruction needs a schedule of a few instructions", "anchors": ["AdvancedLibraryCpp/concurrency/timer.h ~base_timer_t, timer_t, run"]}
{"id": "C108", "title": "Lockable: wraps values faithfully", "statement": "A lockable_t built from or assigned a value holds that value; its mutex is free after construction and untouched by assignment; sources are copied or moved as their value category says.", "quantifier": "every type that can be copied and moved, every value", "why_tests_cant": "values and types", "anchors": ["AdvancedLibraryCpp/concurrency/safe.h lockable_t"]}
{"id": "C109", "title": "Timer: is_running tells the truth", "statement": "When is_running() answers true the timer's thread is running; when it answers false the timer is not in steady operation, that is, it has not called its function since the start without having failed, been stopped or been destroyed since.", "quantifier": "every interleaving, any results of the callback", "why_tests_cant": "the answer is composed of two reads with the thread running in between", "anchors": ["AdvancedLibraryCpp/concurrency/timer.h is_running, stop, run", "AdvancedLibraryCpp/concurrency/thread.h is_running, exit_code, start"]}
{"id": "C110", "title": "Timer: changing the period", "statement": "With set_interval() and notify() in use, a callback still starts at least the smallest period ever asked for after the previous one returned unless a notify() returned since; no wait is longer than the longest period asked for; and once the thread has woken up after a change every wait is within the new period; a period asked for while the callback runs holds for the very next callback.", "quantifier": "every interleaving, every sequence of periods, every passing of time and early wake-ups", "why_tests_cant": "depends on the moment of each call relative to the waits", "anchors": ["AdvancedLibraryCpp/concurrency/timer.h set_interval, notify, run"]}
{"id": "C111", "title": "Timer: notify makes it call now", "statement": "After notify() on a running timer the callback is called without waiting for the period to end.", "quantifier": "every interleaving", "why_tests_cant": "the notification is lost only if it comes when the thread is not yet, or not any more, waiting", "anchors": ["AdvancedLibraryCpp/concurrency/timer.h notify, run"]}
{"id": "C112", "title": "Message queue: is_running tells the truth", "statement": "is_running() answers true exactly if the queue's thread has been started and has not ended, and (as documented) then the queue is ready to process any received message.", "quantifier": "every interleaving, every container", "why_tests_cant": "the answer is composed of two reads with the worker running in between", "anchors": ["AdvancedLibraryCpp/concurrency/message_queue.h is_running, run", "AdvancedLibraryCpp/concurrency/thread.h is_running, start"]}
{"id": "C113", "title": "Message queue: can be started again", "statement": "A queue that was stopped and joined can be started again and then processes messages until it is stopped again.", "quantifier": "every interleaving, every number of restarts", "why_tests_cant": "the effect depends on when messages arrive relative to the single pass", "anchors": ["AdvancedLibraryCpp/concurrency/message_queue.h stop, run"]}
{"id": "C114", "title": "Message queue: destruction", "statement": "Destroying a queue whose thread runs ends the thread and processes the messages received before; safe_delete() in the destructor of the derived class makes this safe, and forgetting it does no harm because the destructor of message_queue_t calls it too.", "quantifier": "every interleaving of worker and destructor, every state in which the destruction may begin, every container", "why_tests_cant": "a call of a pure virtual function happens only if the worker takes a message in the time between the two destructors", "anchors": ["AdvancedLibraryCpp/concurrency/message_queue.h safe_delete, ~message_queue_t, run, clear", "AdvancedLibraryCpp/concurrency/thread.h join"]}
{"id": "C115", "title": "k-ary in_order: traversals are independent", "statement": "In-order traversals of k-ary trees that run at the same time, in several threads or because a callback starts another one, make the same calls as each of them alone.", "quantifier": "any number of traversals, every tree and callback, every interleaving", "why_tests_cant": "the traversals share a static variable; the effect depends on the interleaving and on where in the tree a callback is", "anchors": ["AdvancedLibraryCpp/structures/tree.h tree_node_t::in_order"]}
{"id": "C116", "title": "timestamp: elapsed and difference", "statement": "elapsed() and difference() answer the whole units of time since the last reset() or the construction; the answer is never negative and does not decrease without a reset; laps taken with reset add up to the time passed up to a unit per lap.", "quantifier": "every program of calls, every unit of whole nanoseconds, every behaviour of the clock", "why_tests_cant": "depends on the clock's behaviour and on durations of months, which a test cannot wait for", "anchors": ["AdvancedLibraryCpp/tools/timestamp.h timestamp_t::elapsed", "AdvancedLibraryCpp/tools/timestamp.h timestamp_t::difference", "AdvancedLibraryCpp/tools/timestamp.h timestamp_t::reset"]}
{"id": "C117", "title": "Array heap: height_of", "statement": "height_of(pos) is the number of levels from the root down to the node at pos; siblings have the same height.", "quantifier": "every position below 2^40 (paths from the root)", "why_tests_cant": "the answer is computed with a floating-point logarithm and is wrong only for the first position of each level; there is no test of it", "anchors": ["AdvancedLibraryCpp/structures/heap.h heap_t::height_of"]}
{"id": "C118", "title": "LRU cache: exceptions", "statement": "An exception out of a call (no memory, a key whose copy throws, an on_discard that throws) leaves a cache that can be used further and whose list and lookup agree.", "quantifier": "every reachable cache, every call, every point of the call at which something can throw", "why_tests_cant": "a test would have to make the n-th allocation of a call fail for every n and every state", "anchors": ["AdvancedLibraryCpp/structures/cache.h cache_t::add", "AdvancedLibraryCpp/structures/cache.h cache_t::move_to_front", "AdvancedLibraryCpp/structures/cache.h cache_t::clip", "AdvancedLibraryCpp/structures/cache.h cache_t::set_capacity"]}
{"id": "C119", "title": "LRU cache: any capacity", "statement": "A cache can be given every capacity, and a set_capacity that throws changes nothing.", "quantifier": "every capacity of type size_t, every reachable cache", "why_tests_cant": "large capacities need memory a test does not have; the undefined conversion shows nothing on most machines", "anchors": ["AdvancedLibraryCpp/structures/cache.h cache_t::set_capacity", "AdvancedLibraryCpp/structures/cache.h cache_t::cache_t(size_t)"]}
{"id": "C120", "title": "LRU cache: on_discard may use the cache", "statement": "An override of on_discard may call the public functions of its cache; afterwards the cache holds at most capacity keys, each discarded key was reported once, and list and lookup agree.", "quantifier": "every override given by the calls it makes in each state, every reachable cache, every call", "why_tests_cant": "the damage depends on what the override does and appears only in later calls", "anchors": ["AdvancedLibraryCpp/structures/cache.h cache_t::clip", "AdvancedLibraryCpp/structures/cache.h cache_t::on_discard", "AdvancedLibraryCpp/structures/cache.h cache_t::add"]}
{"id": "C121", "title": "Message queue: hooks may use the queue", "statement": "All methods are reentrant: on_start, on_new_message and on_stop may call the members of their own queue. They do not block themselves, what they send is processed before the thread ends, stop() and discard_messages() work as from another thread, and stop() ends the thread.", "quantifier": "every behaviour of the hooks (finite programs that may depend on everything that happened before and on the answers of their calls), any number of other threads, every interleaving", "why_tests_cant": "depends on the hook, the other threads and the interleaving; a queue that never ends cannot be observed in finite time", "anchors": ["AdvancedLibraryCpp/concurrency/message_queue.h message_queue_t::run", "AdvancedLibraryCpp/concurrency/message_queue.h message_queue_t::on_new_message", "AdvancedLibraryCpp/concurrency/message_queue.h message_queue_t::receive_message", "AdvancedLibraryCpp/concurrency/thread.h thread_t::join"]}
{"id": "C122", "title": "Timer: hooks may use their timer", "statement": "on_start, on_interval and on_stop may call the members of their own timer: what they do is as if another thread did it, they do not block themselves, exit_code() tells them that the thread runs, and a stop() in the callback means that no further callback starts and that the thread ends at once; stop() works in every hook.", "quantifier": "every behaviour of the hooks (finite programs that may depend on everything that happened before and on the answers of their calls), nested hooks on a stack of any depth, any number of other threads, every interleaving and passing of time", "why_tests_cant": "depends on the hook, the other threads and the interleaving; that no callback ever follows cannot be observed", "anchors": ["AdvancedLibraryCpp/concurrency/timer.h base_timer_t::stop", "AdvancedLibraryCpp/concurrency/timer.h base_timer_t::run", "AdvancedLibraryCpp/concurrency/timer.h base_timer_t::on_interval", "AdvancedLibraryCpp/concurrency/thread.h thread_t::join"]}
{"id": "C123", "title": "AVL tree: exceptions of comparisons and copies", "statement": "A call of insert, remove, remove_all or contains that throws (a comparison, an allocation or a copy of a value fails) leaves a tree that can be used further: sorted, with size() equal to the number of values, with all later answers right for what is in it, and, as one would like, with the contents of before the call.", "quantifier": "every ordered type, every history of calls and every choice of the points that throw", "why_tests_cant": "the exception can come at every comparison and copy of every call, and what it leaves behind depends on the shape of the tree", "anchors": ["AdvancedLibraryCpp/structures/binary_tree.h insert, rotate_if_needed, remove, remove_all, contains"]}
{"id": "C124", "title": "AVL tree: exceptions of the copy assignment", "statement": "A copy assignment that throws leaves the target as it was, or at least with contents that size(), contains() and in_order() agree on.", "quantifier": "every target and source tree and every choice of the point that throws", "why_tests_cant": "the exception can come at every node of the source", "anchors": ["AdvancedLibraryCpp/structures/binary_tree.h operator=(const binary_node_t&)", "AdvancedLibraryCpp/structures/tree.h tree_t operator=(const tree_t&)"]}
{"id": "C125", "title": "LRU cache: how long iterators and references live", "statement": "An iterator answered by find() or begin(), and a reference answered by operator[], most_recent(), least_recent() or values(), refers to its key as long as the key is in the cache; once it is invalid it never becomes valid again and never refers to another key.", "quantifier": "every key type, every reachable cache, every node, every call and every sequence of calls", "why_tests_cant": "an invalid reference often still reads the old value; which calls invalidate it depends on the position of the key", "anchors": ["AdvancedLibraryCpp/structures/cache.h cache_t::find", "AdvancedLibraryCpp/structures/cache.h cache_t::operator[]", "AdvancedLibraryCpp/structures/cache.h cache_t::move_to_front", "AdvancedLibraryCpp/structures/cache.h cache_t::begin"]}
{"id": "C126", "title": "LRU cache: loops over the cache", "statement": "A range-for loop over the cache, and a loop from rbegin() to rend(), calls its body once with every key, from the most to the least recently used one or the other way round, and ends, also when the body looks keys up, adds keys or removes the current one.", "quantifier": "every reachable cache, every body of const calls, every body of additions that fits, and the bodies that look up or remove the current key", "why_tests_cant": "undefined increments of erased iterators often seem to work; skipped keys depend on the length of the list", "anchors": ["AdvancedLibraryCpp/structures/cache.h cache_t::begin", "AdvancedLibraryCpp/structures/cache.h cache_t::end", "AdvancedLibraryCpp/structures/cache.h cache_t::rbegin", "AdvancedLibraryCpp/structures/cache.h cache_t::rend"]}
{"id": "C127", "title": "Binary nodes: any program that builds, walks, copies and moves trees", "statement": "Whatever sequence of calls a program makes on binary nodes it owns or reached, as long as it destroys and moves from roots only and copies between disjoint branches: no call is undefined, the trees are those the calls describe, no node leaks or is shared, left().parent() and right().parent() are the node itself, an accessor throws exactly when its has_ member says false, and following parent() ends at the root.", "quantifier": "every value type, every program whose calls depend on the earlier answers, every node of every heap such a program can reach", "why_tests_cant": "leaks, shared nodes and stale parents show only after particular sequences of calls, and the sequences are unbounded", "anchors": ["AdvancedLibraryCpp/structures/binary_tree.h binary_node_t::left", "AdvancedLibraryCpp/structures/binary_tree.h binary_node_t::operator=", "AdvancedLibraryCpp/structures/binary_tree.h binary_node_t::clear", "AdvancedLibraryCpp/structures/tree.h base_node_t::parent", "AdvancedLibraryCpp/structures/tree.h base_node_t::has_parent"]}
{"id": "C128", "title": "Binary nodes: traversals whose callback changes the tree", "statement": "A traversal or search of binary nodes whose callback changes the node it is given (its value, its children, whole branches below it) is defined, calls no deleted node, counts its calls, leaves the rest of the tree alone and leaks nothing; if the callback adds no nodes the traversal ends and calls no node twice; if it only changes values every node is called once in the order of the traversal. pos_order ends and calls every node in post-order even if the callback deletes its own node.", "quantifier": "every value type, tree, starting node and callback, including callbacks that decide by earlier calls and by what they read", "why_tests_cant": "a callback can change the tree in unboundedly many ways at any moment of the walk; using a deleted node often seems to work", "anchors": ["AdvancedLibraryCpp/structures/binary_tree.h binary_node_t::in_order", "AdvancedLibraryCpp/structures/binary_tree.h binary_node_t::pre_order", "AdvancedLibraryCpp/structures/binary_tree.h binary_node_t::pos_order", "AdvancedLibraryCpp/structures/tree.h tree_t::breadth_first_search", "AdvancedLibraryCpp/structures/tree.h tree_t::depth_first_search"]}
{"id": "C129", "title": "AVL tree: how long a reference to a node can be used", "statement": "A reference to a node of an avl_tree_t (from root(), left_most(), right_most(), left(), right() or a callback) stays usable and keeps its value through all insertions, queries and moves of the tree. A removal ends exactly one reference: that of the removed value or that of the next larger one; all other references keep their values, except that the node of the removed value may now hold the next larger one. The references handed out can be used and have the values one expects.", "quantifier": "every lawful value type, every history of calls, every reference", "why_tests_cant": "which node is deleted depends on the shape of the tree, hence on the whole history; using a deleted node often seems to work", "anchors": ["AdvancedLibraryCpp/structures/binary_tree.h avl_tree_t::remove", "AdvancedLibraryCpp/structures/binary_tree.h avl_tree_t::insert", "AdvancedLibraryCpp/structures/binary_tree.h avl_tree_t::rotate_left", "AdvancedLibraryCpp/structures/binary_tree.h avl_tree_t::left_most", "AdvancedLibraryCpp/structures/tree.h tree_t::root"]}
{"id": "C130", "title": "AVL tree: traversals whose callback calls the tree", "statement": "A traversal or search of an avl_tree_t whose callback only asks the tree calls every node once, in order, and leaves the tree as it was. If the callback also inserts, the traversal never uses a deleted node and returns the number of its calls. (Refuted: that it then sees every value, sees none twice, ends, or that the callback may remove the value it is called for.)", "quantifier": "every lawful value type, tree built by any history, traversal and callback, including callbacks that decide by earlier calls and by the answers of the tree", "why_tests_cant": "rotations under the walk depend on the shape of the tree and on the moment of the insertion", "anchors": ["AdvancedLibraryCpp/structures/binary_tree.h avl_tree_t::in_order", "AdvancedLibraryCpp/structures/binary_tree.h avl_tree_t::pre_order", "AdvancedLibraryCpp/structures/binary_tree.h avl_tree_t::pos_order", "AdvancedLibraryCpp/structures/tree.h tree_t::breadth_first_search", "AdvancedLibraryCpp/structures/tree.h tree_t::depth_first_search", "AdvancedLibraryCpp/structures/binary_tree.h avl_tree_t::insert"]}
{"id": "C131", "title": "k-ary nodes: how long iterators over the children stay valid", "statement": "begin() and end() of a k-ary node span its slots; an iterator answers the pointer in its slot. Calls on other nodes, extract_child, set_value and insertions into existing slots keep every iterator of a node that is not deleted. add_child and insertions behind the last slot end the past-the-end iterator, and all iterators if the capacity does not suffice; delete_child ends those at or behind the position; clear ends all; deleting a node ends its iterators. An iterator that ended never becomes valid again. (Refuted: that an iterator stays valid while its child is in the tree.)", "quantifier": "every value type, maximal width, growth policy of std::vector, forest of nodes, program and iterator", "why_tests_cant": "using an invalidated iterator usually seems to work, and whether a call invalidates it depends on the capacity, which the standard leaves open", "anchors": ["AdvancedLibraryCpp/structures/tree.h tree_node_t::begin", "AdvancedLibraryCpp/structures/tree.h tree_node_t::end", "AdvancedLibraryCpp/structures/tree.h tree_node_t::add_child", "AdvancedLibraryCpp/structures/tree.h tree_node_t::insert_at", "AdvancedLibraryCpp/structures/tree.h tree_node_t::replace_at", "AdvancedLibraryCpp/structures/tree.h tree_node_t::delete_child", "AdvancedLibraryCpp/structures/tree.h tree_node_t::extract_child", "AdvancedLibraryCpp/structures/tree.h tree_node_t::clear"]}
{"id": "C132", "title": "k-ary nodes: loops over the children whose body uses the tree", "statement": "A loop over the children of a node (with iterators, range-based or reversed) whose body leaves the node's slots alone is defined and sees every slot once, in order; this includes any call on the child at hand. Extracting every child and deleting the next child work as expected. Deleting the child at hand is undefined behaviour for every node with a child, in all three loops; adding a child is undefined in every range-based loop, and with iterators exactly if the capacity is below the maximal width and the node is not full, otherwise the loop fills the node and sees the new children.", "quantifier": "every value type, maximal width, growth policy of std::vector, forest of nodes and loop body, including bodies that decide by earlier turns", "why_tests_cant": "bodies can use the tree in unboundedly many ways; the broken loops usually seem to work", "anchors": ["AdvancedLibraryCpp/structures/tree.h tree_node_t::begin", "AdvancedLibraryCpp/structures/tree.h tree_node_t::end", "AdvancedLibraryCpp/structures/tree.h tree_node_t::rbegin", "AdvancedLibraryCpp/structures/tree.h tree_node_t::rend", "AdvancedLibraryCpp/structures/tree.h tree_node_t::add_child", "AdvancedLibraryCpp/structures/tree.h tree_node_t::delete_child", "AdvancedLibraryCpp/structures/tree.h tree_node_t::extract_child"]}
{"id": "C133", "title": "k-ary trees: traversals whose callback changes the nodes", "statement": "The five traversals visit the tree as the callback leaves it. With a callback that does anything to its own node and below: pre_order, bfs and dfs are defined, the rest of the tree stays; in_order is undefined exactly when it goes on with an iterator that the callback ended; pos_order always ends, calls exactly the nodes that were there at the start, and its callback may also extract its own node from the parent, after which only the root is left. If the callback adds no nodes every traversal ends and calls only nodes of the tree; if it sets values only, the five orders are those of the unchanged tree. (Refuted: that traversals end for every callback; that a callback may add children during in_order; that it may delete its node in pos_order with delete_child.)", "quantifier": "every value type, maximal width, growth policy of std::vector, forest of nodes, traversal and callback, including callbacks that decide by earlier calls", "why_tests_cant": "callbacks can use the tree in unboundedly many ways; non-termination and invalidated iterators do not show in tests", "anchors": ["AdvancedLibraryCpp/structures/tree.h tree_node_t::pre_order", "AdvancedLibraryCpp/structures/tree.h tree_node_t::in_order", "AdvancedLibraryCpp/structures/tree.h tree_node_t::pos_order", "AdvancedLibraryCpp/structures/tree.h tree_node_t::bfs", "AdvancedLibraryCpp/structures/tree.h tree_node_t::dfs"]}
{"id": "C134", "title": "k-ary nodes: programs with assignments on a heap", "statement": "A program that creates, uses, swaps, assigns and destroys k-ary nodes, using existing nodes, destroying roots only, copying between nodes without children and moving to a node without children that is not at or below the source, is never undefined; the nodes form a list of trees in memory after every call, each call does what it does to the trees, and destroying the roots in any order leaves no node. parent() is right if only nodes without children and parent are assigned, to roots. For every other assignment between two nodes: a = std::move(b) loses exactly the nodes below a that were not below b, or all nodes below b if a is below b; a = b does the same if b has no children or is below a, and in all other cases destroying the roots deletes a node twice. (Refuted: that assigning a value to a node frees its children; that copies of nodes can be destroyed; that a child can be moved to its parent; that moved children know their new parent.)", "quantifier": "every value type, maximal width, program (also one that decides by the answers), heap, pair of nodes and order of destruction", "why_tests_cant": "aliasing and double deletion depend on the shape of both trees and on the order of destruction; leaks show no wrong value", "anchors": ["AdvancedLibraryCpp/structures/tree.h tree_node_t::operator=", "AdvancedLibraryCpp/structures/tree.h base_node_t::operator=", "AdvancedLibraryCpp/structures/tree.h tree_node_t::~tree_node_t", "AdvancedLibraryCpp/structures/tree.h tree_node_t::clear", "AdvancedLibraryCpp/structures/tree.h base_node_t::parent"]}
{"id": "C135", "title": "Divisors with the square root computed in double", "statement": "static_cast<uint64_t>(std::sqrt(n)), computed with IEEE doubles, is defined for every 64-bit n, is the integer root below 2^52, is never below it, and its square is less than n + 3072. divisors_of with this root answers exactly the divisors other than 1 and n, each once, ascending if asked, nothing for primes and for 0. (Refuted: that the root is exact; that its square stays within 2048 of n.)", "quantifier": "every 64-bit n, sorted or not", "why_tests_cant": "the rounding errors occur at few of 2^64 arguments; a root that is too small would lose a divisor there, one too great would repeat one", "anchors": ["AdvancedLibraryCpp/tools/divisors.h divisors_of"]}
{"id": "C136", "title": "Random doubles stay in their range", "statement": "next_random_double(start, end) answers a double from start to end, both included, whatever number below one the generator draws and however start and end are placed; it is defined if start <= end and their difference is not beyond the greatest double; a greater draw never gives a smaller answer. (Refuted: that end itself is never answered.)", "quantifier": "every two doubles and every draw from 0 to below 1", "why_tests_cant": "whether rounding of the product and of two sums can leave the range depends on the last bits of start, end and the draw; such draws have probability 2^-53", "anchors": ["AdvancedLibraryCpp/tools/random.h next_random_double"]}
{"id": "C137", "title": "Greatest subarray sum over doubles", "statement": "max_sum_of over finite doubles answers the greatest sum, added from left to right with every addition rounded, of a contiguous part of the sequence with its first element doubled if that is greater; with a first element that is not positive it answers the greatest such sum of the sequence itself. For integers whose sums stay within 2^53 it answers what the integer version answers. After a NaN the search starts anew; a trailing NaN gives NaN. (Refuted: a positive first element is counted once; the answer is the double nearest to the greatest exact sum; a NaN gives NaN or is skipped.)", "quantifier": "every sequence of finite doubles; every sequence with NaNs before a finite rest", "why_tests_cant": "that rounding and comparison never prefer a part with a smaller rounded sum holds because rounding is monotone, for all of the infinitely many sequences", "anchors": ["AdvancedLibraryCpp/classic/sequences/subarray.h max_sum_of"]}
{"id": "C138", "title": "Signed overflow in a Fenwick tree", "statement": "For a signed element type, a history of calls in which nothing overflows gives the answers of the list of integers. Nothing overflows if after every call all sums of neighbouring elements have values in the type and replacements change elements by values of the type; for elements that are not negative it suffices that the total has a value in the type. (Refuted: it suffices that the elements and the sum asked for have values in the type; set_value with a value of the type is always possible.)", "quantifier": "every width, every history of calls, every tree size", "why_tests_cant": "which partial sums are formed depends on the binary digits of all positions; overflow is undefined and need not show in a test", "anchors": ["AdvancedLibraryCpp/structures/fenwick_tree.h fenwick_tree_t", "AdvancedLibraryCpp/tools/math_operation.h sum_t"]}
{"id": "C139", "title": "Fenwick tree of doubles", "statement": "A Fenwick tree of doubles holding integers whose sums of neighbours stay within 2^53 gives exactly the answers of the list of integers, for every history of calls. (Refuted for other doubles: query(p, p) answers element p; set_value(p, v) makes element p v; the sum of elements that are not negative is not negative.)", "quantifier": "every history of calls over integers; witnesses for the rest", "why_tests_cant": "exactness needs every intermediate sum of every history to be representable; the failures need particular magnitudes", "anchors": ["AdvancedLibraryCpp/structures/fenwick_tree.h fenwick_tree_t", "AdvancedLibraryCpp/tools/math_operation.h sum_t"]}
{"id": "C140", "title": "Missing term of a geometric sequence of doubles", "statement": "For a sequence of doubles in which every term is the one before times the factor, rounded, with one term left out or none: find_missing_geometric_in_sorted never answers anything but the missing term, whatever std::pow computes. If the first term is missing it is answered. With ten elements or more, a missing term is answered exactly if it is in the middle, in the middle of the right half, or directly after one of these, and its successor is beyond the tolerance; otherwise, also if nothing is missing, an iterator leaves the range. (Refuted: every missing term is found; one in the middle always is; sequences of the doubles nearest to the exact terms, none missing, are not said to lack one.)", "quantifier": "all doubles for start, factor and tolerance, every length and gap, every std::pow", "why_tests_cant": "depends on the rounding of every product and sum; reading beyond the end need not show in a test", "anchors": ["AdvancedLibraryCpp/classic/sequences/missing_element.h find_missing_geometric_in_sorted"]}
{"id": "C141", "title": "Integer geometric search with a power computed in double", "statement": "find_missing_geometric_in_sorted over integers never answers anything but the missing term, whatever lower * std::pow(factor, k) gives. With a std::pow that is exact where the result is a double, types of up to 54 bits are not affected by the conversion to double: with three to eight elements every missing term before the last is found, with more those at the positions reached by halving. (Refuted for 64 bits: with terms beyond 2^53 a valid sequence with a missing term is taken for invalid.)", "quantifier": "every width up to 54 bits, all starts, factors, lengths and gaps; witness for 64 bits", "why_tests_cant": "the rounding shows only for particular magnitudes, and only in the branch taken", "anchors": ["AdvancedLibraryCpp/classic/sequences/missing_element.h find_missing_geometric_in_sorted"]}
{"id": "C142", "title": "Exceptions in disjoint sets", "statement": "Insertions into a union_find that throw (allocation, copy or hash of an element) and calls of join_sets that throw do not change the answer of any other call, as long as no call asks for an element whose insertion failed; except for emplace throwing in its last allocation. An element whose insertion failed after the map was extended counts as present, cannot be inserted again, and asking for its set reads outside the vectors; after the next insertion it is an alias of the element inserted then. If emplace throws in its last allocation, asking for the element inserted last is undefined for ever. If union_set::resize throws between its vectors, repeating it does nothing, the new ids count as present but their sets are read outside the vector, old ids are not affected, and after a larger resize the ids in between are in the set of 0. (Refuted: a failed insertion leaves everything as it was; elements that were never joined are in different sets.)", "quantifier": "every history before and after the exception, every element type, every place that throws, any number of exceptions", "why_tests_cant": "needs an exception in each allocation and copy, in every state, followed by every continuation", "anchors": ["AdvancedLibraryCpp/structures/union_find.h union_find_t::insert", "AdvancedLibraryCpp/structures/union_find.h union_find_t::emplace", "AdvancedLibraryCpp/structures/union_set.h union_set_t::resize"]}
{"id": "C143", "title": "Segment trees with any join", "statement": "Without updates, and for a join that need not be associative, build followed by query(s, e) gives the elements of the sorted, clamped range, in order, joined with brackets that depend only on the number of elements and the range, nested at most ceil(log2 n) deep. Queries change nothing, so that repeated queries give the same answer; elements outside of the range play no role; what the tree held before plays no role. (Refuted: the elements are joined from left to right.)", "quantifier": "every element, value and update type, every transform without active updates, every vector below 2^60 elements, every range, every earlier content of the tree", "why_tests_cant": "tests use associative joins, for which all brackets agree; the bracketing is a statement about all joins at once", "anchors": ["AdvancedLibraryCpp/structures/segment_tree.h segment_tree_t::_range_query", "AdvancedLibraryCpp/structures/segment_tree.h segment_tree_t::build"]}
{"id": "C144", "title": "Signed overflow in segment trees", "statement": "For sums of signed integers: if the sum of every run of neighbours is a value of the type (in particular if the magnitudes add up to one), neither building nor any query overflows and every answer is exact. (Refuted: it suffices that all elements and all sums from the left are values of the type.)", "quantifier": "every width, all elements below 2^60, all ranges", "why_tests_cant": "overflow depends on which neighbours the tree joins, for all sizes and values", "anchors": ["AdvancedLibraryCpp/structures/segment_tree.h segment_tree_t::_range_query", "AdvancedLibraryCpp/structures/segment_tree.h segment_tree_t::build"]}
{"id": "C145", "title": "Sums and minima of doubles in segment trees", "statement": "A sum query over finite doubles differs from the exact sum of the range by at most ceil(log2 n) * 2^-52 times the sum of the magnitudes in the range, if it is finite, and it is finite if that sum is below 2^1023. Integers whose sums of neighbours stay within 2^53 are added exactly. A NaN in the range gives NaN. Minima of numbers (with infinities) are exact. (Refuted: neighbouring ranges add up to their union; a minimum with a NaN in the range is NaN or the least number.)", "quantifier": "all finite doubles, all sizes below 2^60, all ranges", "why_tests_cant": "rounding errors depend on all elements at once; a bound needs a proof", "anchors": ["AdvancedLibraryCpp/structures/segment_tree.h segment_tree_t::_range_query", "AdvancedLibraryCpp/structures/segment_tree.h segment_tree_t::build", "AdvancedLibraryCpp/tools/math_operation.h minimum_t"]}
{"id": "C146", "title": "Rounding errors of a Fenwick tree of doubles", "statement": "After any history of builds, updates, queries and shrinking with finite doubles, a range query answers a finite double that differs from the exact sum of the exact elements by at most (number of values passed + 65) * 2^-51 times the magnitude of everything ever added to the elements up to the end of the range, if all magnitudes together are below 2^1021. (Refuted: the error is small compared with the elements of the range; an error disappears when the value that caused it is subtracted again.)", "quantifier": "all finite doubles, all histories with fewer than 2^52 - 64 values, all ranges", "why_tests_cant": "rounding errors accumulate over the history and depend on all values at once", "anchors": ["AdvancedLibraryCpp/structures/fenwick_tree.h fenwick_tree_t::update", "AdvancedLibraryCpp/structures/fenwick_tree.h fenwick_tree_t::query", "AdvancedLibraryCpp/tools/math_operation.h sum_t"]}
{"id": "C147", "title": "Rounding error of max_sum_of over doubles", "statement": "max_sum_of over finite doubles is at most (number of elements) * 2^-52 times the sum of all magnitudes away from the greatest exact sum of neighbouring elements, where a positive first element counts twice.", "quantifier": "all non-empty sequences of at most 2^52 finite doubles with magnitudes below 2^1021 together", "why_tests_cant": "the rounded sums of all parts compete with one another; a bound needs a proof", "anchors": ["AdvancedLibraryCpp/classic/sequences/subarray.h max_sum_of"]}
{"id": "C148", "title": "Fenwick tree whose element operations throw", "statement": "A call that returns did exactly what it does when nothing throws, and no history of throwing and repeated calls is undefined. Queries never change the tree; an update or set_value that fails at its first step neither. An update that throws later has a boundary: queries before it see the new element, cells from it on are unchanged, size and is_built stay. The tree only becomes built by a build that returns. A rebuild that returns repairs every built tree and every tree shorter than the new one; otherwise a sum tree adds the new values to what the failed build left behind. (Refuted: an update that throws leaves the old or the new elements; a rebuild that throws leaves the old elements or an unbuilt tree; a build repeated after an exception builds the right tree.)", "quantifier": "all element types and operations, all histories, all places where an exception can be thrown", "why_tests_cant": "every single element operation of every call may throw, and the effect shows in later calls", "anchors": ["AdvancedLibraryCpp/structures/fenwick_tree.h fenwick_tree_t::update", "AdvancedLibraryCpp/structures/fenwick_tree.h fenwick_tree_t::rebuild", "AdvancedLibraryCpp/structures/fenwick_tree.h fenwick_tree_t::query"]}
{"id": "C149", "title": "Segment trees with updates and any join", "statement": "Let the update of a range do to each element what it says, and let a node that takes in an update hold what joining the changed elements in the tree's own order gives; the join need not be associative. Then every history of builds, queries and updates behaves like a plain array: an update changes the elements of the sorted, clamped range and nothing else, and queries and updates answer the elements of the range, in order, joined with brackets that depend only on the number of elements and the range, nested at most ceil(log2 n) deep. Queries change no later answer; how the elements came about plays no role; for an associative join the answer is the join from left to right. (Refuted: it suffices that the elements take in the update; means with multiplication then answer 3 to the update and 4 to the query that follows.)", "quantifier": "every element, value and update type, every transform that obeys the laws, every history of builds, queries and updates, every vector below 2^60 elements", "why_tests_cant": "whether a pending update shows depends on the interleaving of updates and queries and on the shape of the tree; tests use associative joins and few histories", "anchors": ["AdvancedLibraryCpp/structures/segment_tree.h segment_tree_t::_range_query", "AdvancedLibraryCpp/structures/segment_tree.h segment_tree_t::_range_update", "AdvancedLibraryCpp/structures/segment_tree.h segment_tree_t::build"]}
{"id": "C150", "title": "Exceptions in segment trees", "statement": "Let any operation of the transform (propagate, join, apply, criteria, build), any copy of a value and the growth of the heap throw, any number of times. No later call is undefined, whatever the throwing operation left in the nodes. A call that returns did exactly what it does when nothing throws. Only rebuild changes size() and is_built(); size() is the new one even if rebuild throws; a first build that throws leaves the tree unbuilt. If operations that throw leave the nodes as they were: queries that throw change no later answer; after an update that throws every element of the range has taken the change in or not, no other element changed, queries of one position answer these elements and later updates act on them. A rebuild that returns makes every tree behave as newly built, whatever happened before. (Refuted: after an update that throws queries agree with each other: the answer for the whole range is stale until another query passes; a rebuild that throws leaves the old elements, or a tree that is not built; a propagate that throws half way does no harm.)", "quantifier": "every element, value and update type, every transform, every history of builds, queries and updates, every place and number of exceptions", "why_tests_cant": "an exception can come from each of the O(log n) operations of each call, and its effect shows only in later calls; the tests have no transform that throws", "anchors": ["AdvancedLibraryCpp/structures/segment_tree.h segment_tree_t::_range_query", "AdvancedLibraryCpp/structures/segment_tree.h segment_tree_t::_range_update", "AdvancedLibraryCpp/structures/segment_tree.h segment_tree_t::build"]}
{"id": "C151", "title": "Traversals with a callback that throws", "statement": "If the callback throws, in_order, pre_order and pos_order of binary and k-ary nodes and the breadth and depth first searches make no further call: the calls made are those made when the callback answers instead of throwing, up to and including the first that throws, and the exception passes through. If no call throws, the traversal makes the same calls and returns the same number. A callback that throws at the first node it looks for and else answers false sees exactly the nodes of the traversal's order up to that node; if there is none, all of them. A k-ary in_order that an exception ended does not show in later ones, though its static variable survives. (Refuted: answering true does what throwing does.)", "quantifier": "every binary and k-ary tree, every callback that depends on the node and on all earlier calls, every value of the static variable", "why_tests_cant": "all shapes, all callbacks and all places of the exception; no test has a callback that throws", "anchors": ["AdvancedLibraryCpp/structures/tree.h in_order, pre_order, pos_order", "AdvancedLibraryCpp/structures/tree.h breadth_first_search, depth_first_search", "AdvancedLibraryCpp/structures/binary_tree.h in_order, pre_order, pos_order"]}
{"id": "C152", "title": "Segment trees rebuilt from nothing", "statement": "A rebuild from an empty vector, or of no elements of one, only makes size() 0: is_built() stays, and every history with such rebuilds is defined. Queries and updates of positions within the old array answer and act as if it had not happened. Calls that reach beyond it are no longer clamped: they count the last element as the default value and leave it unchanged, and answer the default value if they lie beyond it altogether. The next rebuild from a vector with elements makes the tree answer as a new one. (Refuted: positions beyond the end are clamped, as they are otherwise.)", "quantifier": "every lawful transform, every history of queries, updates and rebuilds of fewer than 2^60 elements", "why_tests_cant": "all histories, arrays and ranges; the size that wraps below zero shows only for ranges beyond the end", "anchors": ["AdvancedLibraryCpp/structures/segment_tree.h segment_tree_t::build", "AdvancedLibraryCpp/structures/segment_tree.h segment_tree_t::query, query_update", "AdvancedLibraryCpp/structures/segment_tree.h segment_tree_t::_range_query, _range_update"]}
{"id": "C153", "title": "Exceptions in the array heap", "statement": "Let moves and constructions of elements throw at any place of swap, swap_with_left_child, swap_with_right_child, set_left, set_right and set_root. A call that returns did what it does otherwise. A call whose at() throws changed nothing and leaves the value with the caller. Whatever throws, a swap touches no other element than the two; a store none but its own position, except that the array may have grown by default elements. If moves that throw leave source and target as they were, a swap that throws changed nothing, or lost the element at the position, whose parent is then in place or in its place; over a history of swaps no more elements are lost than exceptions were thrown; a store that throws leaves the value with the caller. (Refuted: a swap that throws keeps the elements; a store that throws keeps the size.)", "quantifier": "every element type, every array, position, value and history of swaps, every place and number of exceptions", "why_tests_cant": "an exception can come from each of the three moves of each swap; heap.h has no tests", "anchors": ["AdvancedLibraryCpp/structures/heap.h heap_t::swap", "AdvancedLibraryCpp/structures/heap.h heap_t::set_left, set_right, set_root", "AdvancedLibraryCpp/structures/heap.h heap_t::swap_with_left_child, swap_with_right_child"]}
{"id": "C154", "title": "Command managers that are copied", "statement": "Let a program construct, call, copy, move, assign and destroy any number of command managers. Without copies, undo and commands stored twice it is defined, and each command is deleted once, at the latest with its manager, or still held. No program throws or hangs. Once a manager that holds a command is copied, or moved or assigned to another, no defined execution ends both without assigning to one of them. An assignment never deletes the commands the target alone held; assigning a manager to itself changes nothing. (Refuted: copies are independent; an assignment deletes what the target held; a manager that is moved from gives its commands away.)", "quantifier": "every program over any number of managers", "why_tests_cant": "all programs; double deletion and leaks show in no result; command.h has no tests", "anchors": ["AdvancedLibraryCpp/structures/command.h command_manager_t::~command_manager_t", "AdvancedLibraryCpp/structures/command.h command_manager_t::store", "AdvancedLibraryCpp/structures/command.h command_manager_t::_first, _second"]}
{"id": "C155", "title": "Priority queues of pointers", "statement": "pointer_comparison orders pointers as their objects, for shared and unique pointers and for pointers to shared pointers, and is a strict weak order of pointers to objects if the given order is one. Any container that only compares its elements does with the pointers what it would do with the objects; a call is undefined exactly if it compares an empty or dangling pointer. Changes of objects that are not in the container are not noticed, a message sent twice is not before itself. A message queue with this order takes a message with a greatest object of those waiting, as long as the objects do not change. (Refuted: a waiting message keeps its place when its object changes; empty pointers have a place.)", "quantifier": "every order, memory, container call, and every interleaving of the message queue", "why_tests_cant": "all orders, memories and containers; an order that is not strict weak shows only with some contents of the heap", "anchors": ["AdvancedLibraryCpp/concurrency/message_queue.h pointer_comparison", "AdvancedLibraryCpp/concurrency/message_queue.h message_queue_t::pop", "AdvancedLibraryCpp/concurrency/message_queue.h message_queue_t::receive_message"]}
