{"id": "C01", "title": "vector behaves as a sequence under every operation history", "statement": "For any number of cest::vector objects and any history of default/count/initializer-list/copy/move construction, copy assignment (including self-assignment), move assignment, swap, push_back of a value that is not an element of the vector, pop_back on a non-empty vector, resize, reserve, clear, erase of a valid range, element writes and destruction, every observation (size, empty, operator[], front, back, iteration) is the one made on plain mathematical sequences, and no operation has undefined behaviour. Distinct vectors never influence each other.", "quantifier": "all element types with non-throwing copies, all numbers of vectors, all finite operation histories, all indices", "why_tests_cant": "the state space of histories over several interacting vectors is infinite and aliasing (self-assignment, swap) multiplies it", "anchors": ["include/cest/vector.hpp: vector (all members)"]}
{"id": "C02", "title": "vector destroys every element exactly once and leaks nothing", "statement": "Throughout any history every element constructed in a vector's storage is destroyed exactly once, no raw storage is ever read or destroyed, and after the vectors are destroyed every block they allocated has been returned to the allocator with the size it was allocated with.", "quantifier": "all histories as in C01, all element types with non-throwing copies", "why_tests_cant": "leaks and double destructions show only for particular capacity/size combinations; a test samples a few", "anchors": ["include/cest/vector.hpp: ~vector, reserve, clear, resize, erase, pop_back, operator="]}
{"id": "C03", "title": "vector capacity discipline", "statement": "size() never exceeds capacity(); capacity never shrinks; after reserve(n), capacity() >= n and push_backs up to capacity() never reallocate, so data() and existing element addresses stay valid.", "quantifier": "all vectors in all reachable states, all reserve arguments, all push_back sequences that fit", "why_tests_cant": "must hold for each reachable (size, capacity) pair", "anchors": ["include/cest/vector.hpp: reserve, push_back, capacity, data"]}
{"id": "C04", "title": "vector push_back growth is geometric", "statement": "n push_backs on an empty default-constructed vector leave capacity() at most 2n-1 (a power of two >= n) and perform at most 1+ceil(log2 n) allocations.", "quantifier": "all n >= 1", "why_tests_cant": "asymptotic statement over unbounded n", "anchors": ["include/cest/vector.hpp: push_back, reserve"]}
{"id": "C05", "title": "vector::at is total: element or out_of_range", "statement": "v.at(i) returns a reference to the i-th element when i < size() and throws std::out_of_range otherwise, changing nothing in either case; it never has undefined behaviour.", "quantifier": "all vectors, all indices", "why_tests_cant": "index space and states unbounded", "anchors": ["include/cest/vector.hpp: at"]}
{"id": "C06", "title": "vector gives the strong guarantee when allocation fails", "statement": "If the allocator throws during push_back, reserve, resize, or copy assignment, the exception propagates, the vector keeps exactly its previous contents, size, capacity and element addresses, and no memory is leaked. If it throws during copy or count construction no object and no memory is left behind.", "quantifier": "all vectors, all operations, every point at which the allocator may fail", "why_tests_cant": "each failure point is a distinct execution; tests would have to inject every one", "anchors": ["include/cest/vector.hpp: push_back, reserve, resize, vector(const vector&), operator="]}
{"id": "C07", "title": "vector survives a throwing element copy", "statement": "If an element's copy constructor throws while a vector copies elements (copy construction, reallocation, push_back), no unconstructed storage is ever destroyed or read, and no element or block is leaked.", "quantifier": "all vectors, every element copy as a throw point", "why_tests_cant": "every throw point is a separate path", "anchors": ["include/cest/vector.hpp: vector(const vector&), vector(size_type), reserve, ~vector"]}
{"id": "C08", "title": "vector::push_back accepts a reference to its own element", "statement": "v.push_back(v[i]) appends a copy of the i-th element for every valid i and every state of v.", "quantifier": "all vectors, all i < size(), all capacities", "why_tests_cant": "the failure needs size()==capacity() and may still appear to work", "anchors": ["include/cest/vector.hpp: push_back(const value_type&), push_back(value_type&&), reserve"]}
{"id": "C09", "title": "vector equality is sequence equality", "statement": "x == y holds exactly when both vectors have the same length and elementwise equal contents, regardless of capacity; the comparison reads only live elements and modifies nothing.", "quantifier": "all pairs of vectors, including a vector with itself", "why_tests_cant": "pairs of unbounded sequences", "anchors": ["include/cest/vector.hpp: operator=="]}
{"id": "C10", "title": "vector::erase removes exactly the given range", "statement": "v.erase(first,last) with begin<=first<=last<=end removes exactly the elements in [first,last), keeps the order and values of the others, returns an iterator to the element that followed the range, and keeps capacity.", "quantifier": "all vectors, all valid ranges including empty and full", "why_tests_cant": "quadratically many ranges per length, unbounded lengths", "anchors": ["include/cest/vector.hpp: erase"]}
{"id": "C11", "title": "string behaves as a character sequence with a terminator", "statement": "For any history of construction from (pointer,count), C string or default, push_back, +=, append (including of itself), pop_back on non-empty, clear, reserve, element reads, data()[size()] is always the null character, size() and contents are those of the mathematical sequence, size() <= capacity(), and nothing has undefined behaviour or leaks memory.", "quantifier": "all character sequences including embedded nulls, all operation histories over any number of strings", "why_tests_cant": "unbounded histories; off-by-one terminator errors depend on exact capacity coincidences", "anchors": ["include/cest/string.hpp: basic_string (all members)"]}
{"id": "C12", "title": "copying a string preserves it", "statement": "A copy constructed or copy assigned string compares equal to its source and is independent of it.", "quantifier": "all strings (including those with embedded nulls), all prior states of the assignee", "why_tests_cant": "needs strings with arbitrary embedded content and arbitrary capacities", "anchors": ["include/cest/string.hpp: basic_string(const basic_string&), operator="]}
{"id": "C13", "title": "string assignment tolerates aliasing", "statement": "s = s, and s = p where p points into s's own buffer, leave s holding the sequence it denoted before the assignment, for every state of s.", "quantifier": "all strings in all (size, capacity) states", "why_tests_cant": "failure depends on exact capacity reached through history", "anchors": ["include/cest/string.hpp: operator=(const CharT*), operator=(const basic_string&)"]}
{"id": "C14", "title": "string::find of a substring is the first occurrence", "statement": "s.find(t,pos,n) returns the smallest i >= pos with s[i..i+n) equal to the first n characters of t, or npos when there is none; reads stay inside both buffers.", "quantifier": "all s, t, pos, n", "why_tests_cant": "triples of unbounded data", "anchors": ["include/cest/string.hpp: find(const CharT*, size_type, size_type), find(const CharT*, size_type), find(const basic_string&, size_type)"]}
{"id": "C15", "title": "string::find of a character honours the start position", "statement": "s.find(ch,pos) returns the smallest i >= pos with s[i]==ch or npos.", "quantifier": "all s, ch, pos", "why_tests_cant": "must hold for all start positions", "anchors": ["include/cest/string.hpp: find(CharT, size_type)"]}
{"id": "C16", "title": "string comparison is lexicographic", "statement": "compare returns a negative, zero or positive value exactly when the left sequence is lexicographically (unsigned char order, shorter prefix first) less, equal or greater; ==, != and < agree with it, both against strings and null-terminated arrays; hence < is a strict total order on strings. The length difference is clamped to int without changing its sign.", "quantifier": "all pairs/triples of strings, lengths up to 2^63", "why_tests_cant": "order laws quantify over triples", "anchors": ["include/cest/string.hpp: compare, _S_compare, operator==, operator!=, operator<"]}
{"id": "C17", "title": "string construction from an input-iterator range", "statement": "Constructing a string from an input range yields exactly the range's characters followed by a terminator for every range, including the empty one, with no undefined behaviour or leak.", "quantifier": "all finite ranges", "why_tests_cant": "buffer regrowth points recur at unboundedly many lengths", "anchors": ["include/cest/string.hpp: basic_string(InputIt, InputIt, const Allocator&)"]}
{"id": "C18", "title": "string::push_back accepts a reference to its own character", "statement": "s.push_back(s[i]) appends the i-th character for every state of s.", "quantifier": "all strings, all i < size()", "why_tests_cant": "failure needs size()==capacity()", "anchors": ["include/cest/string.hpp: push_back, reserve"]}
{"id": "C19", "title": "string operations are unchanged by allocation failure", "statement": "If allocation fails in push_back, append or reserve the string keeps its contents, capacity and buffer; if it fails in assignment the string remains valid (destructible, readable).", "quantifier": "all strings, every allocation failure point", "why_tests_cant": "each failure point is a separate execution", "anchors": ["include/cest/string.hpp: push_back, append, reserve, operator="]}
{"id": "C20", "title": "list behaves as a sequence under every operation history", "statement": "For any number of cest::list objects and any history of construction, copy construction, assignment from a different list, push/pop at both ends, insert/emplace/erase at any valid position, clear and destruction, forward traversal, backward traversal (exactly the reverse), front, back, size and empty are those of mathematical sequences; no operation has undefined behaviour.", "quantifier": "all element types, all numbers of lists, all histories, all positions", "why_tests_cant": "pointer-linked states are unbounded; a broken back-link shows only on later reverse traversal", "anchors": ["include/cest/list.hpp: list, insert, emplace, erase, push_back, push_front, pop_back, pop_front, clear"]}
{"id": "C21", "title": "list iterators stay valid across inserts and erases of other elements", "statement": "insert and erase leave every other element at the same address with the same value and at the expected neighbouring position; insert returns an iterator to the new element, erase to the follower of the erased element.", "quantifier": "all lists, all positions, all held iterators", "why_tests_cant": "any subset of iterators may be held across any history", "anchors": ["include/cest/list.hpp: insert, emplace, erase, iter"]}
{"id": "C22", "title": "list returns every node to the allocator exactly once", "statement": "Through any history each node's value is destroyed and its storage deallocated exactly once; after destruction nothing remains allocated.", "quantifier": "all histories", "why_tests_cant": "leak freedom is a property of all histories", "anchors": ["include/cest/list.hpp: clear, erase, ~list, operator="]}
{"id": "C23", "title": "assigning a list, set, map, deque or vector to itself changes nothing", "statement": "x = x leaves the contents of x unchanged for each container.", "quantifier": "all containers, all contents", "why_tests_cant": "aliasing through references to the same object, any contents", "anchors": ["include/cest/list.hpp: operator=", "include/cest/set.hpp: operator=", "include/cest/map.hpp: operator=", "include/cest/deque.hpp: operator=", "include/cest/vector.hpp: operator=", "include/cest/forward_list.hpp: operator=", "include/cest/string.hpp: operator="]}
{"id": "C24", "title": "list operations under allocation failure", "statement": "If node allocation fails in insert/push/emplace the list is exactly as before and nothing leaks; if it fails inside the copy constructor, everything allocated so far is released.", "quantifier": "all lists, every allocation failure point", "why_tests_cant": "each failure point is a separate path", "anchors": ["include/cest/list.hpp: insert, emplace, list(const list&)"]}
{"id": "C25", "title": "forward_list behaves as a sequence under every operation history", "statement": "For any number of cest::forward_list objects and any history of construction, copy construction, copy assignment (including self), swap, push_front, pop_front on non-empty, insert_after, erase_after (single and range), clear and destruction, traversal, front and empty are those of mathematical sequences with no undefined behaviour.", "quantifier": "all element types, all histories, all positions", "why_tests_cant": "unbounded pointer structures and histories", "anchors": ["include/cest/forward_list.hpp: forward_list (all members)"]}
{"id": "C26", "title": "forward_list releases every node exactly once", "statement": "Each node's value is destroyed and its storage deallocated exactly once through any history; nothing remains after destruction; erase_after(first,last) frees exactly the nodes strictly between.", "quantifier": "all histories, all ranges", "why_tests_cant": "leak freedom over all histories", "anchors": ["include/cest/forward_list.hpp: erase_after, clear, ~forward_list, operator="]}
{"id": "C27", "title": "forward_list copy is safe when allocation fails", "statement": "If allocation fails while copying a forward_list, the source and the assignee are unchanged and nothing leaks.", "quantifier": "all lists, every allocation failure point", "why_tests_cant": "each failure point is a separate path", "anchors": ["include/cest/forward_list.hpp: forward_list(const forward_list&), operator="]}
{"id": "C28", "title": "set/map insert adds exactly when the key is absent", "statement": "insert(v) returns true and makes the container the old contents plus v exactly when no element equivalent to v's key is present; otherwise it returns false, changes nothing, and the returned iterator designates the element that prevented insertion. size() counts elements, find(k) returns the element equivalent to k or end().", "quantifier": "all strict weak orderings, all containers reachable by any history, all keys", "why_tests_cant": "tree shapes and comparators are unbounded", "anchors": ["include/cest/set.hpp: insert, find, size, empty", "include/cest/map.hpp: insert, find, size, empty"]}
{"id": "C29", "title": "set/map iteration is sorted and complete", "statement": "Iterating from begin() with ++ until end() visits every element exactly once in strictly increasing key order and terminates; for map, when the key type's operator== is reflexive and never relates keys ordered by the comparator (for other operator== see C36).", "quantifier": "all containers reachable by any history of inserts, copies and clears", "why_tests_cant": "successor walks depend on the exact shape and parent links left by rotations", "anchors": ["include/cest/set.hpp: const_tree_iter::operator++, begin, end", "include/cest/map.hpp: tree_iter::operator++, const_tree_iter::operator++, begin, end"]}
{"id": "C30", "title": "set/map stay balanced", "statement": "After any history of inserts the tree is a red-black tree: the root is black, no red node has a red child, all root-to-leaf paths carry the same number of black nodes; its height is at most 2*log2(n+1), so find/insert/++ take O(log n) node visits.", "quantifier": "all insertion orders, all n", "why_tests_cant": "n! insertion orders", "anchors": ["include/cest/set.hpp: insert, rotate_left, rotate_right", "include/cest/map.hpp: insert, rotate_left, rotate_right"]}
{"id": "C31", "title": "tree rotations preserve order and links", "statement": "rotate_left/rotate_right through any reference to a subtree pointer (root, left child or right child) preserve the in-order sequence and re-establish every parent and child link; the values move with their node addresses unchanged.", "quantifier": "all trees, all positions, with or without the inner grandchild", "why_tests_cant": "link surgery on arbitrary shapes", "anchors": ["include/cest/set.hpp: rotate_left, rotate_right", "include/cest/swap.hpp: nary::swap"]}
{"id": "C32", "title": "set/map inserts never invalidate iterators", "statement": "insert leaves every existing element at its address with its value; begin() is always the least element.", "quantifier": "all containers, all held iterators, all inserted values", "why_tests_cant": "any held iterator, any later insert", "anchors": ["include/cest/set.hpp: insert", "include/cest/map.hpp: insert"]}
{"id": "C33", "title": "set/map copy is equal and independent, clear releases everything", "statement": "A copy has the same elements, modifying one does not affect the other; clear and destruction destroy and deallocate each node exactly once and leave an empty usable container.", "quantifier": "all containers and histories", "why_tests_cant": "unbounded structures and histories", "anchors": ["include/cest/set.hpp: set(const set&), operator=, clear, ~set", "include/cest/map.hpp: map(const map&), operator=, clear, ~map"]}
{"id": "C34", "title": "set/map insert gives the strong guarantee on allocation failure", "statement": "If node allocation throws inside insert, the container is unchanged (elements, links, size, begin) and nothing leaks.", "quantifier": "all containers, keys and failure points", "why_tests_cant": "each failure point is a separate path", "anchors": ["include/cest/set.hpp: insert", "include/cest/map.hpp: insert"]}
{"id": "C35", "title": "set/map insert survives a throwing element copy", "statement": "If copying the element into the new node throws, the container is left in a usable state in which it can be iterated and destroyed.", "quantifier": "all containers and keys", "why_tests_cant": "throw point inside node construction", "anchors": ["include/cest/set.hpp: insert", "include/cest/map.hpp: insert"]}
{"id": "C36", "title": "map iteration depends only on the comparator", "statement": "Iterating a map visits all elements in comparator order for every key type and every strict weak ordering comparator, whatever the key type's operator== is.", "quantifier": "all key types, comparators and operator== definitions", "why_tests_cant": "quantifies over user-supplied equality and comparators", "anchors": ["include/cest/map.hpp: tree_iter::operator++, const_tree_iter::operator++"]}
{"id": "C37", "title": "deque behaves as a sequence under every operation history", "statement": "For any history of push_front, push_back, pop_front, pop_back, clear, copy construction and assignment, operator[], front, back, size are those of the mathematical sequence, with no undefined behaviour.", "quantifier": "all histories, all sizes, crossing any number of chunk boundaries", "why_tests_cant": "errors appear only when specific chunk boundaries are recrossed", "anchors": ["include/cest/deque.hpp: push_back_helper, push_front_helper, pop_back, pop_front, clear, operator[]"]}
{"id": "C38", "title": "deque histories without shrinking at the back are safe", "statement": "Any history of push_front, push_back and pop_front (no pop_back, no clear, no assignment) on a fresh deque matches the mathematical sequence and never touches storage out of bounds.", "quantifier": "all such histories of any length", "why_tests_cant": "unbounded histories crossing chunk boundaries", "anchors": ["include/cest/deque.hpp: push_front, push_back, pop_front, operator[], front, back"]}
{"id": "C39", "title": "deque iteration visits all elements", "statement": "For every deque, iterating from begin() with ++ until it equals end() visits exactly the elements in order and terminates without undefined behaviour; -- is the inverse of ++; the difference of two iterators is their distance.", "quantifier": "all deques, all iterator pairs", "why_tests_cant": "failures occur only at sizes that end exactly on a chunk boundary", "anchors": ["include/cest/deque.hpp: iter::operator++, iter::operator--, operator-, begin, end"]}
{"id": "C40", "title": "deque destroys every element and frees every chunk exactly once", "statement": "Through any safe history every element is destroyed exactly once and on destruction every chunk is returned to the allocator.", "quantifier": "all histories", "why_tests_cant": "leak freedom over all histories", "anchors": ["include/cest/deque.hpp: clear, ~deque, pop_back, pop_front"]}
{"id": "C41", "title": "queue is FIFO", "statement": "For every history of push and pop (on non-empty) starting from an empty queue, elements leave in exactly the order they entered; front is the oldest, back the newest, size the difference of pushes and pops.", "quantifier": "all push/pop histories of any length", "why_tests_cant": "unbounded histories across chunk boundaries", "anchors": ["include/cest/queue.hpp: queue, push, pop, front, back, size, empty", "include/cest/deque.hpp: push_back, pop_front"]}
{"id": "C42", "title": "queue memory is proportional to its size", "statement": "The number of storage chunks held by a queue is bounded by a constant plus its size divided by the chunk size, whatever the history.", "quantifier": "all push/pop histories", "why_tests_cant": "growth is visible only over long histories", "anchors": ["include/cest/queue.hpp: push, pop", "include/cest/deque.hpp: pop_front, push_back_helper"]}
{"id": "C43", "title": "unique_ptr deletes each object exactly once", "statement": "Through any history of construction, make_unique, move construction, move assignment, reset, release and destruction, each owned object is deleted exactly once, by its last owner, never while still owned; released objects are not deleted; no two unique_ptrs own the same object.", "quantifier": "all histories over any number of handles, including self move assignment", "why_tests_cant": "ownership histories are unbounded", "anchors": ["include/cest/memory.hpp: unique_ptr (all members), make_unique"]}
{"id": "C44", "title": "unique_ptr move leaves the source empty and transfers the object", "statement": "After move construction the source is empty and the target owns the object at the same address; move assignment exchanges ownership, so the target's previous object stays alive in the source.", "quantifier": "all pairs of handles", "why_tests_cant": "all ownership states", "anchors": ["include/cest/memory.hpp: unique_ptr(unique_ptr<U>&&), operator=(unique_ptr&&), release, reset"]}
{"id": "C45", "title": "shared_ptr use_count equals the number of owners", "statement": "Through any history of construction from a pointer (with default or custom deleter), copy and aliasing construction from non-empty handles, and destruction, use_count() is exactly the number of live handles sharing ownership, and the deleter runs exactly once, on the originally given pointer, exactly when the last handle is destroyed.", "quantifier": "all histories over any number of handles and objects", "why_tests_cant": "sharing graphs and destruction orders are unbounded", "anchors": ["include/cest/shared_ptr.hpp: shared_ptr_base, ~shared_ptr_base, use_count"]}
{"id": "C46", "title": "shared_ptr assignment keeps ownership counts right", "statement": "a = b makes a share b's object, releases a's previous object if it was the last owner, and keeps use_count equal to the number of owners.", "quantifier": "all pairs of handles", "why_tests_cant": "requires tracking later destruction order", "anchors": ["include/cest/shared_ptr.hpp: shared_ptr_base (implicit operator=)"]}
{"id": "C47", "title": "empty shared_ptrs can be copied", "statement": "Copying a default-constructed or nullptr shared_ptr gives an empty shared_ptr.", "quantifier": "all empty handles", "why_tests_cant": "undefined behaviour may appear to work", "anchors": ["include/cest/shared_ptr.hpp: shared_ptr_base(const shared_ptr_base&)"]}
{"id": "C48", "title": "shared_ptr reference counting is schedule independent", "statement": "When several threads copy and destroy distinct shared_ptr handles sharing one object, in any interleaving, the count ends equal to the number of live handles and the object is deleted exactly once.", "quantifier": "all thread counts and schedules", "why_tests_cant": "schedules", "anchors": ["include/cest/shared_ptr.hpp: ctrl::count_, shared_ptr_base(const shared_ptr_base&), ~shared_ptr_base"]}
{"id": "C49", "title": "function calls its own copy of the callable", "statement": "cest::function<R(Args...)> built from a callable returns, on each call, what the callable would return, keeping the callable's internal state between calls in its own copy; the original callable is not modified, and the stored copy is destroyed exactly once with the function.", "quantifier": "all callables (any state type, argument and result types), all call sequences", "why_tests_cant": "stateful callables and call sequences are unbounded", "anchors": ["include/cest/functional.hpp: function, impl_f, virt_impl_f"]}
{"id": "C50", "title": "nary::swap and swapr rotate their arguments", "statement": "nary::swap(x1,...,xn) leaves x1..xn holding x2,...,xn,x1; swapr leaves xn,x1,...,x(n-1); the two are inverse, the 2-argument forms are std::swap, nothing else is written; for n<=1 nothing changes.", "quantifier": "all n, all values, all sets of distinct variables", "why_tests_cant": "variadic arity is unbounded", "anchors": ["include/cest/swap.hpp: nary::swap, nary::swapr"]}
{"id": "C51", "title": "isalnum and isupper classify every int", "statement": "isalnum(c) is non-zero (8) exactly for '0'-'9','A'-'Z','a'-'z' and isupper(c) is non-zero (256) exactly for 'A'-'Z', for every int including negatives and values above 255.", "quantifier": "all ints", "why_tests_cant": "2^32 inputs", "anchors": ["include/cest/cctype.hpp: isalnum, isupper"]}
{"id": "C52", "title": "reading a string stream delivers its characters in order", "statement": "For an istringstream/stringstream over any string, any sequence of get, unget and read calls delivers exactly the characters at the cursor, get/read advance and unget retreats by exactly the number delivered, gcount() reports that number, and the string is never read outside its bounds.", "quantifier": "all strings, all call sequences", "why_tests_cant": "unbounded histories of reads and ungets", "anchors": ["include/cest/istream.hpp: get, unget, read, gcount", "include/cest/streambuf.hpp: sbumpc, sgetc, snextc, sungetc, xsgetn, uflow", "include/cest/sstream.hpp: basic_stringbuf, basic_istringstream, basic_stringstream"]}
{"id": "C53", "title": "stream state bits report the outcome of reads", "statement": "get at the end sets eofbit and failbit and leaves the target unchanged; a short read sets eofbit and failbit; unget at the start sets badbit; once a stream is not good, get and read deliver nothing; good/eof/fail/bool are consistent with rdstate and unget clears only eofbit.", "quantifier": "all stream states, all operations", "why_tests_cant": "state/operation histories are unbounded", "anchors": ["include/cest/istream.hpp: get, unget, read, sentry", "include/cest/basic_ios.hpp: clear, setstate, good, eof, fail, operator bool"]}
{"id": "C54", "title": "get after unget returns the same character", "statement": "After a successful get(c), unget() followed by get(d) on a good stream gives d == c and restores the cursor and state.", "quantifier": "all strings and cursor positions", "why_tests_cant": "all positions of all strings", "anchors": ["include/cest/istream.hpp: get, unget", "include/cest/streambuf.hpp: sbumpc, sungetc"]}
{"id": "C55", "title": "stream exceptions mask is honoured", "statement": "clear/setstate/exceptions(mask) throw exactly when the resulting state intersects the mask; without a buffer badbit is always set; setstate never clears bits.", "quantifier": "all states and masks", "why_tests_cant": "2^k state/mask combinations and histories", "anchors": ["include/cest/basic_ios.hpp: clear, setstate, exceptions, init, rdstate"]}
{"id": "C56", "title": "str(s) makes the stream read s", "statement": "After str(s) the stream reads exactly the characters of s from the beginning, whatever the earlier contents.", "quantifier": "all strings including embedded nulls, all prior states", "why_tests_cant": "arbitrary contents and prior states", "anchors": ["include/cest/sstream.hpp: basic_stringbuf::str, _M_stringbuf_init, _M_sync", "include/cest/string.hpp: operator="]}
{"id": "C57", "title": "fmemopen/fread read back the buffer", "statement": "fread(buf,1,n,fmemopen(p,len)) returns min(n,len) and copies exactly that prefix; repeated freads continue where the last stopped.", "quantifier": "all buffers, lengths and request sequences", "why_tests_cant": "unbounded buffers and request sequences", "anchors": ["include/cest/cstdio.hpp: fmemopen, fread, fclose"]}
{"id": "C58", "title": "output operators write in order and only at run time", "statement": "A chain of << on cout/cerr/clog performs, at run time, exactly the corresponding standard stream insertions in order and nothing on any other stream; during constant evaluation it performs no I/O; each << returns the stream it was applied to.", "quantifier": "all chains and streams", "why_tests_cant": "arbitrary chains", "anchors": ["include/cest/runtime_ostream.hpp: impl::runtime_ostream", "include/cest/ostream.hpp: operator<<, endl"]}
{"id": "C59", "title": "complex arithmetic satisfies the field laws", "statement": "Over exact arithmetic, +,-,* on cest::complex are those of the complex numbers for every operand including when an operand is the object itself (z *= z, z /= z), mixed scalar overloads agree with converting the scalar, and (x/y)*y == x for y != 0.", "quantifier": "all operands", "why_tests_cant": "algebraic laws quantify over all values", "anchors": ["include/cest/complex.hpp: operator+=, operator-=, operator*=, operator/=, operator+, operator-, operator*, operator/"]}
{"id": "C60", "title": "complex norm, conj and equality", "statement": "norm(z)=re^2+im^2=Re(z*conj z), norm is multiplicative, conj is an involution distributing over + and *; == is componentwise and mixed == agrees with conversion.", "quantifier": "all operands over a commutative ring", "why_tests_cant": "algebraic laws", "anchors": ["include/cest/complex.hpp: norm, conj, operator==, operator!="]}
{"id": "C61", "title": "complex integer power is repeated multiplication", "statement": "pow(z,n) equals z multiplied by itself n times for n >= 0 and 1/(z^|n|) for n < 0, for every int n including INT_MIN.", "quantifier": "all z, all int n", "why_tests_cant": "all exponents", "anchors": ["include/cest/complex.hpp: __complex_pow_unsigned, pow(const complex&, int)"]}
{"id": "C62", "title": "complex abs is the modulus", "statement": "In exact arithmetic with an exact square root, abs(z)=sqrt(re^2+im^2) for every z, with 0 for 0 and no division by zero.", "quantifier": "all z", "why_tests_cant": "all values", "anchors": ["include/cest/complex.hpp: __complex_abs, abs"]}
{"id": "C63", "title": "floor and ceil round correctly", "statement": "For every finite double v with |v| < 2^31 - 1, floor(v) is the greatest integer <= v and ceil(v) the least integer >= v.", "quantifier": "all such doubles", "why_tests_cant": "2^63 doubles", "anchors": ["include/cest/cmath.hpp: floor, ceil"]}
{"id": "C64", "title": "abs/fabs on doubles", "statement": "abs(x) is x or -x and is non-negative for every non-NaN x; abs(-x) == abs(x).", "quantifier": "all doubles", "why_tests_cant": "2^64 inputs", "anchors": ["include/cest/bits/abs.hpp: abs, fabs"]}
{"id": "C65", "title": "integer power", "statement": "pow(b,n) equals b^n for every n >= 0 and 1/b^|n| for negative n > INT_MIN with b != 0 in exact arithmetic.", "quantifier": "all bases and exponents", "why_tests_cant": "all exponents", "anchors": ["include/cest/cmath.hpp: pow"]}
{"id": "C66", "title": "sqrt terminates with small relative error", "statement": "sqrt(x) returns for every non-negative double, and the result g satisfies |g*g - x| <= 0.001*g*g.", "quantifier": "all non-negative inputs", "why_tests_cant": "termination for all inputs", "anchors": ["include/cest/cmath.hpp: sqrt, sqrt_helper"]}
{"id": "C67", "title": "decimal mantissa/exponent decomposition and log", "statement": "For every x > 0, mantissa(x) is in [1,10) and mantissa(x)*10^exponent(x) = x; log(x) is within a stated error of ln(x); log(0) is -infinity and log of negatives NaN.", "quantifier": "all positive x", "why_tests_cant": "all magnitudes", "anchors": ["include/cest/cmath.hpp: mantissa, exponent, log, log_helper"]}
{"id": "C68", "title": "sin, cos, sinh, cosh approximate the real functions", "statement": "In exact arithmetic each of sin, cos, sinh, cosh terminates on every input and is within a stated error bound of the mathematical function.", "quantifier": "all real inputs", "why_tests_cant": "uncountably many inputs; recursion depth depends on the input", "anchors": ["include/cest/cmath.hpp: sin, cos, sinh, cosh, sin_helper, sinh_helper"]}
{"id": "C69", "title": "exp splits its argument exactly", "statement": "nearest(x)+fraction(x)=x with |fraction(x)| < 1, and exp(x) is within a stated relative error of e^x.", "quantifier": "all x with |x| < 2^31 - 1", "why_tests_cant": "all inputs", "anchors": ["include/cest/cmath.hpp: exp, nearest, fraction, exp_helper"]}
{"id": "C70", "title": "atan and atan2 return the right angle", "statement": "atan is odd and within a stated error of arctan for every input; atan2(y,x) lies in the right quadrant for every (y,x) not both zero.", "quantifier": "all inputs", "why_tests_cant": "all inputs", "anchors": ["include/cest/cmath.hpp: atan, atan2, atan_poly, atan_identity, atan_cmplmntry"]}
{"id": "C71", "title": "list and forward_list survive a throwing element copy", "statement": "If the element's copy constructor throws inside insert, emplace, push_back, push_front or insert_after, the container is as before and nothing leaks.", "quantifier": "all lists, all positions, every throwing copy", "why_tests_cant": "needs a throwing copy at every position, and leak detection", "anchors": ["include/cest/list.hpp: insert, emplace", "include/cest/forward_list.hpp: insert_after, push_front"]}
{"id": "C72", "title": "deque push_back and push_front survive failing allocations", "statement": "If an allocation fails inside push_back, push_front or the default constructor, bad_alloc is thrown, the deque is as before and nothing leaks.", "quantifier": "all deques, every failing allocation", "why_tests_cant": "needs a failing allocator at every point, and leak detection", "anchors": ["include/cest/deque.hpp: push_back_helper, push_front_helper, deque()"]}
{"id": "C73", "title": "deque push_back and push_front accept a reference to an own element", "statement": "d.push_back(d[i]) and d.push_front(d[i]) append the value that d[i] had before the call, for every i, even when storage is added.", "quantifier": "all deques, all element indices", "why_tests_cant": "aliasing bugs show only at chunk boundaries and may be masked by stale storage", "anchors": ["include/cest/deque.hpp: push_back, push_front"]}
{"id": "C74", "title": "deque survives a throwing element copy", "statement": "If the element's copy constructor throws inside push_back or push_front, the deque is as before.", "quantifier": "all deques, every throwing copy", "why_tests_cant": "needs a throwing copy at every position", "anchors": ["include/cest/deque.hpp: push_back, push_front"]}
{"id": "C75", "title": "copying a function object gives an equal function", "statement": "cest::function constructed from another cest::function of the same signature holds a copy of its callable.", "quantifier": "all functions", "why_tests_cant": "the copy constructor recurses; a compile-time test would have to instantiate exactly the non-const lvalue case", "anchors": ["include/cest/functional.hpp: function(F&&)"]}
{"id": "C76", "title": "shared_ptr == compares pointers", "statement": "a == b is true exactly if a and b hold the same pointer, for all shared_ptrs.", "quantifier": "all pairs of shared_ptrs", "why_tests_cant": "needs pairs of different non-null pointers", "anchors": ["include/cest/shared_ptr.hpp: shared_ptr operator bool"]}
{"id": "C77", "title": "moving a shared_ptr empties the source", "statement": "After shared_ptr b(std::move(a)), a is empty and use_count() is what it was.", "quantifier": "all shared_ptrs", "why_tests_cant": "all group sizes", "anchors": ["include/cest/shared_ptr.hpp: shared_ptr copy constructor"]}
{"id": "C78", "title": "shared_ptr survives a failing allocation", "statement": "If the control block cannot be allocated, shared_ptr(p, d) calls d(p) and throws bad_alloc.", "quantifier": "all pointers and deleters", "why_tests_cant": "needs a failing allocator and leak detection", "anchors": ["include/cest/shared_ptr.hpp: shared_ptr(U*, D)"]}
{"id": "C79", "title": "printf and fprintf write and count the formatted text", "statement": "At run time printf(format, ...) and fprintf(stream, format, ...) write exactly the text the standard functions would write, to the corresponding standard stream, and return the number of characters written; in a constant evaluation they write nothing and return 0.", "quantifier": "all formats and arguments", "why_tests_cant": "all formats; needs output capture in two evaluation modes", "anchors": ["include/cest/cstdio.hpp: printf, fprintf"]}
{"id": "C80", "title": "floor and ceil are off by at most one", "statement": "For every finite double v with |v| < 2^31 - 1, floor(v) is the greatest integer <= v or one less, ceil(v) the least integer >= v or one more; floor is right if v >= 0, if v is an integer or if v is at least 2^-21 above an integer, and correspondingly for ceil. For |v| >= 2^31 + 1, infinities and NaN both convert out of range (undefined).", "quantifier": "all doubles", "why_tests_cant": "2^64 doubles; the failing ones lie within 2^-21 of an integer", "anchors": ["include/cest/cmath.hpp: floor, ceil"]}
{"id": "C81", "title": "sqrt on doubles returns exactly for the positive numbers", "statement": "sqrt(x) returns for a double x if and only if x is positive and finite; the result g is then a positive double with |g*g - x| <= 0.001000001*g*g. For every other double (0, -0, negative numbers, infinities, NaN) it recurses without end.", "quantifier": "all doubles", "why_tests_cant": "2^64 doubles; non-termination cannot be observed", "anchors": ["include/cest/cmath.hpp: sqrt, sqrt_helper"]}
{"id": "C82", "title": "log on doubles", "statement": "log(x) is within 0.0011 of ln(x) for every positive finite double x, -infinity for 0 and -0, and NaN for every negative double including -infinity; for +infinity and NaN it recurses without end.", "quantifier": "all doubles", "why_tests_cant": "2^64 doubles; non-termination cannot be observed", "anchors": ["include/cest/cmath.hpp: log, log_helper, log_helper2, mantissa, exponent"]}
{"id": "C83", "title": "exp on doubles", "statement": "For every double x: exp(x) is within 8e-5*e^x of e^x if -710 < x <= 709.5; it is +infinity if 709.5 < x < 2^31-1 and +0 if -2^31+1 < x <= -710; for an infinite or NaN x and for |x| >= 2^31+1 the conversion to int is undefined.", "quantifier": "all doubles except those with 2^31-1 <= |x| < 2^31+1", "why_tests_cant": "2^64 doubles; undefined behaviour cannot be observed", "anchors": ["include/cest/cmath.hpp: exp, nearest, fraction, exp_helper, pow"]}
{"id": "C84", "title": "push_back of one of a vector's own elements, in every state", "statement": "v.push_back(v[i]) on a vector with size() < capacity() appends a copy of the element, with no allocation and the same data pointer. On a full vector it reads the element after freeing it (undefined), unless growing the vector throws, in which case nothing has changed.", "quantifier": "all vectors, all i, any pattern of failing allocations", "why_tests_cant": "the broken case depends on capacity and reads freed memory, which may still hold the old value", "anchors": ["include/cest/vector.hpp: push_back, reserve"]}
{"id": "C85", "title": "what a copied or assigned string holds", "statement": "A copy-constructed string, and a string assigned from another one, holds exactly the characters before the first null character of the source, which is unchanged; it compares equal to the source if and only if the source has no null character.", "quantifier": "all strings, any pattern of failing allocations for the construction", "why_tests_cant": "holds for all contents, and the exact condition under which the copy is faithful is over all strings", "anchors": ["include/cest/string.hpp: string(const string&), operator=(const string&)"]}
{"id": "C86", "title": "when assigning a pointer into itself to a string is defined", "statement": "For s = p with p = s.data() + off, where t is what p points at up to the first null: if t is shorter than the capacity and either off = 0 or t is shorter than off, s then holds t in the same buffer; in every other case the behaviour is undefined.", "quantifier": "all strings, all offsets up to size()", "why_tests_cant": "needs all overlaps of source and destination", "anchors": ["include/cest/string.hpp: operator=(const CharT*)"]}
{"id": "C87", "title": "when string::find of a character from a position is right", "statement": "s.find(ch,pos) returns the first i >= pos with s[i]==ch (or npos) if and only if ch does not occur before pos.", "quantifier": "all s, ch, pos", "why_tests_cant": "an exact condition over all strings and positions", "anchors": ["include/cest/string.hpp: find(CharT, size_type)"]}
{"id": "C88", "title": "push_back of one of a string's own characters, in every state", "statement": "s.push_back(s[i]) appends the character, in the same buffer, if size() < capacity(); if size() == capacity() it reads freed memory (undefined).", "quantifier": "all strings and i, in runs in which no allocation fails", "why_tests_cant": "the broken case depends on capacity and reads freed memory", "anchors": ["include/cest/string.hpp: push_back, reserve"]}
{"id": "C89", "title": "deque push_back in every state", "statement": "push_back(x) appends x and leaves a valid deque (or throws bad_alloc) unless the elements end exactly where a chunk ends and another chunk follows it. In that case it is undefined, or, if the elements end within K of the first one's position in its chunk, it returns but reading the new element is undefined.", "quantifier": "all deques with chunks of K >= 2 slots, wherever the first element lies and however many spare chunks there are", "why_tests_cant": "the outcome depends on the alignment of the contents within the chunks", "anchors": ["include/cest/deque.hpp: push_back_helper, operator[]"]}
{"id": "C90", "title": "when deque iteration, -- and iterator differences are right", "statement": "Iterating from begin() to end() visits the elements in order unless the last element is the last slot of a chunk, where it is undefined; --it steps back one element except from the first slot of a chunk, where it steps back a whole chunk; it1 - it2 is the distance if and only if the two are in the same chunk.", "quantifier": "all deques, all iterators", "why_tests_cant": "exact conditions over all positions", "anchors": ["include/cest/deque.hpp: iterator operator--, operator-, operator++, end"]}
{"id": "C91", "title": "the memory of a queue grows with every push", "statement": "Whatever the interleaving of push and pop on a fresh queue, it then holds exactly the elements pushed and not popped, in order, in ceil((K/2 + number of pushes) / K) chunks: popping never frees or reuses storage.", "quantifier": "all sequences of push and pop", "why_tests_cant": "a statement about unboundedly long runs", "anchors": ["include/cest/queue.hpp: push, pop", "include/cest/deque.hpp: pop_front, push_back_helper"]}
{"id": "C92", "title": "what every output program writes", "statement": "At run time a sequence of statements os << x1 << x2 ... writes exactly what the standard streams would for the same program with every string cut at its first null and hex, dec and oct left out. It writes what the standard says if and only if no string with a null and no such manipulator is inserted into cout, cerr or clog.", "quantifier": "all programs", "why_tests_cant": "all programs, in both directions", "anchors": ["include/cest/ostream.hpp: operator<<", "include/cest/runtime_ostream.hpp: runtime_ostream", "include/cest/ios_base.hpp: hex, dec, oct"]}
{"id": "C93", "title": "what printf and fprintf write and return", "statement": "At run time printf(format) writes the format up to its first null and returns that length, which is right if and only if it has no percent sign; fprintf with arguments writes the formatted text up to its first null and returns its full length; fprintf(stream, format) writes the format and returns 0.", "quantifier": "all formats and arguments", "why_tests_cant": "all formats; needs output capture", "anchors": ["include/cest/cstdio.hpp: printf, fprintf"]}
{"id": "C94", "title": "complex exp, cos, sin, cosh and sinh are the mathematical functions", "statement": "With exact scalar functions exp(z) turns sums into products and has derivative 1 at 0, which determines it; cos, sin, cosh and sinh are given by it through Euler's formulas. The argument and everything else is unchanged.", "quantifier": "all complex numbers", "why_tests_cant": "identities over a continuum of arguments", "anchors": ["include/cest/complex.hpp: __complex_exp, __complex_cos, __complex_sin, __complex_cosh, __complex_sinh"]}
{"id": "C95", "title": "complex log is the principal logarithm; abs, arg and polar are inverse", "statement": "With exact scalar functions, for z other than 0 log(z) is the one w with exp(w) = z and imaginary part in (-pi, pi]; polar(abs(z), arg(z)) = z; and polar(r,t) for r >= 0 has modulus r and angle t.", "quantifier": "all complex numbers other than 0", "why_tests_cant": "branch cuts; identities over a continuum", "anchors": ["include/cest/complex.hpp: __complex_log, __complex_arg, __complex_abs, polar"]}
{"id": "C96", "title": "Reading through the stream buffer moves a cursor and never touches the stream state", "statement": "Through rdbuf(), any sequence of sgetc, sbumpc, snextc, sungetc and sgetn calls on a string stream or FILE delivers the characters of the text around the cursor (-1 where there is none, a shorter block at the end), keeps the text, and changes neither rdstate(), exceptions() nor gcount(), in whatever state the stream is; pubsync() answers 0 and flush() changes nothing and does not throw, also without a buffer.", "quantifier": "for all reachable program states, all streams with a buffer, and all sequences of buffer calls", "why_tests_cant": "sequences of buffer calls mixed with stream calls are unbounded, and so are the texts", "anchors": ["include/cest/streambuf.hpp:34-88", "include/cest/basic_ios.hpp:134-136", "include/cest/ostream.hpp:145-170"]}
{"id": "C97", "title": "atan and atan2 of zeros, infinities and NaN", "statement": "atan of either zero is +0, atan of an infinity is pi/2 with its sign, atan(NaN) recurses without end; atan2 of two zeros is 0; with one argument infinite atan2 is the limit angle (0, pi/2 or pi with the sign of y); with both infinite it recurses without end; atan2(y, NaN) is 0 for every y, and atan2(NaN, x) is 0 for x not positive and recurses without end for x positive. atan(1) is off by more than 3e-5, and atan2 of a positive y can be 0 by underflow.", "quantifier": "all signs, all finite doubles and all special doubles", "why_tests_cant": "non-termination cannot be observed; combinations of special values", "anchors": ["include/cest/cmath.hpp: atan, atan2, atan_poly_helper, atan_identity, atan_cmplmntry"]}
{"id": "C98", "title": "sin and cos on doubles, rounding included", "statement": "sin and cos of every finite double return a finite double of [-1, 1]; sin x is within 1.9e-7(|x|+4) + 1.2e-11(|x|+4)^2 of the sine and cos x within 2e-7(|x|+6) + 1.3e-11(|x|+6)^2 of the cosine; a double of [0, 0.001) is its own sine; for infinities and NaN both recurse without end. sin is not odd, cos is not even and cos 0 is below 1; sin of the negative double nearest zero is below -1e-7.", "quantifier": "every double", "why_tests_cant": "2^64 doubles; rounding at every level of the recursion; non-termination cannot be observed", "anchors": ["include/cest/cmath.hpp: sin_helper, sin, cos"]}
{"id": "C99", "title": "sinh and cosh on doubles, rounding and overflow included", "statement": "sinh x is within 1.8e-7 |x| cosh x of the hyperbolic sine for |x| up to 710 and an infinity with the sign of x from 711 on; it is odd to the last bit and the identity below 0.001. cosh x is within (6e-4 + 2e-7|x|) cosh x for |x| up to 355 and even to the last bit; from 356 on, where the hyperbolic cosine is still far below the largest double, it recurses without end. For infinities and NaN both recurse without end.", "quantifier": "every double", "why_tests_cant": "2^64 doubles; rounding at every level of the recursion; non-termination cannot be observed", "anchors": ["include/cest/cmath.hpp: sinh_helper, sinh, cosh, sqrt_helper"]}
{"id": "C100", "title": "the number of calls of sin and sinh", "statement": "sin x for x >= 0 and sinh x make between 2^(k+2)-1 and 2^(j+2)-1 calls of their helper, for 0.001 (3+1e-9)^k <= |x| <= 0.001 (3-1e-9)^j, since each level computes the same recursive call twice; for negative x the lower bound holds for sin. The count returns exactly when the function does.", "quantifier": "every finite double", "why_tests_cant": "the count is astronomical for large arguments, which no test can wait for", "anchors": ["include/cest/cmath.hpp: sin_helper, sinh_helper, sin, sinh"]}
{"id": "C101", "title": "pow(double, int) on doubles, rounding, overflow and underflow included", "statement": "For every double b and int n other than INT_MIN, pow(b, n) returns; it is 1 for n = 0, b for n = 1, NaN only for a NaN base, and its sign bit is set exactly when b's is and n is odd. Infinities and zeros give infinities and zeros. While |b^n| stays within the normal doubles the result is within (n-1) 1.110224e-16 |b^n| of b^n; above, it is an infinity; below, at most 2^-1021 in size. For n < 0 the result is within |n| 1.11023e-16 |b^n| + 2^-1075 of b^n while |b|^|n| is in range, a zero if |b|^|n| overflows, and an infinity or at least 2^1021 if it underflows. The recursion is exactly |n| deep (one more for negative n).", "quantifier": "all doubles b, all int exponents n, all recursion depths", "why_tests_cant": "Tests check a few bases and exponents; the bound must hold for 2^64 bases and 2^32 exponents, including those where an intermediate product overflows or becomes subnormal.", "anchors": ["include/cest/cmath.hpp:136-141"]}
{"id": "C102", "title": "complex<double> abs is right to 6 in 10000 unless a part is not a number", "statement": "abs of a complex<double> whose parts are numbers, not both zero, returns a positive number within 56e-5 times the modulus plus 2^-1075 of the modulus, or +infinity if the modulus times 1+56e-5 is 2^1024 or more. Of a zero it returns the real part (so -0 for -0+0i). If a part is infinite or NaN it never returns, except that abs(0 + NaN i) is 0.", "quantifier": "all pairs of doubles, in any memory", "why_tests_cant": "a test samples pairs of doubles; the error bound, and that the call never returns for every pair with an infinity or NaN, hold for all 2^128 pairs", "anchors": ["include/cest/complex.hpp:562-575", "include/cest/cmath.hpp"]}
{"id": "C103", "title": "complex<double> exp, polar, sin, cos, sinh, cosh have bounded error where the scalar functions return", "statement": "exp for real parts in (-710, 709.5], and sin, cos, sinh, cosh while the argument of cosh is at most 355 in magnitude, return numbers near the complex function that is determined by the exponential law, with an error bound relative to exp or cosh; polar likewise. exp is 0 below -710, infinite or NaN above 709.5, and undefined for real parts outside int; with an infinite or NaN part, or from 356 on, sin, cos, sinh and cosh never return.", "quantifier": "all pairs of doubles, in any memory", "why_tests_cant": "a test samples arguments and compares with another implementation; the bound holds for every argument, and running forever cannot be observed", "anchors": ["include/cest/complex.hpp:662-738", "include/cest/complex.hpp:797-833", "include/cest/cmath.hpp"]}
{"id": "C104", "title": "complex<double> arg and log have bounded error", "statement": "arg of a number other than zero is within 56e-6 of the angle. log is within 17e-4 of the logarithm of the modulus and 56e-6 of the angle, for moduli from 2^-1022 to 2^1023; below, it returns numbers with the same error in the angle. log 0 is -infinity with angle 0, and log never returns when the modulus is 1.001 times 2^1024 or more.", "quantifier": "all pairs of doubles that are numbers, in any memory", "why_tests_cant": "a test samples arguments; the bound holds for every argument, and running forever cannot be observed", "anchors": ["include/cest/complex.hpp:598-603", "include/cest/complex.hpp:764-769", "include/cest/cmath.hpp"]}
{"id": "C105", "title": "vector push_back constructs each element a constant number of times on average", "statement": "push_back constructs exactly one element, or size()+1 elements when the vector is full; n push_backs on an empty default-constructed vector call element constructors exactly n + 2^ceil(log2 n) - 1 times, at most 3n-2.", "quantifier": "all vectors, all n >= 1", "why_tests_cant": "a count over executions of unbounded length; an off-by-one in the growth policy changes no result a test would look at", "anchors": ["include/cest/vector.hpp: push_back, reserve"]}
{"id": "C106", "title": "string push_back and the input-iterator constructor grow geometrically", "statement": "push_backs on a string of capacity k >= 1 that end with n characters leave capacity k*2^j and perform j allocations, where j is the least number with n <= k*2^j; constructing a string from an input-iterator range of n >= 1 characters performs ceil(log2(n+2))-1 allocations of character arrays.", "quantifier": "all strings, all sequences of characters", "why_tests_cant": "asymptotic statement over unbounded lengths", "anchors": ["include/cest/string.hpp: push_back, reserve, basic_string(InputIt, InputIt)"]}
{"id": "C107", "title": "string append and += grow geometrically", "statement": "Appending n pieces one after the other to a string performs a number of allocations logarithmic in the final length.", "quantifier": "all strings, all sequences of pieces", "why_tests_cant": "asymptotic statement over unbounded lengths; the result is right either way", "anchors": ["include/cest/string.hpp: append, operator+="]}
{"id": "C108", "title": "a sentry skips white space", "statement": "Constructing istream::sentry on a good stream with the default argument moves the cursor past white space and converts to true if a character is left; with noskipws it changes nothing and converts to true; on a stream that is not good it sets fail and converts to false. flags() is skipws|dec throughout.", "quantifier": "all reachable stream states, all masks", "why_tests_cant": "needs every stream state and mask; no function of the library passes noskipws = false, so no test reaches the branch", "anchors": ["include/cest/istream.hpp: sentry", "include/cest/basic_ios.hpp: _M_setstate, init, _M_ctype", "include/cest/ios_base.hpp: flags, _M_init"]}
{"id": "C109", "title": "cin reads the standard input", "statement": "Reading from cest::cin delivers the characters of the standard input.", "quantifier": "all inputs, all sequences of reads", "why_tests_cant": "a test has one fixed input", "anchors": ["include/cest/iostream.hpp: cin", "include/cest/sstream.hpp: basic_stringbuf"]}
{"id": "C110", "title": "Sums and products of complex<double> are accurate", "statement": "In complex<double>, each part of a sum or a difference of finite numbers is the exact part rounded (relative error at most 2^-53, infinity of the right sign only on overflow), negation is exact, and each part of a product z w is finite and within (2^-52 + 2^-106)|z||w| + 3*2^-1075 of the exact part when |z||w| <= 2^1022. The compound forms assign the same results to their left operand, also when both operands are the same object. Products and quotients with a scalar have relative error 2^-53 in each part, plus 2^-1075.", "quantifier": "all finite complex<double> operands, all memories, aliased or not", "why_tests_cant": "there are 2^256 pairs of operands; tests sample a few, mostly exact, ones", "anchors": ["include/cest/complex.hpp: operator+=, operator-=, operator*=, operator/= and the operators calling them"]}
{"id": "C111", "title": "norm of complex<double> is accurate", "statement": "norm(z) of a finite complex<double> is finite and within (2^-52 + 2^-106)|z|^2 + 3*2^-1075 of |z|^2 when |z| <= 2^511; it is infinity when |z|^2 >= 2^1025 and zero when |z|^2 <= 2^-1076.", "quantifier": "all finite complex<double> values", "why_tests_cant": "the error depends on the rounding of each value", "anchors": ["include/cest/complex.hpp: norm, _Norm_helper"]}
{"id": "C112", "title": "Quotients of complex<double> are accurate", "statement": "The quotient z / w of finite complex<double> numbers, w not zero, is finite and close to the exact quotient whenever that quotient is neither very large nor very small.", "quantifier": "all finite complex<double> operands, aliased or not", "why_tests_cant": "the failures are for divisors of large or small modulus, which tests rarely use", "anchors": ["include/cest/complex.hpp: operator/=, norm"]}
{"id": "C113", "title": "shared_ptr<T[]> owns arrays", "statement": "A shared_ptr<T[]> constructed from new T[n] behaves as the standard's: copies share the array, operator[] reads and writes the n elements, and the array is deleted once, as a whole and with delete[], when the last owner goes. Operations that throw (a failed allocation, an element constructor or assignment that throws) have no effect. Deleting an array with the deleter for single objects, or a single object with the one for arrays, is undefined behaviour.", "quantifier": "all element types and values, array lengths (also 0), histories of operations, allocation failures and throwing element operations", "why_tests_cant": "leaks and mismatched deletes are invisible to tests of values, and the lengths and orders of destruction are unbounded", "anchors": ["include/cest/shared_ptr.hpp: default_delete<T[]>, shared_ptr<T[]>"]}
{"id": "C114", "title": "shared_ptr<Base> deletes what it was given", "statement": "A shared_ptr<Base> constructed from a Derived* deletes the object as a Derived when the last owner goes, so Base needs no virtual destructor.", "quantifier": "all histories of shared_ptr operations", "why_tests_cant": "with a virtual destructor, or trivial destructors, the wrong delete goes unnoticed", "anchors": ["include/cest/shared_ptr.hpp: shared_ptr_base(Y*), ctrl_derived, def_del"]}
{"id": "C115", "title": "get_deleter finds the deleter", "statement": "get_deleter<D>(p) answers with a pointer to the deleter of p's group if the group was made with a deleter of type D, and with null otherwise; what is assigned through the pointer is what the last owner runs.", "quantifier": "all histories of shared_ptr operations, deleter types and deleters", "why_tests_cant": "the pointer type given to the constructor matters, which tests rarely vary", "anchors": ["include/cest/shared_ptr.hpp: get_deleter"]}
{"id": "C116", "title": "unique_ptr move assignment leaves the source empty", "statement": "After a = std::move(b), for different unique_ptrs, a owns what b owned, b is empty, and the object a owned before is deleted.", "quantifier": "all histories of unique_ptr operations", "why_tests_cant": "a test that only reads the target does not see when the old object is deleted", "anchors": ["include/cest/memory.hpp: unique_ptr::operator=(unique_ptr&&)"]}
{"id": "C117", "title": "Calling an empty function throws", "statement": "Calling a cest::function that holds no callable (after it was moved from) throws std::bad_function_call; calling one that holds a callable answers as the callable does.", "quantifier": "all histories of operations on functions, all callables", "why_tests_cant": "tests do not call empty functions; in the code that is undefined behaviour", "anchors": ["include/cest/functional.hpp: operator()"]}
{"id": "C118", "title": "Lists of throwing elements lose at most one unused node per exception", "statement": "With elements whose copies may throw, and allocations that may fail, every operation of list but assignment, and every operation of forward_list but copying and assignment, either behaves like the sequence or throws and changes no list; after all lists are destroyed what remains is uninitialised nodes, at most one for each operation ended by an element's exception.", "quantifier": "all histories of operations on any number of lists, every failing allocation, every throwing copy", "why_tests_cant": "needs every combination of throwing copies and failing allocations over unbounded histories, with leak accounting", "anchors": ["include/cest/list.hpp: insert, emplace, push_back, push_front, list(const list&), ~list", "include/cest/forward_list.hpp: insert_after, push_front, erase_after, ~forward_list"]}
{"id": "C119", "title": "Exact effect of a push onto a deque whose element copy throws", "statement": "push_back and push_front of a deque throw the element's exception only when the copy throws. The deque then reports one more element than it holds: size() is one larger and every old element is still read at its new index, but reading the new index, popping at that end, clear and the destructor are undefined. When an allocation fails instead, the deque is unchanged and at most one unused chunk is lost.", "quantifier": "all deques in all states, all chunk sizes of at least two, every failing allocation and throwing copy", "why_tests_cant": "the state after the exception is only visible through undefined behaviour; needs every position of the front and back within their chunks", "anchors": ["include/cest/deque.hpp: push_back, push_front, push_back_helper, push_front_helper, pop_back, pop_front, clear, ~deque"]}
{"id": "C120", "title": "Exact effect of a throwing copy in insert of set and map", "statement": "insert of a set or map throws the element's exception only when a copy of a new element throws. The container then has the same size, begin() and elements, and keys that compare differently from the new one are still looked up correctly; but a node without an element is linked where the new element belongs, so looking up (in a non-empty container) or inserting any key that falls between the same elements, advancing an iterator past that place, clear and the destructor are undefined. A failing allocation leaves the container unchanged.", "quantifier": "all comparators that are strict weak orderings, all red-black trees, all elements, every failing allocation and throwing copy", "why_tests_cant": "the damage only shows as undefined behaviour in later calls, and depends on the keys compared on the way down the tree", "anchors": ["include/cest/set.hpp: insert, find, clear, operator++", "include/cest/map.hpp: insert, find, clear, operator++"]}
{"id": "C121", "title": "Exact effect of a throwing element copy on a vector", "statement": "When the element's copy (or assignment) throws: reserve, and push_back, resize and assignment while they move the old elements to a larger block, leave the vector unchanged and lose that block with the elements copied so far. push_back, when the new element's copy throws, leaves a vector that counts an element it does not have: size() is one too large, the others can be read, reading it, iterating, clear, pop_back and the destructor are undefined. The copy constructor is undefined whichever copy throws. vector(n) loses its block. resize leaves the old size and the new elements already made, which clear does not destroy. erase leaves a vector of the old size in which the elements before the throw have been moved. Assignment leaves a whole vector of mixed elements while old elements are assigned, and uncounted elements afterwards.", "quantifier": "all vectors, element types and arguments, every element copy of each call as the one that throws", "why_tests_cant": "each throw point is a separate path, and the damage shows only as undefined behaviour or leaks in later calls", "anchors": ["include/cest/vector.hpp: reserve, push_back(const value_type&), vector(const vector&), vector(size_type), resize, erase, operator=, clear, ~vector"]}
{"id": "C122", "title": "Throwing copies in a vector's initializer-list constructor, self-assignment and push_back of an own element", "statement": "If an element copy throws in the initializer-list constructor, the exception leaves the constructor and its memory is lost: the block with the elements before the one whose copy threw, or, if the throwing copy was one made while moving i elements to a larger block, both blocks. Every copy the constructor makes is one of these; it makes n + 2^ceil(log2 n) - 1 for n elements. Self-assignment that throws changes nothing. push_back of an own element that throws leaves a vector counting an element it does not have, or, while moving, an unchanged vector and a lost block.", "quantifier": "all element types, vectors and initializer lists, every element copy as the one that throws", "why_tests_cant": "tests would have to make each of the copies throw and inspect lost memory", "anchors": ["include/cest/vector.hpp: vector(std::initializer_list), operator=, push_back(const value_type&), reserve"]}
{"id": "C123", "title": "Cost of growing a deque", "statement": "A push_back or push_front that does not throw copies exactly one element, the new one, and moves none. It allocates nothing while the end chunk has room, one block when it adds a chunk and the chunk table has room, and two when the table is full. n push_backs onto a new deque with chunks of K slots leave c = ceil((K/2 + n)/K) chunks and a table of capacity 2^ceil(log2 c), and make c - 1 + ceil(log2 c) allocations and n copies.", "quantifier": "all element types, all chunk sizes K >= 2, all deques in the represented states, all n", "why_tests_cant": "tests count allocations for a few sizes and one K", "anchors": ["include/cest/deque.hpp: push_back, push_front, push_back_helper, push_front_helper, deque()"]}
{"id": "C124", "title": "Throwing copies in a deque's constructors and assignment", "statement": "If the copy of an element throws in deque(const deque&) or deque(std::initializer_list), the behaviour is undefined: the constructors delegate to deque(), so the destructor runs, and it destroys an element that was counted but never made. If the j-th copy throws in an assignment from another deque, the exception leaves the target with the first j elements and a size of j + 1, the counted element not existing, and the other deque and everything else unchanged.", "quantifier": "all element types, chunk sizes K >= 2, initializer lists and deques, every copy as the one that throws", "why_tests_cant": "needs undefined behaviour to be an observable outcome and each copy to throw in turn", "anchors": ["include/cest/deque.hpp: deque(const deque&), deque(std::initializer_list), operator=, ~deque"]}
{"id": "C125", "title": "Failing allocations in a deque's constructors and assignment", "statement": "When allocations may fail, deque(const deque&) and deque(std::initializer_list) either make a deque of the elements in new memory or throw std::bad_alloc and leave everything as it was, except that one unused chunk may be left allocated. Assignment from another deque either copies all elements or throws std::bad_alloc with the target holding the first i of them (i less than all), the other deque unchanged, and at most one unused chunk left allocated.", "quantifier": "all element types, chunk sizes K >= 2, deques and initializer lists, every pattern of failing allocations", "why_tests_cant": "needs every allocation to fail in turn and the heap to be compared", "anchors": ["include/cest/deque.hpp: deque(), deque(const deque&), deque(std::initializer_list), operator=, push_back_helper"]}
{"id": "C126", "title": "Throwing copies in copying and assigning sets and maps", "statement": "An element is copied twice when it is inserted. If the j-th copy (counting from 0) is the first that throws in set(const set&) or map(const map&), the behaviour is undefined: the constructor delegates to the default one, so the destructor runs, and it reads a node in which nothing was constructed. In an assignment from another container the exception reaches the caller; the target then has the first j/2 elements, in a balanced tree, and a linked node without an element where the next one belongs, so its destructor is undefined; the other container and everything else are unchanged.", "quantifier": "all comparators that are strict weak orderings, all element types, all red-black trees, every copy as the one that throws", "why_tests_cant": "needs undefined behaviour to be an observable outcome and each copy to throw in turn", "anchors": ["include/cest/set.hpp: set(const set&), operator=, insert, ~set", "include/cest/map.hpp: map(const map&), operator=, insert, ~map"]}
{"id": "C127", "title": "Copying or assigning a list or forward_list whose element copy throws", "statement": "If the j-th element copy made by list's or forward_list's copy construction or copy assignment is the first to throw (and no allocation fails), the exception reaches the caller and the source is unchanged. list's copy constructor gives back everything it had built except the storage of the one node whose element could not be copied. list's assignment from another list leaves the target holding exactly the first j elements of the source, its old elements destroyed, and that one node's storage lost. forward_list's copy constructor loses all j nodes built so far, whose elements are never destroyed, and the storage of the next; nothing else changes, and forward_list's assignment does the same and leaves the target as it was.", "quantifier": "for all lists, all lengths, all j below the length of the source, all memories and all later outcomes of copies", "why_tests_cant": "A test fixes the lengths, the throwing position and the heap; lost storage and never-destroyed elements do not show in the values a test reads.", "anchors": ["include/cest/list.hpp:142-154", "include/cest/forward_list.hpp:100-117"]}
{"id": "C128", "title": "Copying or assigning a list, forward_list, set or map when the j-th allocation fails", "statement": "If the j-th allocation made while copying a list, forward_list, set or map (j below the number of elements of the source) is the first to fail, and no element copy throws, the copy constructor or assignment throws std::bad_alloc. The copy constructors of list, set and map leave memory exactly as it was. Assignment from another list, set or map leaves the target holding exactly the first j elements of the source (in iteration order), valid and with nothing lost. forward_list's copy constructor loses exactly the j nodes made so far, elements alive, and changes nothing else; its assignment does the same and leaves the target as it was.", "quantifier": "for all containers, all sizes, all j below the size of the source, all memories and all later outcomes of allocations", "why_tests_cant": "A test fixes the size, the failing allocation and the heap, and cannot see lost nodes; the statement covers every position at which the allocator may fail.", "anchors": ["include/cest/list.hpp:142-154", "include/cest/forward_list.hpp:100-117", "include/cest/set.hpp:100-116", "include/cest/map.hpp:160-175"]}
{"id": "C129", "title": "Copying or assigning a list, forward_list, set or map of n elements takes n allocations and n (2n for set and map) element copies", "statement": "If the next n allocations and the next n element copies (2n for set and map, whose insert copies an element twice) succeed, copying or assigning from a list, forward_list, set or map of n elements succeeds, yields the same elements in the same order, and has used exactly those allocations and copies, whatever the outcome of later ones would be. The source is unchanged, the new container owns exactly its own new nodes, and nothing else in memory changes. The assignments of list, set and map are from another container; that of forward_list may be from itself.", "quantifier": "for all containers, all sizes, all memories and all outcomes of later allocations and copies", "why_tests_cant": "A test counts operations for the sizes it tries; the statement bounds and fixes the count for every size and every heap, with failures possible at every later point.", "anchors": ["include/cest/list.hpp:142-154", "include/cest/forward_list.hpp:100-117", "include/cest/set.hpp:100-116", "include/cest/map.hpp:160-175"]}
{"id": "C130", "title": "An insertion takes one allocation and one element copy (two for set and map), and none if the key is present", "statement": "If the next allocation and the next element copy succeed, list::insert and forward_list::insert_after at any position succeed, put exactly the new element there in one new node, and have used exactly one allocation and one copy. set::insert and map::insert of a key equivalent to one present return the node that prevents the insertion, allocate and copy nothing, change nothing and cannot throw. If the key is absent and the allocation succeeds, the next two element copies decide: if either throws, the insertion throws, otherwise it inserts, having used exactly one allocation and two copies.", "quantifier": "for all containers, positions, values, comparisons that are strict weak orders, memories and outcomes of later allocations and copies", "why_tests_cant": "A test counts operations for the containers it builds; the statement holds for every shape of the tree, every position and every heap, and says that nothing can throw when the key is found.", "anchors": ["include/cest/list.hpp:212-232", "include/cest/forward_list.hpp:139-153", "include/cest/set.hpp:213-259", "include/cest/map.hpp:277-325"]}
