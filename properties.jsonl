{"id": "C01", "title": "StringMap behaves as a finite map", "statement": "After any sequence of Set, Mod, Del, Get, Val, Ptr, Len and All calls on StringMap values created by NewStringMap, every Get/Val/Ptr/Len/All result is the one a plain finite map from strings to values would give: Get(k) returns (v,true) for the last value stored under k since its last deletion, and (zero,false) otherwise; no other key is affected by an operation on k.", "quantifier": "every seed and every 64-bit hash function that separates the keys used within the first 241 nibbles, every finite operation history over any number of maps and keys, every value type", "why_tests_cant": "Tests insert 10^6 decimal strings in one order with one random seed; they cannot enumerate histories, collision patterns or deep collisions (the rehash at depth 16 is practically never reached).", "anchors": ["string_map.go: Get, Val, Ptr, Set, Mod, Del, All, stringScan", "amt.go: root, newRoot, newLinkArray"]}
{"id": "C02", "title": "StringSet behaves as a finite set", "statement": "After any sequence of Add, Del, Has, Len and All calls on StringSet values, every result is the one a plain finite set of strings would give.", "quantifier": "every seed, separating hash function, operation history and set of keys", "why_tests_cant": "Same as C01: histories and collision patterns are unbounded.", "anchors": ["string_set.go: Has, Add, Del, All, stringSetScan"]}
{"id": "C03", "title": "BytesMap behaves as a finite map when key slices are not modified", "statement": "As C01 for BytesMap, under its documented contract that key slices are not modified after they are added. In particular the branch that overwrites an entry because a 'conflict key slice was modified' is never taken, so no live entry is dropped.", "quantifier": "every seed, separating hash function, operation history", "why_tests_cant": "A test cannot show that the overwrite branch is unreachable for unmodified keys.", "anchors": ["bytes_map.go: Get, Val, Ptr, Set, Mod, Del, All, bytesScan"]}
{"id": "C04", "title": "IntMap behaves as a finite map on all int64 keys", "statement": "As C01 for IntMap and every int64 key, including negative keys and keys of 2^32 or more.", "quantifier": "every seed, separating hash function, operation history, every int64 key", "why_tests_cant": "The repository's tests use only keys 0..10^6-1; behaviour on the upper 32 bits of a key needs two simultaneous nibble collisions to show.", "anchors": ["int_map.go: Ptr, Set, Mod, Del, All, intScan, intbytes"]}
{"id": "C05", "title": "IntSet behaves as a finite set on all int64 keys", "statement": "As C02 for IntSet and every int64 key.", "quantifier": "every seed, separating hash function, operation history, every int64 key", "why_tests_cant": "Same as C04.", "anchors": ["int_set.go: Has, Add, Del, All, intSetScan"]}
{"id": "C06", "title": "Inline integer keys are stored losslessly", "statement": "The int64 key that is read back from an item (by Get, Del, All and collision handling) is exactly the int64 key that was stored, for every int64; and two different int64 keys are never written to the hash as the same bytes.", "quantifier": "every int64", "why_tests_cant": "2^64 values, sign extension and shifts of negative numbers.", "anchors": ["int_map.go: Set (link literals), Ptr (IntKey(item.pmap)|IntKey(item.tmap)<<32), intbytes"]}
{"id": "C07", "title": "ArrMap behaves as a finite map", "statement": "As C01 for ArrMap and every ArrKey type whose KeyBytes is injective: in particular Get(k) right after Set(k,v) returns (v,true).", "quantifier": "every seed, separating hash function, operation history, key type", "why_tests_cant": "The repository has no test of ArrMap; the value is lost only when the new key collides with an existing key.", "anchors": ["arr_map.go: Set, Mod, Del, Ptr, All"]}
{"id": "C08", "title": "ArrSet behaves as a finite set", "statement": "As C02 for ArrSet and every ArrKey type whose KeyBytes is injective.", "quantifier": "every seed, separating hash function, operation history, key type", "why_tests_cant": "The repository has no test of ArrSet; histories are unbounded.", "anchors": ["arr_set.go: Has, Add, Del, All, arrSetScan"]}
{"id": "C09", "title": "BytesSet behaves as a finite set", "statement": "As C02 for BytesSet: after Del(k), Has(k) is false, and Del(k) affects no other key.", "quantifier": "every seed, separating hash function, operation history with unmodified key slices", "why_tests_cant": "The repository has no test of BytesSet.Del; the effect on other keys depends on hash collisions.", "anchors": ["bytes_set.go: Has, Add, Del, All, bytesSetScan"]}
{"id": "C10", "title": "Generic Map.Set never affects other keys", "statement": "For Map[K,V] with a key type whose Equal and Hash are consistent, Set(k,v) makes Get(k) return v and changes the result of Get for no key that is not Equal to k.", "quantifier": "every seed, Hash function separating the keys, every history of Set calls", "why_tests_cant": "The repository's only generic-map test stores one key. The fault needs two keys that collide at depth 1 or more.", "anchors": ["generic_map.go: Set, Ptr"]}
{"id": "C11", "title": "Generic Map.Mod never affects other keys", "statement": "For Map[K,V], Mod(k,f) stores f's result under k and changes the result of Get for no key that is not Equal to k.", "quantifier": "every seed, Hash function separating the keys, every history", "why_tests_cant": "No test covers generic Mod; the fault needs one collision.", "anchors": ["generic_map.go: Mod, Ptr"]}
{"id": "C12", "title": "Generic Set.Add never affects other keys", "statement": "For Set[K], Add(k) makes Has(k) true and changes the result of Has for no key that is not Equal to k.", "quantifier": "every seed, Hash function separating the keys, every history", "why_tests_cant": "The repository's only generic-set test stores one key.", "anchors": ["generic_set.go: Add, Has"]}
{"id": "C13", "title": "Len is exact", "statement": "Len() always returns the number of distinct keys currently stored (as a uint64), after every history.", "quantifier": "every operation history, every map and set type whose operations are correct; histories of calls that work: all calls of StringMap, StringSet, BytesMap and ArrSet, and for the other types all calls but those that C04, C05, C07 and C09 to C12 are about; new keys differ from the stored keys in the way in one of the first 241 digits", "why_tests_cant": "The count is maintained incrementally in four places per type.", "anchors": ["amt.go: root.Len", "string_map.go: Set, Mod, Del"]}
{"id": "C14", "title": "Dep is the exact mean key depth", "statement": "Dep() returns float64(total)/float64(Len), where total is the sum over stored keys of the number of leading 4-bit hash digits the key shares with its nearest other stored key; and 0 when empty.", "quantifier": "every operation history, seed and separating hash function; histories of calls that work: all calls of StringMap, StringSet, BytesMap and ArrSet, and for the other types all calls but those that C04, C05, C07 and C09 to C12 are about; new keys differ from the stored keys in the way in one of the first 241 digits", "why_tests_cant": "The sum is maintained incrementally by wrapping additions and subtractions in Set, Mod and Del; tests only compare with 1 and 0.", "anchors": ["amt.go: root.Dep", "string_map.go: Set, Mod, Del"]}
{"id": "C15", "title": "All visits every stored entry exactly once", "statement": "All(do) calls do once for each stored key, with that key and a pointer to its current value, until do returns false; if do never returns false every entry is visited; if it returns false at the n-th call exactly n entries are visited.", "quantifier": "every reachable state, every callback that only updates the value it is given; histories of calls that work: all calls of StringMap, StringSet, BytesMap and ArrSet, and for the other types all calls but those that C04, C05, C07 and C09 to C12 are about; new keys differ from the stored keys in the way in one of the first 241 digits", "why_tests_cant": "Tests only count the visits.", "anchors": ["string_map.go: All, stringScan", "int_map.go: intScan"]}
{"id": "C16", "title": "The iteration order is a fixed function of seed and contents", "statement": "All visits keys in increasing lexicographic order of their 4-bit hash digits, so two containers with the same seed and the same keys are visited in the same order whatever their histories.", "quantifier": "all pairs of histories that end with the same contents; histories of calls that work: all calls of StringMap, StringSet, BytesMap and ArrSet, and for the other types all calls but those that C04, C05, C07 and C09 to C12 are about; new keys differ from the stored keys in the way in one of the first 241 digits", "why_tests_cant": "Tests cannot range over pairs of histories.", "anchors": ["string_map.go: stringScan", "amt_test.go: TestCanonicalStructure"]}
{"id": "C17", "title": "The structure is canonical", "statement": "Two containers of the same type with the same seed and the same keys have the same Dep and the same iteration order, whatever the order of insertions and deletions (also keys inserted and later deleted) that led there.", "quantifier": "all pairs of histories that end with the same contents; histories of calls that work: all calls of StringMap, StringSet, BytesMap and ArrSet, and for the other types all calls but those that C04, C05, C07 and C09 to C12 are about; new keys differ from the stored keys in the way in one of the first 241 digits", "why_tests_cant": "TestCanonicalStructure compares the same insertion order twice and never deletes.", "anchors": ["amt_test.go: TestCanonicalStructure", "string_map.go: Set, Del"]}
{"id": "C18", "title": "Unsafe memory accesses stay in bounds and correctly typed", "statement": "No operation reads or writes a link outside the array allocated for it, dereferences a nil or stale item, or interprets a key-value struct as a link array or the reverse.", "quantifier": "every operation history, seed and separating hash function; histories of calls that work: all calls of StringMap, StringSet, BytesMap and ArrSet, and for the other types all calls but those that C04, C05, C07 and C09 to C12 are about; new keys differ from the stored keys in the way in one of the first 241 digits", "why_tests_cant": "An out-of-bounds unsafe access usually goes unnoticed; every array size 4/8/12/16 and each shift at each index has to be covered.", "anchors": ["amt.go: newLinkArray, link", "string_map.go: Set, Del", "int_map.go: Set"]}
{"id": "C19", "title": "Operations terminate when hashing separates the keys", "statement": "Every Get, Has, Set, Add, Mod, Del and All call terminates when the stored keys and the argument have pairwise different digit sequences within the first 241 hash digits (4 bits each; 15 rehashes).", "quantifier": "every reachable state and argument; histories of calls that work: all calls of StringMap, StringSet, BytesMap and ArrSet, and for the other types all calls but those that C04, C05, C07 and C09 to C12 are about; new keys differ from the stored keys in the way in one of the first 241 digits", "why_tests_cant": "Non-termination occurs only on extremely rare collisions.", "anchors": ["string_map.go: Set (inner for)", "bytes_map.go: Set (inner for)"]}
{"id": "C20", "title": "Keys that always hash alike are not handled", "statement": "Whenever two keys that are not equal have the same digit sequence (for example ArrKey values with equal KeyBytes, including a NaN key set twice), adding the second one while the first is stored never returns.", "quantifier": "every reachable state in which one of the two keys is stored, every hash function and seed", "why_tests_cant": "A test cannot observe that a call never returns.", "anchors": ["arr_map.go: Set (lines 155-183)", "arr_set.go: Add"]}
{"id": "C21", "title": "Uninitialised containers", "statement": "On a zero (uninitialised) map or set, Nil is true, Len and Dep return 0, Val returns the zero value, and Get, Ptr, Set, Mod, Del, All, Has and Add panic without effect; on a created one Nil is false.", "quantifier": "every key, value and callback", "why_tests_cant": "Ranges over all keys, values and callbacks.", "anchors": ["amt.go: root.Len, root.Dep", "string_map.go: Nil, Val, Get, Ptr, Set, Mod, Del, All"]}
{"id": "C22", "title": "Copies share state, separate containers do not", "statement": "A copied map or set value denotes the same container: every operation through one copy is seen through the other. Containers created by different New calls never influence one another.", "quantifier": "every interleaved history over any number of containers and copies; histories of calls that work: all calls of StringMap, StringSet, BytesMap and ArrSet, and for the other types all calls but those that C04, C05, C07 and C09 to C12 are about; new keys differ from the stored keys in the way in one of the first 241 digits", "why_tests_cant": "Absence of interference through shared memory cannot be tested exhaustively.", "anchors": ["string_map.go: StringMap, NewStringMap", "amt.go: newRoot"]}
{"id": "C23", "title": "Read operations do not write", "statement": "Get, Val, Ptr, Has, Len, Dep and All with a read-only callback change no memory at all, so they commute and may run concurrently with one another.", "quantifier": "every reachable state, every argument, every interleaving of readers", "why_tests_cant": "Absence of writes and data races cannot be observed by testing outputs.", "anchors": ["string_map.go: Ptr, stringScan"]}
{"id": "C24", "title": "Value pointers stay valid", "statement": "A pointer returned by Ptr(k) (or passed to a Mod or All callback) keeps denoting the value stored under k until k is deleted, whatever other operations run: reads through it see later Sets and writes through it are seen by later Gets; after Del(k) a write through the old pointer affects no stored value, even if k is stored again.", "quantifier": "every pointer, every later history; histories of calls that work: all calls of StringMap, StringSet, BytesMap and ArrSet, and for the other types all calls but those that C04, C05, C07 and C09 to C12 are about; new keys differ from the stored keys in the way in one of the first 241 digits", "why_tests_cant": "Ranges over all interleavings of pointer writes, reallocation, splits, shifts and collapses.", "anchors": ["string_map.go: Ptr", "int_map.go: Ptr, Set, Del"]}
{"id": "C25", "title": "Mod calls its callback exactly once with the right arguments", "statement": "Mod(k,f) calls f exactly once, with a pointer to the stored value and true when k is stored, or a pointer to a zero value and false when it is not; afterwards the value of k is what f left there.", "quantifier": "every reachable state, key and callback; histories of calls that work: all calls of StringMap, StringSet, BytesMap and ArrSet, and for the other types all calls but those that C04, C05, C07 and C09 to C12 are about; new keys differ from the stored keys in the way in one of the first 241 digits", "why_tests_cant": "Four copies of the code path (existing, split, free slot, reallocation) per type.", "anchors": ["string_map.go: Mod", "bytes_map.go: Mod", "int_map.go: Mod"]}
{"id": "C26", "title": "A panicking Mod callback leaves the map intact", "statement": "If the callback passed to Mod panics and the caller recovers, the map still holds exactly the entries it had (apart from a value the callback itself changed) and remains usable.", "quantifier": "every reachable state, key and panicking callback; histories of calls that work: all calls of StringMap, StringSet, BytesMap and ArrSet, and for the other types all calls but those that C04, C05, C07 and C09 to C12 are about; new keys differ from the stored keys in the way in one of the first 241 digits", "why_tests_cant": "A crash point inside an operation; the damage depends on a hash collision.", "anchors": ["string_map.go: Mod (lines 257-282)"]}
{"id": "C27", "title": "HashBytes and the Hash methods hash the key iter+1 times", "statement": "HashBytes(key, seed, iter), Bytes.Hash, String.Hash and Int.Hash return, for every iter, the hash of the key's bytes repeated iter+1 times, and agree with one another and with the hashing of the specialised containers.", "quantifier": "every key, seed and iter", "why_tests_cant": "iter ranges over 2^64 values; HashBytes loops over a uint8 counter.", "anchors": ["generic_map.go: HashBytes", "bytes_map.go: Bytes.Hash", "string_map.go: String.Hash", "int_map.go: Int.Hash"]}
{"id": "C28", "title": "Depth counter arithmetic never wraps", "statement": "The uint8 depth counter and the loop that rehashes a conflicting key work for every depth a key can reach.", "quantifier": "every depth 0..255", "why_tests_cant": "Depths above 16 are never reached in tests.", "anchors": ["string_map.go: Set (cd loop, lines 152-154)", "arr_map.go: Set (lines 148-150)"]}
{"id": "C29", "title": "Del does not retain deleted nodes", "statement": "After Del returns, the scratch path inside the container holds no pointer to trie nodes ('clear the path to prevent leaks').", "quantifier": "every reachable state and key; histories of calls that work: all calls of StringMap, StringSet, BytesMap and ArrSet, and for the other types all calls but those that C04, C05, C07 and C09 to C12 are about; new keys differ from the stored keys in the way in one of the first 241 digits", "why_tests_cant": "Retained references are invisible to functional tests.", "anchors": ["string_map.go: Del (lines 323-397)", "amt.go: root.path"]}
{"id": "C30", "title": "Updating an entry keeps the stored key", "statement": "Set and Mod on a key that is already stored change only the value: the key object (slice) retained by the container stays the one first added, and no memory other than that value changes.", "quantifier": "every reachable state and key equal to a stored one", "why_tests_cant": "Ranges over all states; aliasing effects are not observable in tests.", "anchors": ["bytes_map.go: Set (lines 146-151)", "generic_map.go: Set (lines 142-147)"]}
{"id": "C31", "title": "Deleting an absent key changes nothing", "statement": "Del(k) for a key that is not stored changes no entry, no count, no depth and no pointer.", "quantifier": "every reachable state and absent key", "why_tests_cant": "Whether the slot of an absent key is occupied depends on collisions.", "anchors": ["string_map.go: Del (lines 347-349)", "bytes_set.go: Del (lines 206-208)"]}
{"id": "C32", "title": "Bounded array slack", "statement": "A non-root level with n items occupies an array of exactly the least multiple of 4 that is at least n (so fewer than 4 unused slots), the root always has 16 slots, and every non-root level holds at least two entries below it.", "quantifier": "every reachable state; histories of calls that work: all calls of StringMap, StringSet, BytesMap and ArrSet, and for the other types all calls but those that C04, C05, C07 and C09 to C12 are about; new keys differ from the stored keys in the way in one of the first 241 digits", "why_tests_cant": "An invariant of all reachable states, not observable through results.", "anchors": ["amt.go: newLinkArray", "string_map.go: Set, Del"]}
{"id": "C33", "title": "The most recently written key is readable even in the generic Map", "statement": "Whatever the history, directly after Map.Set(k,v) returns, Get(k) returns (v,true) and Len equals the number of entries All visits.", "quantifier": "every history of the generic Map and Set, every Hash function, key equality and seed", "why_tests_cant": "Ranges over all Hash functions and histories, including those in which other keys were misplaced.", "anchors": ["generic_map.go: Set, Ptr, All", "generic_set.go: Add, Has, All"]}
{"id": "C34", "title": "BytesMap survives modified key slices", "statement": "If the caller breaks the contract and modifies retained key slices, operations on other keys still do not access memory out of bounds and keep the counters consistent with the stored entries.", "quantifier": "every reachable state with arbitrary overwritten retained keys", "why_tests_cant": "Ranges over all overwrites of key bytes.", "anchors": ["bytes_map.go: Set (lines 159-162), Mod (lines 264-269)"]}
{"id": "C35", "title": "The code that unlinks empty branches is never needed", "statement": "Del never empties a non-root level: in every reachable state the level from which a key is removed keeps at least one item, so the unlink loop performs no iteration.", "quantifier": "every reachable state and key; histories of calls that work: all calls of StringMap, StringSet, BytesMap and ArrSet, and for the other types all calls but those that C04, C05, C07 and C09 to C12 are about; new keys differ from the stored keys in the way in one of the first 241 digits", "why_tests_cant": "Unreachability cannot be tested.", "anchors": ["string_map.go: Del (lines 356-366)"]}
{"id": "C36", "title": "Int can be used as a generic key type", "statement": "The documentation says Int may be used as the key type of Map[Int,V]; this requires Int to have both methods of the Key interface.", "quantifier": "the type Int", "why_tests_cant": "A compile-time fact about a type nobody instantiates in the tests.", "anchors": ["int_map.go: Int", "generic_map.go: Key"]}
{"id": "C37", "title": "A panic in the callback of All leaves the container intact", "statement": "If the callback of All panics, the panic reaches the caller after the entries visited so far, in the usual order. The container has the same keys, the values are those the callback wrote, other containers are unchanged, and everything remains usable.", "quantifier": "every history, every callback that changes values and own state and panics at some entry; histories of calls that work: all calls of StringMap, StringSet, BytesMap and ArrSet, and for the other types all calls but those that C04, C05, C07 and C09 to C12 are about; new keys differ from the stored keys in the way in one of the first 241 digits", "why_tests_cant": "Ranges over all callbacks and over the entry at which they panic.", "anchors": ["string_map.go: All, stringScan", "the same functions of the other map and set types"]}
{"id": "C38", "title": "A callback of All may itself call methods", "statement": "All with a callback that calls methods (reads any container, changes values, changes other containers, or changes the keys of the visited container and then stops) does what a loop over the stored keys, in the usual order, with the callback as its body would do.", "quantifier": "every history, every callback that is a program of calls, own state and panics; histories of calls that work: all calls of StringMap, StringSet, BytesMap and ArrSet, and for the other types all calls but those that C04, C05, C07 and C09 to C12 are about; new keys differ from the stored keys in the way in one of the first 241 digits", "why_tests_cant": "Ranges over all programs run as callbacks.", "anchors": ["string_map.go: All, stringScan", "the same functions of the other map and set types"]}
{"id": "C39", "title": "A callback of All may change the keys of the visited container and go on", "statement": "If the callback of All adds or deletes keys of the container and returns true, All still visits every key that stays stored exactly once and accesses no memory wrongly.", "quantifier": "every history, every callback that is a program; histories of calls that work: all calls of StringMap, StringSet, BytesMap and ArrSet, and for the other types all calls but those that C04, C05, C07 and C09 to C12 are about; new keys differ from the stored keys in the way in one of the first 241 digits", "why_tests_cant": "Ranges over all programs run as callbacks; whether something goes wrong depends on the hash function.", "anchors": ["string_map.go: stringScan (lines 406-425)", "the same functions of the other map and set types"]}
{"id": "C40", "title": "Programs with nested callbacks do what they do with plain maps and sets", "statement": "A program that starts with no containers, and whose callbacks of Mod and All make calls, change values, panic, recover, and use callbacks in turn, ends or panics with the result that plain finite maps and sets would give, and does not hang or access memory wrongly. The callback of a Mod of a new key must leave the map alone, unless no stored key is in the way: then it may use the map without adding or deleting keys. The callback of All must not go on after it changed the keys.", "quantifier": "every program, every depth of nesting, every assertion about the result and the user's own variables; histories of calls that work: all calls of StringMap, StringSet, BytesMap and ArrSet, and for the other types all calls but those that C04, C05, C07 and C09 to C12 are about; new keys differ from the stored keys in the way in one of the first 241 digits", "why_tests_cant": "Ranges over all programs and interleavings of nested callbacks.", "anchors": ["string_map.go: Mod, All, stringScan", "the same functions of the other map and set types"]}
{"id": "C41", "title": "The callback of Mod may use the map", "statement": "While the callback of Mod runs for a key that is not stored, reading the map gives the stored entries, and keys that the callback adds are stored afterwards, like all others.", "quantifier": "every program used as a callback of Mod; histories of calls that work: all calls of StringMap, StringSet, BytesMap and ArrSet, and for the other types all calls but those that C04, C05, C07 and C09 to C12 are about; new keys differ from the stored keys in the way in one of the first 241 digits", "why_tests_cant": "Whether something goes wrong depends on the hash function and on the order of the digits.", "anchors": ["string_map.go: Mod (lines 257-300)", "the same method of the other map types"]}
{"id": "C42", "title": "The depth is on the order of log16(N)", "statement": "With n stored keys and 16^t <= n, the mean depth that Dep reports is at least t - 1 - 1/15, whatever the hash. If the hash spreads the keys, so that two keys share their first j digits for at most one in 16^j of the seeds, and n <= 16^t, then the mean depth, averaged over the seeds, is at most t + 1/15, and some key has depth j or more for at most n^2 in 16^j of the seeds.", "quantifier": "every reachable container, every set of keys of any size, every family of seeds; histories of calls that work: all calls of StringMap, StringSet, BytesMap and ArrSet, and for the other types all calls but those that C04, C05, C07 and C09 to C12 are about; new keys differ from the stored keys in the way in one of the first 241 digits", "why_tests_cant": "A statement about averages over seeds and about all sizes.", "anchors": ["README.md: The depth of a map or set will be on the order of log16(N)", "string_map.go: Dep", "the same method of the other map and set types"]}
{"id": "C43", "title": "The cost of a lookup", "statement": "A lookup of a key k goes through exactly as many levels as it takes until at most one stored key shares that many leading digits with k: one more than its depth if k is stored, and at most 241. Fewer rounds of the loop do not suffice and more are not made.", "quantifier": "every reachable container, every key, stored or not, every number of rounds; histories of calls that work: all calls of StringMap, StringSet, BytesMap and ArrSet, and for the other types all calls but those that C04, C05, C07 and C09 to C12 are about; new keys differ from the stored keys in the way in one of the first 241 digits", "why_tests_cant": "Ranges over all shapes of the trie; the number of rounds cannot be observed by a test.", "anchors": ["string_map.go: Get, Val, Ptr", "the same methods of the other map types", "string_set.go: Has", "the same method of the other set types"]}
{"id": "C44", "title": "Goroutines can share containers that none of them changes", "statement": "After any history of calls, several goroutines run client programs. Each of them reads any container that nobody owns, uses the containers that it owns or has made in every way, and stores through its own pointers only. Then, in every interleaving of their memory accesses, there is no data race, no goroutine panics, hangs or accesses memory wrongly, all of them come to an end, and each gets the results that it would get alone, which are those of plain maps and sets and do not depend on the interleaving.", "quantifier": "every number of goroutines, all programs of calls that depend on earlier results, all interleavings of single memory accesses; histories of calls that work: all calls of StringMap, StringSet, BytesMap and ArrSet, and for the other types all calls but those that C04, C05, C07 and C09 to C12 are about; new keys differ from the stored keys in the way in one of the first 241 digits", "why_tests_cant": "Tests see a few of the interleavings; a data race need not show.", "anchors": ["string_map.go: all methods", "the same methods of the other map and set types"]}
{"id": "C45", "title": "Memory is linear in the number of keys", "statement": "Besides its root and the structs of its entries, a container with n keys consists of one array of 16 slots and one array for each non-empty string of digits that more than one key starts with. With b such strings the arrays have at most 16 + n + 4b slots. 2b is at most the sum of the depths of the keys. If the hash spreads the keys (as in C42), b is at most 1.1n on average over the seeds, so that the arrays have at most 16 + 5.4n slots.", "quantifier": "every reachable container, every set of keys of any size, every family of seeds; histories of calls that work: all calls of StringMap, StringSet, BytesMap and ArrSet, and for the other types all calls but those that C04, C05, C07 and C09 to C12 are about; new keys differ from the stored keys in the way in one of the first 241 digits", "why_tests_cant": "A statement about the heap, about averages over seeds and about all sizes.", "anchors": ["README.md: compact memory layout", "amt.go: newLinkArray", "string_map.go: Set, Mod, Del", "the same methods of the other map and set types"]}
{"id": "C46", "title": "Programs that use containers of several types do what they do with plain maps and sets", "statement": "A program may use containers of any of the map and set types side by side. Callbacks of Mod and All of one type may use containers of all types, panic, recover, and call Mod and All with callbacks in turn, and values may be pointers to containers. Such a program ends or panics with the result that plain finite maps and sets would give, and does not hang or access memory wrongly. The only restrictions are those of C40, for each type by itself: what a callback does with containers of other types never matters.", "quantifier": "every program, every finite collection of map and set types with any key and value types, every depth of nesting; histories of calls that work: all calls of StringMap, StringSet, BytesMap and ArrSet, and for the other types all calls but those that C04, C05, C07 and C09 to C12 are about; new keys differ from the stored keys in the way in one of the first 241 digits", "why_tests_cant": "Ranges over all programs, all combinations of types and all nestings of callbacks.", "anchors": ["string_map.go: Mod, All, stringScan", "string_set.go: All", "the same functions of the other map and set types"]}
{"id": "C47", "title": "Programs can start goroutines, wait for them and go on with what they have made", "statement": "A program makes calls, starts goroutines as in C44, waits until all of them have returned, makes further calls with all containers, old and new, starts goroutines again, and so on. All results are those of plain maps and sets: when the goroutines have returned, every container that a goroutine has changed or made is as that goroutine left it, and all others are as before. The goroutines of each round do not race, panic or hang, and all of them return.", "quantifier": "every number of rounds and goroutines, all programs of calls that depend on earlier results, all interleavings of single memory accesses in each round; histories of calls that work: all calls of StringMap, StringSet, BytesMap and ArrSet, and for the other types all calls but those that C04, C05, C07 and C09 to C12 are about; new keys differ from the stored keys in the way in one of the first 241 digits", "why_tests_cant": "Tests see a few of the interleavings; what one round leaves behind can matter in a later one.", "anchors": ["string_map.go: all methods", "the same methods of the other map and set types"]}
{"id": "C48", "title": "Few allocations", "statement": "Get, Val, Ptr, Has, All, Len, Dep, loads and stores through pointers, Set and Mod of a stored key, Add of a member and Del of a key that is not stored allocate nothing. Del of a stored key allocates at most one block. A new key costs one struct and, unless no stored key has the same first digit, an array for each string of digits that it newly shares with a stored key, or one array if it shares no new string; in total at most one more than the number of digits it has in common with a stored key. Filling a container with n keys takes at most 2 + 2n + b allocations, for b as in C45, which is 2 + 3.1n on average over the seeds if the hash spreads the keys. Not counted are the slice that Del makes for paths of more than 12 levels and what hash functions and callbacks allocate.", "quantifier": "every reachable state, every call, every set of keys of any size, every family of seeds; histories of calls that work: all calls of StringMap, StringSet, BytesMap and ArrSet, and for the other types all calls but those that C04, C05, C07 and C09 to C12 are about; new keys differ from the stored keys in the way in one of the first 241 digits", "why_tests_cant": "Benchmarks count the allocations for some keys; the bound is about all keys, states and sizes.", "anchors": ["README.md: fewer allocations", "amt.go: newLinkArray, newRoot", "string_map.go: Set, Mod, Del", "the same methods of the other map and set types"]}
{"id": "C49", "title": "Only stored entries are kept alive", "statement": "As long as a program keeps a map, the map keeps the struct of each stored key alive: the address that Ptr returns can be reached from the map by following pointers. Once Del has removed a key, its struct can no longer be reached from the map, so that the garbage collector can free it and what its value points to.", "quantifier": "every reachable state, every stored key, every removed key; histories of calls that work: all calls of StringMap, StringSet, BytesMap and ArrSet, and for the other types all calls but those that C04, C05, C07 and C09 to C12 are about; new keys differ from the stored keys in the way in one of the first 241 digits", "why_tests_cant": "A test cannot see what memory a container refers to; a finalizer only tells that an entry was freed in one run.", "anchors": ["string_map.go: Set, Ptr, Del", "the same methods of the other map types", "amt.go: link, root"]}
{"id": "C50", "title": "Collecting garbage changes nothing", "statement": "A program may drop maps, sets and pointers to values at any time, and the garbage collector may then free all memory to which nothing that the program still has leads, whenever it likes between calls. Every later call on a container or pointer that the program still has works, returns what it would have returned without the collection, and leaves the program the same state: no container uses memory that its own pointers do not keep alive, and a pointer from Ptr keeps its value alive without the map.", "quantifier": "every program of calls, every number of collections between any two calls, every set of freed blocks that the collector may free; histories of calls that work: all calls of StringMap, StringSet, BytesMap and ArrSet, and for the other types all calls but those that C04, C05, C07 and C09 to C12 are about; new keys differ from the stored keys in the way in one of the first 241 digits", "why_tests_cant": "Tests do not force a collection between every two calls, and a use of freed memory often goes unnoticed.", "anchors": ["amt.go: link, root, newLinkArray, newRoot", "string_map.go: all methods, with unsafe.Pointer", "the same methods of the other map and set types"]}
{"id": "C51", "title": "What a call costs", "statement": "A lookup accesses memory at most five times more often than the number of digits that its key has in common with a stored key other than itself; so it takes one access per level. Set, Mod and Add access memory at most 7 times as often as that number and 200 times more, Del at most 19 times and 250 more, All at most 6 times per entry (3 times for sets), twice per string of digits that stored keys share, and once more; New, Len, Dep and accesses through pointers at most twice. So for every call but All there is a bound that does not depend on the contents, and looking up all stored keys takes on average over the keys and the seeds at most t + 5 1/15 accesses per key, if there are at most 16^t keys and the hash spreads them. An access reads, writes or allocates one struct, array or root. Not counted are hashing, comparing keys, and what callbacks do beyond reading and writing the value that they are given.", "quantifier": "every reachable state, every call, every set of keys of any size, every family of seeds; histories of calls that work: all calls of StringMap, StringSet, BytesMap and ArrSet, and for the other types all calls but those that C04, C05, C07 and C09 to C12 are about; new keys differ from the stored keys in the way in one of the first 241 digits", "why_tests_cant": "Benchmarks time some keys; the bound is about all keys, states and sizes.", "anchors": ["README.md: depth on the order of log16(N)", "string_map.go: all methods", "the same methods of the other map and set types"]}
{"id": "C52", "title": "A readers-writer lock makes containers safe to share", "statement": "Goroutines that share containers and take a readers-writer lock around their calls, for writing or, around calls that only read (Get, Val, Ptr, Len, Dep, Has, reading through a pointer, All with a callback that does not change values), for reading, never race on memory, panic, hang or see a half-done change, however their memory accesses are interleaved: at every moment the results that they have got so far are those of plain finite maps and sets when the goroutines take turns in the order in which they give the lock back. Every section ends, so that the lock is free again. A lock for reading is not enough for Del, even of a key that is not there.", "quantifier": "every reachable state, any number of goroutines, each of which makes any calls any number of times (also for ever) and decides with the results how to go on, every interleaving of their accesses; histories of calls that work: all calls of StringMap, StringSet, BytesMap and ArrSet, and for the other types all calls but those that C04, C05, C07 and C09 to C12 are about; new keys differ from the stored keys in the way in one of the first 241 digits", "why_tests_cant": "Interleavings cannot be enumerated by tests; a race detector sees those that happen.", "anchors": ["string_map.go: all methods", "string_set.go: all methods", "the same methods of the other map and set types"]}
{"id": "C53", "title": "Containers share no memory", "statement": "No block of memory can be reached by following pointers from two different containers, whatever calls were made on them. So a program that drops a container, and the pointers to its values, lets the garbage collector free everything that the container held, whichever other containers the program keeps; copying a map value copies a reference to the same container.", "quantifier": "every program of calls that return, on containers of any type, every hash function and every comparison of keys; also calls after which a container answers wrongly (C04, C05, C07, C09 to C12)", "why_tests_cant": "A test cannot see what memory a container refers to.", "anchors": ["amt.go: link, root, newLinkArray, newRoot", "string_map.go: Set, Mod, Del", "string_set.go: Add, Del", "the same methods of the other map and set types"]}
{"id": "C54", "title": "The collector may run in the middle of a call, and memory may be used again", "statement": "The garbage collector may run at any moment, also between two memory accesses of a call, and free whatever neither the program nor the rest of the call can reach; the allocator may return any free address, also one that was in use before. Every call still works and returns what it returns without collections and with an allocator that never uses memory again, except for the values of the pointers themselves. So no result depends on where in memory anything is, nothing is reached through an address that the collector does not see, and no old pointer is mistaken for a new one at the same address.", "quantifier": "every program of calls, every choice of the allocator, every number of collections at any moments of any calls, every set of freed blocks that the collector may free; histories of calls that work: all calls of StringMap, StringSet, BytesMap and ArrSet, and for the other types all calls but those that C04, C05, C07 and C09 to C12 are about; new keys differ from the stored keys in the way in one of the first 241 digits", "why_tests_cant": "When the collector runs and which address the allocator returns is different in every run; tests see some of it.", "anchors": ["amt.go: link, root, newLinkArray, newRoot", "string_map.go: all methods, with unsafe.Pointer", "the same methods of the other map and set types"]}
{"id": "C55", "title": "Key methods that panic or have effects do no harm", "statement": "Hash, Equal and KeyBytes (and Go's == on interface-like keys) are code of the user: they may keep state of their own, such as counters or caches, and they may panic. If they return the same answers for the same keys whenever they return, then all calls that return do what they do with pure methods, and a call in which a key method panics changes nothing that any later call can see, if the program recovers from it: stored keys, values, lengths, depths and iterations are as before. New, Len, Dep, All and access through pointers never call a key method and so never panic.", "quantifier": "every program of calls, every key method with state of any type, panics at any moments, any number of recoveries; histories of calls that work: all calls of StringMap, StringSet, BytesMap and ArrSet, and for the other types all calls but those that C04, C05, C07 and C09 to C12 are about; new keys differ from the stored keys in the way in one of the first 241 digits", "why_tests_cant": "A test makes a method panic at a few moments; a half-done update is seen only if it panics in the right place of the right call.", "anchors": ["generic_map.go: Ptr, Set, Mod, Del", "generic_set.go: Has, Add, Del", "arr_map.go: Ptr, Set, Mod, Del", "arr_set.go: Has, Add, Del"]}
{"id": "C56", "title": "Calls ask a key's methods seldom, and only for that key and one other key", "statement": "A call that is given a key calls Equal (in ArrMap and ArrSet: ==) at most once, on that key and one other key. Get, Val, Ptr, Has and Del call KeyBytes at most once and only on the given key; Set, Mod and Add at most twice, on the given key and then on one other key. Hash is called with the seed of the container only; Get, Val, Ptr, Has and Del call it only on the given key, with iter = 0, 1, 2 and so on in this order (up to 15, then from 0), and Set, Mod and Add first do the same and then call it on the given key and at most one other key. New, Len, Dep, All and access through pointers call none of them. This holds in every state and whatever the methods return.", "quantifier": "every state of memory, every call, every key method with state of any type, also if methods panic; the seed: every execution of C55", "why_tests_cant": "Tests of results do not see calls of methods; counting calls in a few tests says nothing about deep or odd tries.", "anchors": ["generic_map.go: Ptr, Set, Mod, Del", "generic_set.go: Has, Add, Del", "arr_map.go: Ptr, Set, Mod, Del", "arr_set.go: Has, Add, Del"]}
{"id": "C57", "title": "The layout of the structs and the pointer arithmetic are right, on 64-bit and 32-bit platforms", "statement": "With memory that consists of bytes and with the layout that the Go compiler gives to structs: sizes are those that the comments give (link 16, arrays 64 to 256, root 512 bytes on 64-bit platforms), fields and elements are inside their struct or array, aligned and apart; the address that the code computes for a link is that of the link, the computation does not overflow, and an access there reads and writes the bytes of that link and no other; each number and pointer that is stored fits its field; and a program has the same history, up to the values of pointers, as if the links were not bytes. Only the allocator can keep a call that works from going on.", "quantifier": "all 64-bit and 32-bit platforms, with any order of bytes; any addresses at which the allocator places blocks; any collection of garbage; every program that uses the API; that only the allocator can stop a call: calls that work (C01)", "why_tests_cant": "Tests run on one platform with one allocator, and an access outside of a block shows only if something else is there.", "anchors": ["amt.go: link, linkSize, root, pathLink, newRoot, newLinkArray, remove, unlink", "generic_map.go: kv", "string_map.go: strkv, Ptr, Set, Mod, Del, All", "int_map.go: Ptr, Set, Mod, Del, All"]}
{"id": "C58", "title": "Len does not overflow", "statement": "Len returns the number of stored keys itself, not modulo 2^64 or 2^32, on 64-bit and on 32-bit platforms: n keys and b branches take at least (n + b) links in arrays that have no byte in common, and these fit into the address space. So neither the counter nor its conversion to uint can lose bits.", "quantifier": "all platforms, placements and collections of C57; every execution, every container, all types; calls that work (C01)", "why_tests_cant": "No test can fill memory with 2^32 or 2^64 keys.", "anchors": ["amt.go: root, Len", "*_map.go: Len", "*_set.go: Len"]}
{"id": "C59", "title": "Key methods are called only on the given key and on stored keys", "statement": "Hash, Equal and KeyBytes (in ArrMap and ArrSet also ==) are called, as receiver or as argument, only on the key that the call is given and on keys that are stored in that container at that moment: not on keys that were removed (which the arrays may still refer to), not on keys of other containers, and not on zero keys. So a program may invalidate a key once it has removed it.", "quantifier": "every execution of C55, with calls that panic; every call, every key method with state of any type; Map, Set, ArrMap, ArrSet", "why_tests_cant": "A method that is called on a dead key goes unnoticed unless that key was made to misbehave, and Del leaves links to removed keys in the arrays.", "anchors": ["generic_map.go: Ptr, Set, Mod, Del", "generic_set.go: Has, Add, Del", "arr_map.go: Ptr, Set, Mod, Del", "arr_set.go: Has, Add, Del"]}
{"id": "C60", "title": "Dep has only rounding errors", "statement": "In a container that is not empty, with at most 2^45 keys, Dep returns the float64 that is nearest to the mean of the depths of the keys (so exactly the mean if that is a float64). With at most 2^56 keys the sum of the depths still does not overflow, the result is finite and differs from the mean by at most 2^-51 of it. More keys do not fit below address 2^60, and on 32-bit platforms there are always so few keys that Dep is the nearest float64.", "quantifier": "every execution, every non-empty container, all types, seed and hash; for the last sentence all platforms, placements and collections of C57; calls that work (C01)", "why_tests_cant": "Overflow needs more keys than a test can store, and Dep converts two integers and divides, which makes three rounding errors.", "anchors": ["amt.go: root, Dep", "*_map.go: Dep", "*_set.go: Dep"]}
