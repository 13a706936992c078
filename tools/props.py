#!/usr/bin/env python3
"""Regenerates properties.jsonl (the list of semantic properties)."""
import json, os
P = []
def p(id, title, statement, quantifier, why, anchors):
    P.append(dict(id=id, title=title, statement=statement, quantifier=quantifier,
                  why_tests_cant=why, anchors=anchors))

MAPS = "Map, ArrMap, BytesMap, IntMap, StringMap"
p("C01", "StringMap behaves as a finite map",
  "After any sequence of Set, Mod, Del, Get, Val, Ptr, Len and All calls on StringMap values created by NewStringMap, every Get/Val/Ptr/Len/All result is the one a plain finite map from strings to values would give: Get(k) returns (v,true) for the last value stored under k since its last deletion, and (zero,false) otherwise; no other key is affected by an operation on k.",
  "every seed and every 64-bit hash function that separates the keys used within the first 241 nibbles, every finite operation history over any number of maps and keys, every value type",
  "Tests insert 10^6 decimal strings in one order with one random seed; they cannot enumerate histories, collision patterns or deep collisions (the rehash at depth 16 is practically never reached).",
  ["string_map.go: Get, Val, Ptr, Set, Mod, Del, All, stringScan", "amt.go: root, newRoot, newLinkArray"])
p("C02", "StringSet behaves as a finite set",
  "After any sequence of Add, Del, Has, Len and All calls on StringSet values, every result is the one a plain finite set of strings would give.",
  "every seed, separating hash function, operation history and set of keys",
  "Same as C01: histories and collision patterns are unbounded.",
  ["string_set.go: Has, Add, Del, All, stringSetScan"])
p("C03", "BytesMap behaves as a finite map when key slices are not modified",
  "As C01 for BytesMap, under its documented contract that key slices are not modified after they are added. In particular the branch that overwrites an entry because a 'conflict key slice was modified' is never taken, so no live entry is dropped.",
  "every seed, separating hash function, operation history",
  "A test cannot show that the overwrite branch is unreachable for unmodified keys.",
  ["bytes_map.go: Get, Val, Ptr, Set, Mod, Del, All, bytesScan"])
p("C04", "IntMap behaves as a finite map on all int64 keys",
  "As C01 for IntMap and every int64 key, including negative keys and keys of 2^32 or more.",
  "every seed, separating hash function, operation history, every int64 key",
  "The repository's tests use only keys 0..10^6-1; behaviour on the upper 32 bits of a key needs two simultaneous nibble collisions to show.",
  ["int_map.go: Ptr, Set, Mod, Del, All, intScan, intbytes"])
p("C05", "IntSet behaves as a finite set on all int64 keys",
  "As C02 for IntSet and every int64 key.",
  "every seed, separating hash function, operation history, every int64 key",
  "Same as C04.",
  ["int_set.go: Has, Add, Del, All, intSetScan"])
p("C06", "Inline integer keys are stored losslessly",
  "The int64 key that is read back from an item (by Get, Del, All and collision handling) is exactly the int64 key that was stored, for every int64; and two different int64 keys are never written to the hash as the same bytes.",
  "every int64",
  "2^64 values, sign extension and shifts of negative numbers.",
  ["int_map.go: Set (link literals), Ptr (IntKey(item.pmap)|IntKey(item.tmap)<<32), intbytes"])
p("C07", "ArrMap behaves as a finite map",
  "As C01 for ArrMap and every ArrKey type whose KeyBytes is injective: in particular Get(k) right after Set(k,v) returns (v,true).",
  "every seed, separating hash function, operation history, key type",
  "The repository has no test of ArrMap; the value is lost only when the new key collides with an existing key.",
  ["arr_map.go: Set, Mod, Del, Ptr, All"])
p("C08", "ArrSet behaves as a finite set",
  "As C02 for ArrSet and every ArrKey type whose KeyBytes is injective.",
  "every seed, separating hash function, operation history, key type",
  "The repository has no test of ArrSet; histories are unbounded.",
  ["arr_set.go: Has, Add, Del, All, arrSetScan"])
p("C09", "BytesSet behaves as a finite set",
  "As C02 for BytesSet: after Del(k), Has(k) is false, and Del(k) affects no other key.",
  "every seed, separating hash function, operation history with unmodified key slices",
  "The repository has no test of BytesSet.Del; the effect on other keys depends on hash collisions.",
  ["bytes_set.go: Has, Add, Del, All, bytesSetScan"])
p("C10", "Generic Map.Set never affects other keys",
  "For Map[K,V] with a key type whose Equal and Hash are consistent, Set(k,v) makes Get(k) return v and changes the result of Get for no key that is not Equal to k.",
  "every seed, Hash function separating the keys, every history of Set calls",
  "The repository's only generic-map test stores one key. The fault needs two keys that collide at depth 1 or more.",
  ["generic_map.go: Set, Ptr"])
p("C11", "Generic Map.Mod never affects other keys",
  "For Map[K,V], Mod(k,f) stores f's result under k and changes the result of Get for no key that is not Equal to k.",
  "every seed, Hash function separating the keys, every history",
  "No test covers generic Mod; the fault needs one collision.",
  ["generic_map.go: Mod, Ptr"])
p("C12", "Generic Set.Add never affects other keys",
  "For Set[K], Add(k) makes Has(k) true and changes the result of Has for no key that is not Equal to k.",
  "every seed, Hash function separating the keys, every history",
  "The repository's only generic-set test stores one key.",
  ["generic_set.go: Add, Has"])
p("C13", "Len is exact",
  "Len() always returns the number of distinct keys currently stored (as a uint64), after every history.",
  "every operation history, every map and set type whose operations are correct",
  "The count is maintained incrementally in four places per type.",
  ["amt.go: root.Len", "string_map.go: Set, Mod, Del"])
p("C14", "Dep is the exact mean key depth",
  "Dep() returns float64(total)/float64(Len), where total is the sum over stored keys of the number of leading 4-bit hash digits the key shares with its nearest other stored key; and 0 when empty.",
  "every operation history, seed and separating hash function",
  "The sum is maintained incrementally by wrapping additions and subtractions in Set, Mod and Del; tests only compare with 1 and 0.",
  ["amt.go: root.Dep", "string_map.go: Set, Mod, Del"])
p("C15", "All visits every stored entry exactly once",
  "All(do) calls do once for each stored key, with that key and a pointer to its current value, until do returns false; if do never returns false every entry is visited; if it returns false at the n-th call exactly n entries are visited.",
  "every reachable state, every callback that only updates the value it is given",
  "Tests only count the visits.",
  ["string_map.go: All, stringScan", "int_map.go: intScan"])
p("C16", "The iteration order is a fixed function of seed and contents",
  "All visits keys in increasing lexicographic order of their 4-bit hash digits, so two containers with the same seed and the same keys are visited in the same order whatever their histories.",
  "all pairs of histories that end with the same contents",
  "Tests cannot range over pairs of histories.",
  ["string_map.go: stringScan", "amt_test.go: TestCanonicalStructure"])
p("C17", "The structure is canonical",
  "Two containers of the same type with the same seed and the same keys have the same Dep and the same iteration order, whatever the order of insertions and deletions (also keys inserted and later deleted) that led there.",
  "all pairs of histories that end with the same contents",
  "TestCanonicalStructure compares the same insertion order twice and never deletes.",
  ["amt_test.go: TestCanonicalStructure", "string_map.go: Set, Del"])
p("C18", "Unsafe memory accesses stay in bounds and correctly typed",
  "No operation reads or writes a link outside the array allocated for it, dereferences a nil or stale item, or interprets a key-value struct as a link array or the reverse.",
  "every operation history, seed and separating hash function",
  "An out-of-bounds unsafe access usually goes unnoticed; every array size 4/8/12/16 and each shift at each index has to be covered.",
  ["amt.go: newLinkArray, link", "string_map.go: Set, Del", "int_map.go: Set"])
p("C19", "Operations terminate when hashing separates the keys",
  "Every Get, Has, Set, Add, Mod, Del and All call terminates when the stored keys and the argument have pairwise different digit sequences within the first 241 hash digits (4 bits each; 15 rehashes).",
  "every reachable state and argument",
  "Non-termination occurs only on extremely rare collisions.",
  ["string_map.go: Set (inner for)", "bytes_map.go: Set (inner for)"])
p("C20", "Keys that always hash alike are not handled",
  "Whenever two keys that are not equal have the same digit sequence (for example ArrKey values with equal KeyBytes, including a NaN key set twice), adding the second one while the first is stored never returns.",
  "every reachable state in which one of the two keys is stored, every hash function and seed",
  "A test cannot observe that a call never returns.",
  ["arr_map.go: Set (lines 155-183)", "arr_set.go: Add"])
p("C21", "Uninitialised containers",
  "On a zero (uninitialised) map or set, Nil is true, Len and Dep return 0, Val returns the zero value, and Get, Ptr, Set, Mod, Del, All, Has and Add panic without effect; on a created one Nil is false.",
  "every key, value and callback",
  "Ranges over all keys, values and callbacks.",
  ["amt.go: root.Len, root.Dep", "string_map.go: Nil, Val, Get, Ptr, Set, Mod, Del, All"])
p("C22", "Copies share state, separate containers do not",
  "A copied map or set value denotes the same container: every operation through one copy is seen through the other. Containers created by different New calls never influence one another.",
  "every interleaved history over any number of containers and copies",
  "Absence of interference through shared memory cannot be tested exhaustively.",
  ["string_map.go: StringMap, NewStringMap", "amt.go: newRoot"])
p("C23", "Read operations do not write",
  "Get, Val, Ptr, Has, Len, Dep and All with a read-only callback change no memory at all, so they commute and may run concurrently with one another.",
  "every reachable state, every argument, every interleaving of readers",
  "Absence of writes and data races cannot be observed by testing outputs.",
  ["string_map.go: Ptr, stringScan"])
p("C24", "Value pointers stay valid",
  "A pointer returned by Ptr(k) (or passed to a Mod or All callback) keeps denoting the value stored under k until k is deleted, whatever other operations run: reads through it see later Sets and writes through it are seen by later Gets; after Del(k) a write through the old pointer affects no stored value, even if k is stored again.",
  "every pointer, every later history",
  "Ranges over all interleavings of pointer writes, reallocation, splits, shifts and collapses.",
  ["string_map.go: Ptr", "int_map.go: Ptr, Set, Del"])
p("C25", "Mod calls its callback exactly once with the right arguments",
  "Mod(k,f) calls f exactly once, with a pointer to the stored value and true when k is stored, or a pointer to a zero value and false when it is not; afterwards the value of k is what f left there.",
  "every reachable state, key and callback",
  "Four copies of the code path (existing, split, free slot, reallocation) per type.",
  ["string_map.go: Mod", "bytes_map.go: Mod", "int_map.go: Mod"])
p("C26", "A panicking Mod callback leaves the map intact",
  "If the callback passed to Mod panics and the caller recovers, the map still holds exactly the entries it had (apart from a value the callback itself changed) and remains usable.",
  "every reachable state, key and panicking callback",
  "A crash point inside an operation; the damage depends on a hash collision.",
  ["string_map.go: Mod (lines 257-282)"])
p("C27", "HashBytes and the Hash methods hash the key iter+1 times",
  "HashBytes(key, seed, iter), Bytes.Hash, String.Hash and Int.Hash return, for every iter, the hash of the key's bytes repeated iter+1 times, and agree with one another and with the hashing of the specialised containers.",
  "every key, seed and iter",
  "iter ranges over 2^64 values; HashBytes loops over a uint8 counter.",
  ["generic_map.go: HashBytes", "bytes_map.go: Bytes.Hash", "string_map.go: String.Hash", "int_map.go: Int.Hash"])
p("C28", "Depth counter arithmetic never wraps",
  "The uint8 depth counter and the loop that rehashes a conflicting key work for every depth a key can reach.",
  "every depth 0..255",
  "Depths above 16 are never reached in tests.",
  ["string_map.go: Set (cd loop, lines 152-154)", "arr_map.go: Set (lines 148-150)"])
p("C29", "Del does not retain deleted nodes",
  "After Del returns, the scratch path inside the container holds no pointer to trie nodes ('clear the path to prevent leaks').",
  "every reachable state and key",
  "Retained references are invisible to functional tests.",
  ["string_map.go: Del (lines 323-397)", "amt.go: root.path"])
p("C30", "Updating an entry keeps the stored key",
  "Set and Mod on a key that is already stored change only the value: the key object (slice) retained by the container stays the one first added, and no memory other than that value changes.",
  "every reachable state and key equal to a stored one",
  "Ranges over all states; aliasing effects are not observable in tests.",
  ["bytes_map.go: Set (lines 146-151)", "generic_map.go: Set (lines 142-147)"])
p("C31", "Deleting an absent key changes nothing",
  "Del(k) for a key that is not stored changes no entry, no count, no depth and no pointer.",
  "every reachable state and absent key",
  "Whether the slot of an absent key is occupied depends on collisions.",
  ["string_map.go: Del (lines 347-349)", "bytes_set.go: Del (lines 206-208)"])
p("C32", "Bounded array slack",
  "A non-root level with n items occupies an array of exactly the least multiple of 4 that is at least n (so fewer than 4 unused slots), the root always has 16 slots, and every non-root level holds at least two entries below it.",
  "every reachable state",
  "An invariant of all reachable states, not observable through results.",
  ["amt.go: newLinkArray", "string_map.go: Set, Del"])
p("C33", "The most recently written key is readable even in the generic Map",
  "Whatever the history, directly after Map.Set(k,v) returns, Get(k) returns (v,true) and Len equals the number of entries All visits.",
  "every history of the generic Map and Set, every Hash function, key equality and seed",
  "Ranges over all Hash functions and histories, including those in which other keys were misplaced.",
  ["generic_map.go: Set, Ptr, All", "generic_set.go: Add, Has, All"])
p("C34", "BytesMap survives modified key slices",
  "If the caller breaks the contract and modifies retained key slices, operations on other keys still do not access memory out of bounds and keep the counters consistent with the stored entries.",
  "every reachable state with arbitrary overwritten retained keys",
  "Ranges over all overwrites of key bytes.",
  ["bytes_map.go: Set (lines 159-162), Mod (lines 264-269)"])
p("C35", "The code that unlinks empty branches is never needed",
  "Del never empties a non-root level: in every reachable state the level from which a key is removed keeps at least one item, so the unlink loop performs no iteration.",
  "every reachable state and key",
  "Unreachability cannot be tested.",
  ["string_map.go: Del (lines 356-366)"])
p("C36", "Int can be used as a generic key type",
  "The documentation says Int may be used as the key type of Map[Int,V]; this requires Int to have both methods of the Key interface.",
  "the type Int",
  "A compile-time fact about a type nobody instantiates in the tests.",
  ["int_map.go: Int", "generic_map.go: Key"])
p("C37", "A panic in the callback of All leaves the container intact",
  "If the callback of All panics, the panic reaches the caller after the entries visited so far, in the usual order. The container has the same keys, the values are those the callback wrote, other containers are unchanged, and everything remains usable.",
  "every history, every callback that changes values and own state and panics at some entry",
  "Ranges over all callbacks and over the entry at which they panic.",
  ["string_map.go: All, stringScan", "the same functions of the other map and set types"])
p("C38", "A callback of All may itself call methods",
  "All with a callback that calls methods (reads any container, changes values, changes other containers, or changes the keys of the visited container and then stops) does what a loop over the stored keys, in the usual order, with the callback as its body would do.",
  "every history, every callback that is a program of calls, own state and panics",
  "Ranges over all programs run as callbacks.",
  ["string_map.go: All, stringScan", "the same functions of the other map and set types"])
p("C39", "A callback of All may change the keys of the visited container and go on",
  "If the callback of All adds or deletes keys of the container and returns true, All still visits every key that stays stored exactly once and accesses no memory wrongly.",
  "every history, every callback that is a program",
  "Ranges over all programs run as callbacks; whether something goes wrong depends on the hash function.",
  ["string_map.go: stringScan (lines 406-425)", "the same functions of the other map and set types"])
p("C40", "Programs with nested callbacks do what they do with plain maps and sets",
  "A program that starts with no containers, and whose callbacks of Mod and All make calls, change values, panic, recover, and use callbacks in turn, ends or panics with the result that plain finite maps and sets would give, and does not hang or access memory wrongly. The callback of a Mod of a new key must leave the map alone, unless no stored key is in the way: then it may use the map without adding or deleting keys. The callback of All must not go on after it changed the keys.",
  "every program, every depth of nesting, every assertion about the result and the user's own variables",
  "Ranges over all programs and interleavings of nested callbacks.",
  ["string_map.go: Mod, All, stringScan", "the same functions of the other map and set types"])
p("C41", "The callback of Mod may use the map",
  "While the callback of Mod runs for a key that is not stored, reading the map gives the stored entries, and keys that the callback adds are stored afterwards, like all others.",
  "every program used as a callback of Mod",
  "Whether something goes wrong depends on the hash function and on the order of the digits.",
  ["string_map.go: Mod (lines 257-300)", "the same method of the other map types"])
p("C42", "The depth is on the order of log16(N)",
  "With n stored keys and 16^t <= n, the mean depth that Dep reports is at least t - 1 - 1/15, whatever the hash. If the hash spreads the keys, so that two keys share their first j digits for at most one in 16^j of the seeds, and n <= 16^t, then the mean depth, averaged over the seeds, is at most t + 1/15, and some key has depth j or more for at most n^2 in 16^j of the seeds.",
  "every reachable container, every set of keys of any size, every family of seeds",
  "A statement about averages over seeds and about all sizes.",
  ["README.md: The depth of a map or set will be on the order of log16(N)", "string_map.go: Dep", "the same method of the other map and set types"])
p("C43", "The cost of a lookup",
  "A lookup of a key k goes through exactly as many levels as it takes until at most one stored key shares that many leading digits with k: one more than its depth if k is stored, and at most 241. Fewer rounds of the loop do not suffice and more are not made.",
  "every reachable container, every key, stored or not, every number of rounds",
  "Ranges over all shapes of the trie; the number of rounds cannot be observed by a test.",
  ["string_map.go: Get, Val, Ptr", "the same methods of the other map types", "string_set.go: Has", "the same method of the other set types"])
p("C44", "Goroutines can share containers that none of them changes",
  "After any history of calls, several goroutines run client programs. Each of them reads any container that nobody owns, uses the containers that it owns or has made in every way, and stores through its own pointers only. Then, in every interleaving of their memory accesses, there is no data race, no goroutine panics, hangs or accesses memory wrongly, all of them come to an end, and each gets the results that it would get alone, which are those of plain maps and sets and do not depend on the interleaving.",
  "every number of goroutines, all programs of calls that depend on earlier results, all interleavings of single memory accesses",
  "Tests see a few of the interleavings; a data race need not show.",
  ["string_map.go: all methods", "the same methods of the other map and set types"])
p("C45", "Memory is linear in the number of keys",
  "Besides its root and the structs of its entries, a container with n keys consists of one array of 16 slots and one array for each non-empty string of digits that more than one key starts with. With b such strings the arrays have at most 16 + n + 4b slots. 2b is at most the sum of the depths of the keys. If the hash spreads the keys (as in C42), b is at most 1.1n on average over the seeds, so that the arrays have at most 16 + 5.4n slots.",
  "every reachable container, every set of keys of any size, every family of seeds",
  "A statement about the heap, about averages over seeds and about all sizes.",
  ["README.md: compact memory layout", "amt.go: newLinkArray", "string_map.go: Set, Mod, Del", "the same methods of the other map and set types"])
p("C46", "Programs that use containers of several types do what they do with plain maps and sets",
  "A program may use containers of any of the map and set types side by side. Callbacks of Mod and All of one type may use containers of all types, panic, recover, and call Mod and All with callbacks in turn, and values may be pointers to containers. Such a program ends or panics with the result that plain finite maps and sets would give, and does not hang or access memory wrongly. The only restrictions are those of C40, for each type by itself: what a callback does with containers of other types never matters.",
  "every program, every finite collection of map and set types with any key and value types, every depth of nesting",
  "Ranges over all programs, all combinations of types and all nestings of callbacks.",
  ["string_map.go: Mod, All, stringScan", "string_set.go: All", "the same functions of the other map and set types"])
p("C47", "Programs can start goroutines, wait for them and go on with what they have made",
  "A program makes calls, starts goroutines as in C44, waits until all of them have returned, makes further calls with all containers, old and new, starts goroutines again, and so on. All results are those of plain maps and sets: when the goroutines have returned, every container that a goroutine has changed or made is as that goroutine left it, and all others are as before. The goroutines of each round do not race, panic or hang, and all of them return.",
  "every number of rounds and goroutines, all programs of calls that depend on earlier results, all interleavings of single memory accesses in each round",
  "Tests see a few of the interleavings; what one round leaves behind can matter in a later one.",
  ["string_map.go: all methods", "the same methods of the other map and set types"])
p("C48", "Few allocations",
  "Get, Val, Ptr, Has, All, Len, Dep, loads and stores through pointers, Set and Mod of a stored key, Add of a member and Del of a key that is not stored allocate nothing. Del of a stored key allocates at most one block. A new key costs one struct and, unless no stored key has the same first digit, an array for each string of digits that it newly shares with a stored key, or one array if it shares no new string; in total at most one more than the number of digits it has in common with a stored key. Filling a container with n keys takes at most 2 + 2n + b allocations, for b as in C45, which is 2 + 3.1n on average over the seeds if the hash spreads the keys. Not counted are the slice that Del makes for paths of more than 12 levels and what hash functions and callbacks allocate.",
  "every reachable state, every call, every set of keys of any size, every family of seeds",
  "Benchmarks count the allocations for some keys; the bound is about all keys, states and sizes.",
  ["README.md: fewer allocations", "amt.go: newLinkArray, newRoot", "string_map.go: Set, Mod, Del", "the same methods of the other map and set types"])
p("C49", "Only stored entries are kept alive",
  "As long as a program keeps a map, the map keeps the struct of each stored key alive: the address that Ptr returns can be reached from the map by following pointers. Once Del has removed a key, its struct can no longer be reached from the map, so that the garbage collector can free it and what its value points to.",
  "every reachable state, every stored key, every removed key",
  "A test cannot see what memory a container refers to; a finalizer only tells that an entry was freed in one run.",
  ["string_map.go: Set, Ptr, Del", "the same methods of the other map types", "amt.go: link, root"])
p("C50", "Collecting garbage changes nothing",
  "A program may drop maps, sets and pointers to values at any time, and the garbage collector may then free all memory to which nothing that the program still has leads, whenever it likes between calls. Every later call on a container or pointer that the program still has works, returns what it would have returned without the collection, and leaves the program the same state: no container uses memory that its own pointers do not keep alive, and a pointer from Ptr keeps its value alive without the map.",
  "every program of calls, every number of collections between any two calls, every set of freed blocks that the collector may free",
  "Tests do not force a collection between every two calls, and a use of freed memory often goes unnoticed.",
  ["amt.go: link, root, newLinkArray, newRoot", "string_map.go: all methods, with unsafe.Pointer", "the same methods of the other map and set types"])
p("C51", "What a call costs",
  "A lookup accesses memory at most five times more often than the number of digits that its key has in common with a stored key other than itself; so it takes one access per level. Set, Mod and Add access memory at most 7 times as often as that number and 200 times more, Del at most 19 times and 250 more, All at most 6 times per entry (3 times for sets), twice per string of digits that stored keys share, and once more; New, Len, Dep and accesses through pointers at most twice. So for every call but All there is a bound that does not depend on the contents, and looking up all stored keys takes on average over the keys and the seeds at most t + 5 1/15 accesses per key, if there are at most 16^t keys and the hash spreads them. An access reads, writes or allocates one struct, array or root. Not counted are hashing, comparing keys, and what callbacks do beyond reading and writing the value that they are given.",
  "every reachable state, every call, every set of keys of any size, every family of seeds",
  "Benchmarks time some keys; the bound is about all keys, states and sizes.",
  ["README.md: depth on the order of log16(N)", "string_map.go: all methods", "the same methods of the other map and set types"])
p("C52", "A readers-writer lock makes containers safe to share",
  "Goroutines that share containers and take a readers-writer lock around their calls, for writing or, around calls that only read (Get, Val, Ptr, Len, Dep, Has, reading through a pointer, All with a callback that does not change values), for reading, never race on memory, panic, hang or see a half-done change, however their memory accesses are interleaved: at every moment the results that they have got so far are those of plain finite maps and sets when the goroutines take turns in the order in which they give the lock back. Every section ends, so that the lock is free again. A lock for reading is not enough for Del, even of a key that is not there.",
  "every reachable state, any number of goroutines, each of which makes any calls any number of times (also for ever) and decides with the results how to go on, every interleaving of their accesses",
  "Interleavings cannot be enumerated by tests; a race detector sees those that happen.",
  ["string_map.go: all methods", "string_set.go: all methods", "the same methods of the other map and set types"])
p("C53", "Containers share no memory",
  "No block of memory can be reached by following pointers from two different containers, whatever calls were made on them. So a program that drops a container, and the pointers to its values, lets the garbage collector free everything that the container held, whichever other containers the program keeps; copying a map value copies a reference to the same container.",
  "every program of calls that return, on containers of any type, every hash function and every comparison of keys; also calls after which a container answers wrongly (C04, C05, C07, C09 to C12)",
  "A test cannot see what memory a container refers to.",
  ["amt.go: link, root, newLinkArray, newRoot", "string_map.go: Set, Mod, Del", "string_set.go: Add, Del", "the same methods of the other map and set types"])
p("C54", "The collector may run in the middle of a call, and memory may be used again",
  "The garbage collector may run at any moment, also between two memory accesses of a call, and free whatever neither the program nor the rest of the call can reach; the allocator may return any free address, also one that was in use before. Every call still works and returns what it returns without collections and with an allocator that never uses memory again, except for the values of the pointers themselves. So no result depends on where in memory anything is, nothing is reached through an address that the collector does not see, and no old pointer is mistaken for a new one at the same address.",
  "every program of calls, every choice of the allocator, every number of collections at any moments of any calls, every set of freed blocks that the collector may free",
  "When the collector runs and which address the allocator returns is different in every run; tests see some of it.",
  ["amt.go: link, root, newLinkArray, newRoot", "string_map.go: all methods, with unsafe.Pointer", "the same methods of the other map and set types"])
p("C55", "Key methods that panic or have effects do no harm",
  "Hash, Equal and KeyBytes (and Go's == on interface-like keys) are code of the user: they may keep state of their own, such as counters or caches, and they may panic. If they return the same answers for the same keys whenever they return, then all calls that return do what they do with pure methods, and a call in which a key method panics changes nothing that any later call can see, if the program recovers from it: stored keys, values, lengths, depths and iterations are as before. New, Len, Dep, All and access through pointers never call a key method and so never panic.",
  "every program of calls, every key method with state of any type, panics at any moments, any number of recoveries",
  "A test makes a method panic at a few moments; a half-done update is seen only if it panics in the right place of the right call.",
  ["generic_map.go: Ptr, Set, Mod, Del", "generic_set.go: Has, Add, Del", "arr_map.go: Ptr, Set, Mod, Del", "arr_set.go: Has, Add, Del"])
p("C56", "Calls ask a key's methods seldom, and only for that key and one other key",
  "A call that is given a key calls Equal (in ArrMap and ArrSet: ==) at most once, on that key and one other key. Get, Val, Ptr, Has and Del call KeyBytes at most once and only on the given key; Set, Mod and Add at most twice, on the given key and then on one other key. Hash is called with the seed of the container only; Get, Val, Ptr, Has and Del call it only on the given key, with iter = 0, 1, 2 and so on in this order (up to 15, then from 0), and Set, Mod and Add first do the same and then call it on the given key and at most one other key. New, Len, Dep, All and access through pointers call none of them. This holds in every state and whatever the methods return.",
  "every state of memory, every call, every key method with state of any type, also if methods panic; the seed: every execution of C55",
  "Tests of results do not see calls of methods; counting calls in a few tests says nothing about deep or odd tries.",
  ["generic_map.go: Ptr, Set, Mod, Del", "generic_set.go: Has, Add, Del", "arr_map.go: Ptr, Set, Mod, Del", "arr_set.go: Has, Add, Del"])
p("C57", "The layout of the structs and the pointer arithmetic are right, on 64-bit and 32-bit platforms",
  "With memory that consists of bytes and with the layout that the Go compiler gives to structs: sizes are those that the comments give (link 16, arrays 64 to 256, root 512 bytes on 64-bit platforms), fields and elements are inside their struct or array, aligned and apart; the address that the code computes for a link is that of the link, the computation does not overflow, and an access there reads and writes the bytes of that link and no other; each number and pointer that is stored fits its field; and a program has the same history, up to the values of pointers, as if the links were not bytes. Only the allocator can keep a call that works from going on.",
  "all 64-bit and 32-bit platforms, with any order of bytes; any addresses at which the allocator places blocks; any collection of garbage; every program that uses the API; that only the allocator can stop a call: calls that work (C01)",
  "Tests run on one platform with one allocator, and an access outside of a block shows only if something else is there.",
  ["amt.go: link, linkSize, root, pathLink, newRoot, newLinkArray, remove, unlink", "generic_map.go: kv", "string_map.go: strkv, Ptr, Set, Mod, Del, All", "int_map.go: Ptr, Set, Mod, Del, All"])
p("C58", "Len does not overflow",
  "Len returns the number of stored keys itself, not modulo 2^64 or 2^32, on 64-bit and on 32-bit platforms: n keys and b branches take at least (n + b) links in arrays that have no byte in common, and these fit into the address space. So neither the counter nor its conversion to uint can lose bits.",
  "all platforms, placements and collections of C57; every execution, every container, all types; calls that work (C01)",
  "No test can fill memory with 2^32 or 2^64 keys.",
  ["amt.go: root, Len", "*_map.go: Len", "*_set.go: Len"])
p("C59", "Key methods are called only on the given key and on stored keys",
  "Hash, Equal and KeyBytes (in ArrMap and ArrSet also ==) are called, as receiver or as argument, only on the key that the call is given and on keys that are stored in that container at that moment: not on keys that were removed (which the arrays may still refer to), not on keys of other containers, and not on zero keys. So a program may invalidate a key once it has removed it.",
  "every execution of C55, with calls that panic; every call, every key method with state of any type; Map, Set, ArrMap, ArrSet",
  "A method that is called on a dead key goes unnoticed unless that key was made to misbehave, and Del leaves links to removed keys in the arrays.",
  ["generic_map.go: Ptr, Set, Mod, Del", "generic_set.go: Has, Add, Del", "arr_map.go: Ptr, Set, Mod, Del", "arr_set.go: Has, Add, Del"])
p("C60", "Dep has only rounding errors",
  "In a container that is not empty, with at most 2^45 keys, Dep returns the float64 that is nearest to the mean of the depths of the keys (so exactly the mean if that is a float64). With at most 2^56 keys the sum of the depths still does not overflow, the result is finite and differs from the mean by at most 2^-51 of it. More keys do not fit below address 2^60, and on 32-bit platforms there are always so few keys that Dep is the nearest float64.",
  "every execution, every non-empty container, all types, seed and hash; for the last sentence all platforms, placements and collections of C57; calls that work (C01)",
  "Overflow needs more keys than a test can store, and Dep converts two integers and divides, which makes three rounding errors.",
  ["amt.go: root, Dep", "*_map.go: Dep", "*_set.go: Dep"])
# Properties that speak of containers in a sound state.
SOUND = ("; histories of calls that work: all calls of StringMap, StringSet, BytesMap and ArrSet, and for the other types "
         "all calls but those that C04, C05, C07 and C09 to C12 are about; new keys differ from the stored keys in the way in "
         "one of the first 241 digits")
for x in P:
    if x["id"] in "C13 C14 C15 C16 C17 C18 C19 C22 C24 C25 C26 C29 C32 C35 C37 C38 C39 C40 C41 C42 C43 C44 C45 C46 C47 C48 C49 C50 C51 C52 C54 C55".split():
        x["quantifier"] += SOUND
here = os.path.dirname(os.path.abspath(__file__))
with open(os.path.join(here, "..", "properties.jsonl"), "w") as f:
    for x in P:
        f.write(json.dumps(x) + "\n")
print(len(P), "properties")
