# Formal model of wdamron/amt: design

The package implements maps and sets as hash-array-mapped tries (16-way, 4 hash bits per
level) built from `unsafe` pointers. Ten container families share one text copied ten times:
`Map`, `Set` (generic `Key` interface), `ArrMap`, `ArrSet`, `BytesMap`, `BytesSet`, `IntMap`,
`IntSet`, `StringMap`, `StringSet`.

## Technique

Coq 8.16.1 with std++. The model is a set of total Gallina functions over an explicit heap.
Every definition of the model cites the Go lines it models. Properties are theorems about
those functions. The statements are in the files `Props_*.v` and `Refuted.v`; what they mean
is in small files that mention no proof: `Spec.v`, `Bag.v`, `Observe.v`, `Levels.v`,
`Programs.v`, `GoTypes.v`, `Types.v`, `WeakTypes.v`, `Client.v`, `ConcSpec.v`, `PClient.v`,
`ConcClient.v`, `ForkSpec.v`, `Nested.v`, `MixedSpec.v`, `ExactSpec.v`, `DepthSpec.v`, `MemorySpec.v`, `AllocSpec.v`,
`KeepSpec.v`, `GcSpec.v`, `TimeSpec.v`, `LockSpec.v`, `ReuseSpec.v`, `MethSpec.v`, `LayoutSpec.v`, `FloatSpec.v`.

### Memory model (`Mem.v`)
* A world is a finite map from locations to blocks, an allocation counter and a user state.
  The counter n stands for the unused addresses n, 2n, 4n, ..., so that several such stocks can
  exist side by side.
* A block is a link array, a key-value cell, or a root struct. In most theorems
  blocks are never freed. C50 is about programs with a garbage collector that frees unreachable
  blocks between calls, C54 about one that also does so inside calls and an allocator that uses
  freed addresses again; they say that the others hold for such programs too.
* `unsafe` pointer arithmetic yields a slot reference (array, index). Reading or writing
  outside the array, through a nil base, or at the wrong block type gives `Fault`.
* Ordinary Go run-time panics (nil dereference, slice index) give `Panic` with the world at
  that moment. A loop that exceeds its fuel gives `Hang`. Normal return is `Ret`.
  Theorems hold for every fuel of at least 256, so `Hang` means a loop that does not end.
* The 16 root items, embedded in the Go struct, are a separate 16-slot block.
* Callbacks (`mod`, `do`) are arbitrary computations over the world; the theorems state what
  they require of them.
* One world holds containers of one key, value and cell type. Programs that use containers of
  several types at once have one such world for each type (`MixedSpec.v`, C46): containers of
  different types share no memory. Values may be pointers to containers of other types.

### Integers (`GoInt.v`)
uint8/uint32/uint64 are `N` with explicit wrap-around; int64 is `Z` in two's complement.
The depth counter `d` wraps at 256 and the lengths at 2^64 exactly as in Go. `Dep` uses
the IEEE-754 model of Coq's standard library (`SpecFloat`), so float division is exact.

### Hashing (`Hash.v`)
`maphash.Hash` is a seed and the bytes written so far; `Sum64` is an arbitrary function of
both (a section variable, universally quantified in every theorem). A generic key's `Hash` and
`Equal` methods are arbitrary functions. A seed is an input of `New`. `EAmt.v` is a second model
of Map, Set, ArrMap and ArrSet in which each call of a key method is a step with effects that
may panic (C55); it says that the theorems about pure methods hold for such methods too, but
for panics of Hash during a split. With a nil container it panics before it asks for the bytes
of the key, where the Go code asks first.

### Template and instances (`Amt.v`, `Families.v`)
The ten families are textual copies except for: how a key is hashed and rehashed, how the
conflicting key is rehashed, where the key is stored, how keys are compared, and a few
slips. The model has one template with those points as hooks (a record), and ten instances
that cite the lines of each family. Slips in the Go code are reproduced in the instances.

### Which Go code is modelled
| Go | Model |
|----|-------|
| amt.go: root, link, kv structs; newRoot, Len, Dep, newLinkArray | `Mem.v`, `Amt.v` |
| *_map.go: New*, Nil, Len, Dep, Get, Val, Ptr, Set, Mod, Del, All and the scan functions | `Amt.v`, `Families.v` |
| *_set.go: New*, Nil, Len, Dep, Has, Add, Del, All and the scan functions | `Amt.v`, `Families.v` |
| generic_map.go: HashBytes; String.Hash/Equal, Bytes.Hash/Equal, Int.Hash; intbytes | `Hash.v`, `GoInt.v` |
| method sets of String, Bytes and Int and the constraint Key | `GoTypes.v` |

Not modelled: what happens when memory is exhausted (in C57 the machine then has no next step),
32-bit platforms except for the layout of memory (C57; there Go's int and uint have 32 bits, in the model 64), what a
program with a data race does under Go's weak memory model, the code of sync.RWMutex (C52 has its specification), the internals of maphash and its randomness, Go's compile-time typing except for
C36, inlining and stack growth, and the tests and benchmarks.

C57 replaces the slots of arrays by bytes. What it trusts in addition: the rules by which the Go
compiler lays out structs (`LayoutSpec.v`: `align`, `size`, `offset`). Keys, values, seeds, len, dep and
the scratch path are not bytes: the code uses them through typed pointers only. If V has size zero, Go
gives all of IntMap's values the same address; the model gives them different ones, which only
comparing pointers shows.

## Proof architecture
* Ghost trees (`Tree.v`): leaves (key, cell pointer) and nodes (array location, children by
  radix). `Rep.v` relates heap and tree: array sizes, bitmaps, types, disjointness.
* Structural layer, no assumption on hash or equality (`Descend.v`, `Insert.v`, `Split.v`,
  `Delete.v`, `Remove.v`, `Scan.v`): each operation maps a represented tree to a represented
  tree and touches nothing else.
* Hash layer (`Core.v`, `Order.v`, `Heap.v`): every leaf lies on the path spelled by its
  digits; with canonical shape this determines the tree from the key set.
* Refinement (`Refine.v`, `RefineSet.v`, `Pack.v`): histories of calls on any number of
  containers give the same results as `Spec.v`, in which a container is a finite map.
* Weak layer (`Weak.v`, `WeakHeap.v`, `WeakMap.v`, `WeakSet.v`, ...): the same for arbitrary
  hash and equality functions and for overwritten key slices, with `Bag.v` as specification.
* Consequences as a user observes them (`ObserveMap.v`, `ObserveSet.v`), the memory of
  reachable containers (`Shape.v`, `ShapeRuns.v`), reading methods in every state
  (`ReadOps.v`, `Readers.v`, `AnyFacts.v`), endless insertions (`Alike*.v`), panicking
  callbacks (`Panics.v`, `Raise.v`), entries that get lost (`Broken.v`, `Lost.v`, `Misplaced.v`), callbacks that make calls (`Callbacks.v`),
  programs with nested callbacks (`Nested.v`, `NestedSim.v`, `NestedRun.v`, `NestedSet.v`) and with
  containers of several types (`MixedSpec.v`, `MixedRules.v`, `Mixed.v`), what ArrMap.Set and
  BytesSet.Del do instead of the expected (`ExactSpec.v`, `Exact.v`), depths and averages over
  seeds (`DepthSpec.v`, `Depth.v`), the number of arrays (`MemorySpec.v`, `Memory.v`,
  `MemoryRuns.v`), allocations (`AllocSpec.v`, `Alloc.v`, `AllocRuns.v`), reachable blocks (`KeepSpec.v`, `Keep.v`, `KeepRuns.v`, `Own.v`, `OwnRuns.v`), garbage collection (`GcSpec.v`, `Gc.v`, `GcRuns.v`), also inside calls and with reuse of addresses (`ReuseSpec.v`, `Reuse.v`, `ReuseProg.v`, `ReuseRuns.v`), key methods with effects (`EAmt.v`, `MethSpec.v`, `Meth.v`, `MethRuns.v`, `MethCount.v`, `MethHash.v`, `MethStored.v`), memory as bytes (`LayoutSpec.v`, `Layout.v`, `LayoutMem.v`, `Fits.v`, `LayoutRuns.v`, `Room.v`), rounding errors of Dep (`FloatSpec.v`, `DepFloat.v`, `DepExact.v`), numbers of memory accesses (`TimeSpec.v`, `Time.v`, `TimeCore.v`, `TimeTypes.v`, `TimePack.v`, `TimeRuns.v`), a readers-writer lock (`LockSpec.v`, `Lock.v`, `LockRuns.v`), rounds of the loop of a lookup (`Cost.v`, `CostTypes.v`,
  `CostPack.v`), goroutines (`Conc.v`, `ReadOnly.v`, `ConcClient.v`, `ConcMap.v`,
  `ConcMapAll.v`, `ConcSet.v`, `ConcRuns.v`).
* Properties the code violates are stated in full and refuted (`_refuted` theorems, concrete
  runs evaluated for every sufficient fuel); the part that does hold is proved with suffix
  `_partial`.

### Conditions of the functional theorems
`map_type` and `set_type` (`Types.v`) list, for each type, the calls `ok tr op` that are
considered after a history `tr`:
* handles come from `New`, pointers from `Ptr` (`mallowed`), keys satisfy a predicate P and
  seeds a predicate Q that the theorem quantifies over;
* a `Set`, `Mod` or `Add` of a new key k is considered if every stored key that is in the way
  of k (the nearest one, `in_way` in `Spec.v`) differs from k in one of the first 241 digits.
  Without this the call never returns (C20), or the rehash loop does not end (C28);
* and, for the types with a defect, if the defect does not strike: `int_way`, `set_way`,
  `mod_way`, `no_way` (ArrMap.Set), `no_del` (BytesSet). Each excluded case has a refutation.

These conditions are per call, so two keys that are not separated may both be used, as long
as they are not stored at the same time. Corollaries named `_separated` take the simpler
condition that the hash separates all keys in use. `ArrMap`, `ArrSet`, `Map` and `Set` need an
equality that decides equality of the keys (`decides_eq`); the weak layer needs nothing.

### Conditions of the weak layer (C33, C34)
No condition on hash, equality and keys; between calls the user may overwrite the bytes of
stored keys. Levels must be at most 254 deep, since the depth counter is a uint8 (the
refutations `*_deep_refuted` show what happens beyond). The IntMap and IntSet types are left
out because they store no key.

### Callbacks (C25, C26, C37 to C41, C46)
In histories, callbacks are functions of the value and the user's own state. C26 and C37 add
panics. C38 and C39 take callbacks of All that are arbitrary programs of calls, own state and
panics (`Programs.v`). In C40 and C41 callbacks of Mod and All are programs that may use Mod and
All with callbacks again, and recover from panics. `Nested.v` defines how they run on the model
and, independently of it, what they do on finite maps (`wp`, `swp`). C46 is the same for programs
that mix containers of finitely many types (`MixedSpec.v`): while a method of one type runs, the
containers of all other types are part of the user's state, which its callbacks may change.

### Goroutines (C44, C47)
`PAmt.v` and `PFam.v` are the code of `Amt.v` and `Families.v` once more, as trees of single
memory accesses (`Prog.v`). The text is the same; only the meaning of the primitive steps
differs. `ProgSim.v` proves that running a tree alone is running the function of `Amt.v`
(C44_accesses_map, C44_accesses_set). `ConcSpec.v` interleaves the trees of several goroutines.
* An access reads or writes a whole block (a root, a link array, a key-value cell). Absence of
  races between blocks implies absence of races between words. The converse is false, so the
  theorems about bad programs show the wrong result, or the field that both goroutines write.
* Interleaving is sequentially consistent. Go promises this for programs without data races,
  and the theorem shows that there are none in any such interleaving.
* Each goroutine takes the addresses of new blocks from its own infinite stock. Which address a
  block gets is not observable, except that it was not in use.
* Goroutines start in the state after a history of calls. In C47 (`ForkSpec.v`) the program waits
  for all of them and goes on. How it starts goroutines and waits (`go`, `sync.WaitGroup`) is not
  modelled beyond this, nor are other ways to synchronise them.

## Properties: what is modelled and how it is proved
| Id | How |
|----|------|
| C01 C02 C03 C08 | refinement of histories to finite maps / sets |
| C04 C05 | refuted for int64 in general; refinement for the other calls (`_partial`); the loss for all executions (`_stale_lost`) |
| C06 | arithmetic theorem over all int64 |
| C07 | refuted; refinement for all calls but Set with a key in the way (`_partial`), and refinement of all calls against `zspec`, which says what Set does then (`_exact_partial`) |
| C09 | refuted; refinement for all calls but Del (`_partial`), and refinement of all calls against `dspec`, which says what Del does (`_exact_partial`) |
| C10 C11 C12 | refuted; refinement where the wrong rehash makes no difference (`_partial`); exact effect of a call where it does (`_misplaces`) |
| C13 C14 C15 C16 C17 | from the refinement and uniqueness of the canonical tree |
| C18 C19 | every considered call returns `Ret`: no `Fault`, `Panic`, `Hang` |
| C20 | `Hang` for every fuel when the digits coincide; refuted for the generic types |
| C21 C22 C23 C24 C25 | from the operation specifications with frame conditions |
| C26 | refuted if a stored key is in the way, in every such state (`_hindered_lost`); proved otherwise (`_partial`) |
| C27 C28 | loop theorems; refuted at the uint8 boundary |
| C29 | refuted; proved for stored keys of depth below 12 (`_partial`) |
| C30 C31 C32 C35 | from the operation specifications and the invariant |
| C33 C34 | weak layer |
| C36 | method sets as data; refuted for Int (`_partial`) |
| C37 C38 | simulation of the scan step by step with an invariant |
| C39 | refuted; proved for callbacks that stop after the change (`_partial`) |
| C40 | weakest preconditions over finite maps, sound by simulation; induction over programs |
| C41 | refuted; if a stored key is in the way, reading fails in every such state (`_hindered_read`); C40 covers the uses that are safe |
| C42 | counting: keys of small depth (lower bound), pairs of keys that share digits (upper bound) |
| C43 | the fuel of the model bounds the rounds of a loop; least fuel for which a lookup returns |
| C44 | each goroutine owns a part of the memory and reads a common part; an interleaving splits into runs of each alone |
| C45 | the levels of the canonical tree are the shared digit strings; counting strings and pairs of keys |
| C46 | C40's calculus with a state for each type; the simulations of all types hold side by side |
| C47 | what each goroutine leaves differs from the start only in its own part; the parts fit together to one invariant again; induction over rounds |
| C48 | bounds by the syntax of the operations; the depth of a split from the place of the key in the way; shared strings count the arrays |
| C49 | a path of pointers along the levels to each item; each block has one owner (C53), each struct was made for a key of its owner and without Del still is; Del of the last item of the root changes no block but the root; refuted by computation |
| C50 | a program that returns does the same with more memory (by its accesses); all blocks of a container are reachable from it, so the invariant of the kept containers survives a collection |
| C51 | a budget of accesses that each step of a program spends, bounds for the loops over an array from its 16 slots, for the loops over levels from the depth of the key, for iteration by induction over the tree |
| C52 | invariant of the interleaving: the rest of a section run from here ends as the whole section run from the state after the last turn; readers do not write, a writer is alone |
| C53 | every step of a call that starts in a set of blocks that is closed under pointers, and whose new blocks are added to the set, stores only pointers into the set; so each block has one owner |
| C54 | each function does the same with other addresses (a relation between programs that is kept by every access, proved function by function); two such relations compose, so after a collection the relation can be cut down to the addresses that are left |
| C55 | each function does the same as with pure methods up to the state of the methods (a relation between computations, kept by every step), or panics before its first write but for the scratch path of Del, which no call reads; refuted by computation |
| C56 | the lists of arguments that each function may add to a log, composed along its steps; the number of the hash follows the depth counter |
| C57 | a memory of bytes with the types of the allocated blocks; reading it back gives the memory of `Mem.v` (`view`), and each step with bytes is a step there, as long as what is stored fits its field, which a predicate on the code (`tidy`, `Fits.v`) says |
| C58 | C45's arrays have a slot for each key and branch; their counterparts in the memory of bytes have no byte in common |
| C59 | a traversal, whatever hashes it follows, ends at a leaf of the tree of the container; the rest of a call speaks of its two keys only |
| C60 | a depth is at most 241, so the sum fits; Flocq's theorems on rounding, for Coq's `SpecFloat` operations, which are shown to be Flocq's |

## Trusted base
* Coq's kernel (and `coqchk`).
* `Print Assumptions` prints "Closed under the global context" for every theorem listed in
  MANIFEST.json except the theorems of C60: no axiom is used, neither one of the standard
  library nor another one.
* The theorems of C60 speak of real numbers and use these axioms of the standard library:
  `ClassicalDedekindReals.sig_not_dec`, `ClassicalDedekindReals.sig_forall_dec`,
  `FunctionalExtensionality.functional_extensionality_dep` and `Classical_Prop.classic`. Flocq,
  which is used there, adds none.
* Other axioms that `vcheck` reports belong to library files that are loaded, such as
  `Coq.ssr.ssrunder.Under_rel.*`; no theorem uses them.
* The correspondence between the Go source and the model, checked by reading. It includes the
  simplifications named in the comments of the model.

## Tests against wrong programs
`tools/mutate.py` applies one edit of `tools/mutations.py` to a copy of the model, rebuilds with
failed proofs replaced by an axiom, and lists with `Print Assumptions` the theorems that
depend on a failed proof. The results are in `seeded/LOG.jsonl`. An edit of
`tools/mutations.py` without a line there was not run to the end. `theorems_not_checked` lists theorems
whose files could not be built: for them the attempt says nothing.
