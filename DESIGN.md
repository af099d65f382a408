# DESIGN - formal model of go-addrs/addrs in Rocq (Coq 8.16.1)

## 1. What is trusted

* **Coq's kernel** (8.16.1). `vcheck` additionally runs `coqchk`.
* **Axioms: none are used.** `rocq/theories/Assumptions.v` runs `Print Assumptions` on every theorem
  named in MANIFEST.json; each prints "Closed under the global context". `coqchk` lists seven
  axioms of the standard library's `Coq.ssr.ssrunder.Under_rel` module (`Under_rel`,
  `Under_rel_from_rel`, `Under_relE`, `Over_rel`, `over_rel`, `over_rel_done`, `under_rel_done`): they
  are loaded with `ZifyBool`/`ssreflect` and nothing depends on them.
* **The model is the code.** The transcription from Go to Gallina is by hand; each definition cites
  the lines it transcribes. Section 4 lists what was simplified.
* **The specification files say what is meant** (section 3). They use ordinary arithmetic and
  lists, not the model's helper functions.

There are no axioms, admitted proofs, functors or module types, and no kernel check is switched off.

## 2. Layers

| layer | model | content |
|---|---|---|
| words | `Word.v` | Go fixed-width unsigned arithmetic on `N`, width `W` explicit, wrap-around written out |
| values | `Values.v`, `U128.v`, `V6.v` | Address, Mask, Prefix, Range for a width; `uint128` as a pair of 64-bit words; the IPv6 expressions over pairs |
| package net | `Net.v` | conversion from and to `net.IP`, `net.IPMask`, `net.IPNet`, with the functions of Go's `net` they use |
| text | `Text.v` | `String()` and `...FromString` with the parts of `fmt` and `net` they use |
| trie | `Trie.v`, `Cost.v` | `node.go`: contains, compare, insert, del, GetOrInsert, Match, Walk, diff, aggregate, Map, Equal, isValid, ... |
| sets | `SetNode.v` | `setnode.go`: Union, Difference, Intersect, from ranges, FindSmallestContainingPrefix |
| API | `Table.v`, `SetApi.v`, `Ip.v` | `tablex.go` and `table.go`, `set.go`, package `ip` |
| ipv6 | `Trie6.v`, `SetNode6.v`, `Table6.v`, `SetApi6.v` | the files of package `ipv6` themselves, on `uint128` pairs: node, set node, tables, sets |
| heap | `Heap.v` | the same trie code over a heap of nodes: allocation, loads, stores, real pointer equality |
| concurrency | `Conc.v`, `ConcTable.v`, `ConcSet.v` | any number of goroutines interleaved instruction by instruction over one heap and the root cells of mutable handles; `mutate` with its two loads and its compare-and-swap |

`ipv4/` and `ipv6/` contain textually the same trie, set and table program up to word operations
(`diff ipv4/node.go ipv6/node.go` shows only those lines). It is modelled over addresses in
`N` with an explicit width `W`; `W = 32` is IPv4, `W = 128` is IPv6. That package ipv6 *is* the
`W = 128` instance is not assumed: `U128.v` models the struct `uint128` (`C02_uint128_exact` proves
every method exact), `V6.v` every IPv6 expression, `Trie6.v`, `SetNode6.v`, `Table6.v` and
`SetApi6.v` the ipv6 files function by function on pairs of words, and `Sim6.v`, `SimSet6.v`,
`SimTable6.v`, `V6Refine.v` prove that each of these functions computes, on the numbers represented,
what the `W = 128` instance computes. C48 (`V6Hist.v`, `PropsV6.v`, `PropsV6b.v`, examples `ExV6.v`) states the
table and set laws directly of that literal model, in terms of the pairs. The heap and concurrency
levels and the cost bounds are at width `W` only.

**Pointer equality.** The value-level model keeps every shortcut of the code that compares pointers
(`me == other`, `left == me.Left()`) as a call of an arbitrary *sound* oracle `peq`
(`peq a b = true -> a = b`); theorems quantify over it. The heap level has real addresses, and
`C20_*_compute` prove that the heap programs return what the value-level functions return for some
such oracle - so the value-level theorems hold of them.

**Panics, errors, nil.** A panic is the result `Panic`; error returns are results; nil function
values, nil interfaces, nil `SetI`/`PrefixI` and uninitialised handles are explicit. Recursion that
is not structural uses fuel; running out is the result `OutOfFuel`, which the theorems exclude (they
state that the result is `Ok _`, or exhibit the panic).

**Concurrency.** Memory is sequentially consistent: the load of a root, the compare-and-swap, the
allocation, load or store of one node are single steps. Go's memory model makes the atomics of
`unsafe_atomic.go` sequentially consistent; the plain load of the root in `tableX_.Table()` and
`Set_.Set()` is a data race in Go's terms when it runs against a writer, and the model gives it
the meaning it has on hardware that loads a pointer in one piece.

## 3. Specifications (independent of the model)

`Spec.v` (addresses of a prefix and a range by division, keys, cover, order), `ValSpec.v` (big-endian
digits, masks, leading zeros), `TableSpec.v` (a table is a finite map from (network, length); the
calls on it), `SetSpec.v` (addresses of a set, minimal lists), `ConcTableSpec.v`/`ConcSetSpec.v` (the atomic
machine over maps and sets of addresses), `TextSpec.v` (dotted quads, decimal numbers), `AggSpec.v` (aggregation of a map from bit strings). Two places share a
function with the model: `SetSpec.stored` reads the prefixes off the tree (tied to the API by
`C26_walk_prefixes` and `C28_contains_address`), and the table theorems observe a table through its
own API (`Get`, `Walk`).

## 4. What is modelled and what is not

Modelled: every exported function and method of `ipv4`, `ipv6` and `ip`, and every unexported one
they call, with these exceptions and simplifications:

* Error values are reduced to "an error"; the accompanying value, which the documentation says to
  ignore, is kept only where the code of the library reads it.
* Text (`Text.v`): the parsing and printing functions of package `net` are those of Go 1.18 (go.mod); later
  releases parse through `net/netip` and differ on some malformed IPv6 strings (long groups, zones), about which
  no theorem speaks.
* `int`/`int64` conversions of counts are taken as exact (a set of IPv4 addresses has at most 2^32).
  `size uint32` and `h uint16` do wrap in the model.
* Uncomparable dynamic types: `goeq` may panic in the model (C42); the heap and concurrency theorems
  assume that `==` on the table's type does not panic and decides equality.
* Concurrency: `Table.Aggregate` is not a call of the concurrent machine (its result depends on which
  nodes are shared; as a function it is covered by C16-C18 and at heap level by C20). A `Set_`
  passed as argument, and `Set_.Union/Intersection/Difference`, are modelled as `Set()` followed by
  the operation on the result, i.e. the load of the argument is a step of its own.
  `GetOrInsert`'s read of the result's Data happens before the swap, as in the code.
* Walk callbacks, mappers and builders are arbitrary functions with state; callbacks that themselves
  use the library, also to modify the table being walked, are programs in `HeapCb.v` (C55). In the
  concurrent machine they are separate calls. With callbacks that touch no node the programs of
  `HeapCb.v` run as those of `Heap.v` (`HeapCbPure.v`).
* Running time is node visits (C36) and node loads, stores and allocations (C50, C51, C53); callbacks,
  comparators and arithmetic count nothing.
* Not modelled: memory reclamation, stack depth, weak memory.

## 5. Properties

The English statements are in `properties.jsonl`; MANIFEST.json maps each to its theorems. Theorems
are in `Props*.v`; `Ex*.v` hold, for each, a concrete case that meets the hypotheses, and the
counterexamples. A property that is false of the code has status *partial*: the theorem named
`_refuted` proves it false as stated (in a concrete run of the model), the theorem named `_partial`
proves what does hold, under a side condition stated in terms of the API.

| property | how it is proved | result |
|---|---|---|
| C01 byte conversions | big-endian digits, bit extensionality | proved |
| C02 uint128 | each method against arithmetic mod 2^128 | proved |
| C03 masks | runs of ones, popcount = leading ones | proved |
| C04 network/host/broadcast | bit extensionality | proved |
| C05 halves | arithmetic | proved |
| C06 Range.Minus | interval case analysis with the wrap of prev/next | proved |
| C07 Range.Plus | as C06 | **false** if the lower range ends at the last address (`next()` wraps); proved otherwise |
| C08 a table is a map | invariant `wf` + abstraction to a map, induction over histories | proved |
| C09 Remove | as C08 | **false**: removing a join node's prefix returns true; the rest proved |
| C10 longest match | induction on the trie | proved |
| C11 Walk, C12 NumEntries | event list, sorted by key | proved |
| C13 Diff | event list characterised by the two maps; the walk folds the callbacks over it | proved |
| C14 Diff order | as C13 plus `DiffOrder.v`, spec `DiffSpec.v` | **false** as stated (one kind of swapped pair); the exact order is proved (`C14_diff_order_exact_partial`), and that order and content determine the list |
| C15 skipping shared nodes | for every oracle the observable result is the same | proved |
| C16 Aggregate keeps lookups | induction with the umbrella value | **false**: grandchildren dropped; proved under a side condition, with exactness; for every table the result is the function `aggregated` (`AggSpec.v`) of the map |
| C17 Aggregate minimal, idempotent | counterexamples; `aggregated` on maps of one value (`AggFun.v`) | **false**; not larger: proved; minimal, unique and idempotent: proved for tables of one value |
| C18 comparator kept by Aggregate | counterexamples | **false** |
| C19 Map | sorted call list | **false**: called on join nodes too; values proved |
| C20 snapshots immutable | heap frame theorem for every operation and instruction | proved |
| C21 handles, snapshots, clones, Build | one-thread programs against the atomic machine | proved |
| C22 nil and uninitialised | case analysis | **false** for one call (FindAvailablePrefix(nil)) |
| C23-C24 set algebra, histories | denotation of the canonical trie, induction with fuel | proved |
| C25 Equal | canonical form is unique | **false** with host bits; proved without |
| C26-C28 | same | proved |
| C29 range to set | recursion on the centre | **false** for centred ranges; exact characterisation otherwise |
| C30 WalkRanges | fold invariant | proved |
| C31 WalkAddresses | loop invariant | **false** with 255.255.255.255 (wraps and never ends); proved otherwise |
| C32 NumPrefixes | counting | **false** for error cases; counts proved |
| C33-C34 FindAvailablePrefix | soundness, completeness, best fit | C33 **false** for lengths beyond the address size; proved up to it |
| C35 validity, no panic | invariant | proved |
| C36 depth | instrumented walks | proved |
| C37 linearizability (non-overlapping writers) | simulation of the heap machine by the atomic machine | proved |
| C38 no lost updates (overlapping writers) | same simulation, with a mark for disturbed calls | **false**; proved on every schedule when no handle is used for both adding and removing, in general when the root does not change between the two loads; on every schedule the visible events are those of the machine `ConcWeak.v`, in which a modifying call looks at the handle, looks again and computes from the second look, and stores only if the first look still holds (C38_*_any_schedule). Tables: every stored root is a new node, or (Remove) a child of the old root with fewer entries, so a handle never gets an old root back. Sets: the contents only grow (or only shrink), and a call that changes no contents gives back the very same trie (`SetAbsorb.v`), so a call that worked on another root than it loaded first cannot store |
| C39 package ip | case analysis | proved |
| C40 order, C41 net.IPNet | arithmetic | proved |
| C42 uncomparable values | counterexample | **false** |
| C43 IPv4 text | inversion of the parsers over all strings | proved |
| C44 IPv6 text, package ip | parsing loop inverts printing loop (induction over groups) | partial: **false** for v4-mapped addresses, proved for all others |
| C45 IPv6 canonical text | invariant of the loop that looks for the longest run; RFC 5952 as specification | proved |
| C46 masks, ranges, sets | walk of the set (C26); unique decomposition at commas | proved |
| C47 exactly which strings are read | inductive grammar of RFC 4291; the loop reads every derivation, and inversion of the loop gives one | proved |
| C48 ipv6 on pairs of words | literal model of the ipv6 files; simulation into the width-128 instance, then the laws of C08-C35 read back on pairs | proved |
| C49 replies on every schedule | simulation of the heap machine by a machine in which a modifying call looks twice (`ConcWeak.v`), invariant on its replies | proved |
| C50 no waiting | bound on the instructions of every heap program whatever it reads (`ConcWait.v`), lifted to threads (`ConcWait2.v`) | proved |
| C51 cost | the same bounds on runs of single calls; for sets and walks induction on the tree denoted (`HeapCost.v`); for operations on two sets, induction with a count of related nodes (`HeapCost2.v`) | proved |
| C52 setNode.Insert/Remove | `snode_insert`, `snode_remove` (SetNode.v, SetNode6.v; called by the package's tests only): induction on the trie against `Union`/`Difference` with a one-prefix set, splitting by `Range.Minus` via canonicity (`SetDel.v`), ipv6 by simulation (`SimDel6.v`) | partial: Insert of a prefix that sits at an inactive join returns the set unchanged (refuted) |
| C53 diff of snapshots | heap model: induction on `diff` with the count of nodes only one tree has (`HeapShare.v`); a modifying call's result consists of nodes of its argument and of nodes it allocated, by the program logic run with the argument's nodes as footprint, and drops at most two more (`HeapShare2.v`) | proved |
| C54 memory | heap model: the nodes reachable from a root are as many as the nodes of the tree (distinct keys), which inactive nodes with two children bound by twice the entries; minimality from C26 (`PropsMem.v`) | proved |
| C55 callbacks that use the library | Walk, Diff and Map once more at the level of nodes with callbacks that are programs (`HeapCb.v`); library calls leave existing nodes alone (C20), so the nodes read after a callback are those read before it; Map also stores, but only into nodes of its own (`HeapCbProof.v`, `HeapCbMap.v`, `PropsCb.v`) | proved |
| C56 calls that change nothing | heap model: an error is handed up with the receiver of every level; GetOrInsert's copies on the way up compare equal to the originals, which are returned (`PropsSame.v`, `PropsSame2.v`) | proved |
