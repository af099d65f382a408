#!/usr/bin/env python3
# Regenerates /verif/properties.jsonl
import json
P=[]
def p(id,title,statement,quantifier,why,anchors):
    P.append(dict(id=id,title=title,statement=statement,quantifier=quantifier,why_tests_cant=why,anchors=anchors))
p("C01","Address/byte round trip",
  "Converting an IPv4 address to its four bytes (ToNetIP) and back with AddressFromBytes/AddressFromSlice/AddressFromNetIP yields the same address, and every 4-byte slice is the byte form of exactly one address; likewise for the 16-byte form and the two-uint64 / eight-uint16 constructors of an IPv6 address. Slices of any other length (and nil) are rejected.",
  "all 2^32 IPv4 and 2^128 IPv6 addresses; all byte slices of any length",
  "2^128 inputs; sampling cannot exclude a single mis-shifted byte lane for some value",
  ["ipv4/address.go: AddressFromBytes, toBytes, fromSlice","ipv6/address.go: AddressFromUint16, fromSlice","ipv6/uint128.go: uint128FromBytes, toBytes"])
p("C02","128-bit arithmetic is exact",
  "The 128-bit integer used for IPv6 addresses computes and/or/xor/complement, shifts by any non-negative count, +x, -x, comparison, leading zeros and population count exactly as the mathematical 128-bit (mod 2^128) operation.",
  "all pairs of 128-bit values, all shift counts, all 64-bit addends",
  "carry/borrow and cross-word shift bugs live at boundaries in a 2^256 space",
  ["ipv6/uint128.go: compare, addUint64, subtractUint64, leftShift, rightShift, leadingZeros, onesCount"])
p("C03","Masks are exactly the leading-ones words",
  "MaskFromUint32/MaskFromUint64/MaskFromBytes/MaskFromUint16 accept a word iff it is a run of ones followed by zeros; MaskFromLength accepts n iff 0<=n<=32 (128) and yields the word with n leading ones; Length() of an accepted mask is the number of its leading ones, so length->mask->length and mask->length->mask are identities.",
  "all words, all integer lengths",
  "2^128 candidate masks of which 129 are valid; tests sample",
  ["ipv4/mask.go","ipv6/mask.go"])
p("C04","Network/Host/Broadcast arithmetic",
  "For every prefix, Network().Address() is the smallest and Broadcast()/upper limit the largest address whose first length bits agree with the prefix address; Host keeps exactly the remaining bits, and network|host rebuilds the address; all keep the length. In particular containment of an address in a prefix is the same as lying between network and broadcast.",
  "all prefixes (all addresses x all lengths 0..W), W=32 and 128",
  "2^32*33 / 2^128*129 prefixes, with /0 and /32 (/128) shift edge cases",
  ["ipv4/prefix.go: Network, Broadcast, Host, Mask, Range","ipv6/prefix.go: Network, Host, prefixUpperLimit, Range"])
p("C05","Halves partition a prefix",
  "For a prefix shorter than a host route, Halves() returns two prefixes of length+1 that are disjoint, whose union is exactly the prefix, in address order.",
  "all prefixes with length < W","all addresses and lengths",["ipv4/prefix.go: Halves","ipv6/prefix.go: Halves"])
p("C06","Range subtraction is exact",
  "r.Minus(o) returns at most two well-formed, ordered, non-adjacent ranges whose addresses are exactly those of r not in o, with no wrap-around at 0 or the maximum address.",
  "all pairs of ranges","quartic input space, wrap-around at both ends of the space",["ipv4/range.go: Minus, prev, next","ipv6/range.go: Minus"])
p("C07","Range addition is exact",
  "r.Plus(o) returns one or two well-formed ranges, sorted by first address, disjoint and non-adjacent, whose addresses are exactly those in r or o.",
  "all pairs of ranges, including ranges ending at the last address",
  "wrap-around of last+1 only shows for ranges ending at the maximum address",["ipv4/range.go: Plus, next","ipv6/range.go: Plus, next"])
p("C08","Table_ behaves as a map keyed by network prefix",
  "For every history of Insert/Update/InsertOrUpdate/GetOrInsert/Remove calls on an initialised table, every result other than Remove's boolean (see C09), and every later Get, is what a plain map from (network address, length) to value would give; host bits of the key never matter.",
  "all histories of operations, all prefixes, all values, all comparators that never panic",
  "unbounded histories over a path-compressed trie: splits, joins, promotions",["ipv4/tablex.go","ipv4/table.go","ipv4/node.go: insert, del, GetOrInsert, Match"])
p("C09","Remove reports absence",
  "Table_.Remove(p) returns true iff an entry with exactly that prefix existed, and otherwise changes nothing.",
  "all reachable tables and all prefixes","needs a prefix that coincides with an internal join node",["ipv4/tablex.go: Remove","ipv4/node.go: del"])
p("C10","Longest prefix match",
  "LongestMatch(p) returns the entry with the longest prefix that contains p (all of p's network bits), with its stored prefix and value; it reports not-found iff no entry contains p. Get succeeds iff an entry with the same network and length exists.",
  "all reachable tables and all search prefixes","all tries x all keys",["ipv4/node.go: Match","ipv4/tablex.go: longestMatch, LongestMatch, Get"])
p("C11","Walk enumerates entries once, in lexicographic order",
  "Walk calls the callback exactly once per entry, ordered by network address and then by length (shorter first), stops right after the first callback that returns false, and returns false iff that happened.",
  "all reachable tables, all callbacks (stateful)","all tries x all stopping points",["ipv4/node.go: Walk, diff","ipv4/table.go: Walk"])
p("C12","NumEntries counts the entries",
  "NumEntries equals the number of distinct entries (for tables of fewer than 2^32 entries).",
  "all reachable tables","the count is maintained incrementally through every structural change",["ipv4/node.go: mutate, NumNodes"])
p("C13","Diff reports exactly the difference",
  "Diff calls, for every prefix present in either table, exactly one of removed/added/changed/unchanged according to presence and comparator equality, exactly once, with both stored values; nil callbacks are skipped. Iteration stops after the first callback returning false and Diff returns false iff that happened.",
  "all pairs of tables, all comparators, all handlers","simultaneous traversal of two independently shaped tries",["ipv4/node.go: diff, Diff","ipv4/table.go: Diff"])
p("C14","Diff is in lexicographic order",
  "Diff invokes the callbacks in lexicographic order of the prefixes.",
  "all pairs of tables","requires disjoint subtrees with differing lengths",["ipv4/node.go: diff","ipv4/table.go: Diff"])
p("C15","Skipping shared structure never changes a Diff",
  "When no unchanged callback is given, skipping subtrees shared by pointer does not change which removed/added/changed callbacks happen (for a reflexive comparator).",
  "all pairs of tables and every possible sharing between them","the sharing depends on the whole history of both tables",["ipv4/node.go: diff"])
p("C16","Aggregate preserves longest-match values",
  "For every host address, LongestMatch on the aggregated table gives an equal value (or not-found) as on the original table.",
  "all tables, all addresses","every combination of nested and adjacent prefixes",["ipv4/node.go: aggregate","ipv4/table.go: Aggregate"])
p("C17","Aggregate is minimal",
  "The aggregated table has the minimum number of entries needed to give the same longest-match value for every host address; aggregating again changes nothing.",
  "all tables","a global optimality claim over all alternative tables",["ipv4/node.go: aggregate","ipv4/table.go: Aggregate"])
p("C18","An aggregated table is an ordinary table",
  "The table returned by Aggregate supports Diff, Map, Aggregate and Table_ with the comparator of the original.",
  "all tables and comparators","comparator propagation through every later operation",["ipv4/table.go: Aggregate","ipv4/tablex.go: Aggregate"])
p("C19","Map keeps the prefixes and maps every value",
  "Map(f) yields a table with exactly the same prefixes where each value is (up to the comparator) f(prefix, old value); f is invoked once per entry in lexicographic order and for nothing else.",
  "all tables, all mappers, all comparators","internal nodes are visited too",["ipv4/node.go: Map","ipv4/table.go: Map"])
p("C20","Snapshots are immutable",
  "No operation on a Table_/Set_ (or on any Table/Set) changes any node reachable from an already existing Table/Set: every earlier snapshot keeps its contents forever.",
  "all histories, all snapshots taken at any time","aliasing between versions: a single in-place write anywhere in a shared node breaks an old snapshot",["ipv4/node.go: mutate, copyMutate, insert, del, aggregate, Map","ipv4/setnode.go"])
p("C21","Handles are references, conversions are clones",
  "Copies of a Table_/Set_ handle observe each other's changes; t.Table() is a snapshot unaffected by later changes; t.Table().Table_() is an independent clone; Build returns the modified clone when the callback returns true and the original when false, never changing the receiver.",
  "all programs over any number of handles, snapshots and clones","unbounded interleavings of operations over many aliases",["ipv4/tablex.go","ipv4/table.go","ipv4/set.go"])
p("C22","Uninitialised Table_/Set_ reads as empty, panics on write",
  "Every read on a zero Table_/Set_ gives the result for an empty one and every modifying call panics; a nil PrefixI is 0/0 and a nil SetI is the empty set for every operation taking one.",
  "all operations and arguments","all methods x all arguments",["ipv4/set.go","ipv4/table.go","ipv4/tablex.go"])
p("C23","Set algebra",
  "Union, Intersection and Difference of any two sets contain exactly the addresses in either / both / the first but not the second; Set_.Insert and Set_.Remove are in-place union and difference; inserting what is already contained, or removing what is disjoint, leaves the set exactly as it was.",
  "all pairs of reachable sets, all addresses, any sharing between them","pairs of arbitrarily shaped tries over 2^32/2^128 addresses",["ipv4/setnode.go: Union, Difference, Intersect","ipv4/set.go"])
p("C24","Set histories",
  "After any sequence of Insert/Remove of addresses, prefixes and sets, the Set_ contains exactly the addresses that a mathematical set subjected to the same operations would contain.",
  "all histories","unbounded histories",["ipv4/set.go: Insert, Remove"])
p("C25","Set equality is extensional",
  "Equal returns true iff the two sets contain the same addresses.",
  "all pairs of reachable sets","all construction orders of the same address set",["ipv4/set.go: Equal","ipv4/setnode.go: Equal","ipv4/node.go: Equal, flatten"])
p("C26","Sets are stored as the minimum number of maximal prefixes",
  "WalkPrefixes lists the unique minimal family of prefixes exactly covering the set: no other family of prefixes with the same union has fewer members; they are disjoint, maximal, and in address order.",
  "all reachable sets, all alternative covers","a minimality claim over all covers",["ipv4/set.go: WalkPrefixes","ipv4/node.go: flatten"])
p("C27","NumAddresses is the cardinality",
  "NumAddresses is exactly the number of addresses in the set (also for the whole IPv4 space), and IsEmpty iff there is none.",
  "all reachable sets","counts up to 2^32 and sets with up to 2^31 pieces",["ipv4/node.go: NumAddresses","ipv6/node.go: IsEmpty","ipv4/set.go: NumAddresses, IsEmpty"])
p("C28","Contains is the subset relation",
  "a.Contains(b) iff every address of b is in a (Set, Set_, Prefix receivers).",
  "all pairs of sets","all pairs of sets",["ipv4/set.go: Contains","ipv4/prefix.go: Contains"])
p("C29","Range to Set conversion is exact",
  "r.Set() contains exactly the addresses from First() to Last(); hence Range.Contains and Range.NumAddresses agree with the range.",
  "all ranges","2^63 IPv4 ranges; only ranges whose ends differ in every low bit can expose an error",["ipv4/setnode.go: setNodeFromRange","ipv4/range.go: Set, Contains, NumAddresses"])
p("C30","WalkRanges yields the maximal ranges",
  "WalkRanges visits, in order, disjoint non-adjacent well-formed ranges whose union is exactly the set; it stops on the first false.",
  "all reachable sets, all callbacks","merging across arbitrary trie boundaries, and the top of the address space",["ipv4/set.go: WalkRanges"])
p("C31","WalkAddresses enumerates the set and terminates",
  "WalkAddresses visits every address of the set exactly once in increasing order and then returns.",
  "all reachable IPv4 sets","termination for sets touching 255.255.255.255",["ipv4/prefix.go: walkAddresses","ipv4/set.go: WalkAddresses"])
p("C32","NumPrefixes counts aligned sub-prefixes",
  "Set.NumPrefixes(n) is the number of prefixes of length n wholly contained in the set; lengths beyond the address size, and counts beyond 64 bits, are reported as errors.",
  "all reachable sets and all lengths","sets of arbitrary shape",["ipv4/set.go: NumPrefixes","ipv6/set.go: NumPrefixes","ipv4/prefix.go: NumPrefixes","ipv6/prefix.go: NumPrefixes"])
p("C33","FindAvailablePrefix is sound and complete",
  "FindAvailablePrefix(reserved,n) returns a prefix of length n whose addresses are all in the set and none reserved; it fails iff no such prefix exists.",
  "all pairs of sets, all uint32 lengths","simultaneous descent of two tries",["ipv4/set.go: FindAvailablePrefix","ipv4/setnode.go: FindSmallestContainingPrefix"])
p("C34","FindAvailablePrefix is best-fit",
  "The returned prefix lies at the start of a smallest possible maximal free block, so no larger free block is fragmented when a tighter one exists.",
  "all pairs of sets, all lengths","an optimality claim over all free blocks",["ipv4/setnode.go: best, findSmallestContainingPrefix, FindSmallestContainingPrefix"])
p("C35","Structural validity and absence of internal panics",
  "After any history of operations the internal integrity check (isValid) holds, and none of the 'should never happen' / 'unreachable' panics is reachable.",
  "all histories","invariant over all reachable states",["ipv4/node.go: isValid, flatten, insert, del","ipv4/setnode.go"])
p("C36","Bounded depth",
  "A lookup or update visits at most W+1 nodes (33 for IPv4, 129 for IPv6), whatever the number of entries.",
  "all reachable tables","needs a depth bound for every table",["ipv4/node.go: height, Match"])
p("C37","Concurrent use: atomic publication",
  "With one writer and any number of readers, every read sees the state after some prefix of the writer's completed operations, never an intermediate one, and reads never go back in time.",
  "all interleavings of one writer and any number of readers","schedules",["ipv4/tablex.go: mutate","ipv4/set.go: mutate","ipv4/unsafe_atomic.go"])
p("C38","Concurrent writers are detected",
  "Two conflicting concurrent writers never silently lose an update: each completed write is applied to the state it replaces, otherwise a panic occurs.",
  "all interleavings of any number of writers","schedules including A-B-A",["ipv4/tablex.go: mutate","ipv4/unsafe_atomic.go"])
p("C39","Family dispatch in package ip",
  "ip.PrefixFromAddressMask and ip.RangeFromAddresses succeed iff both arguments are of the same family, and give what the family package gives; ip.AddressFromNetIP/PrefixFromNetIPNet/MaskFromNetIPMask dispatch by size and reject every other size; the accessors return the component of the same family.",
  "all arguments of both families","all combinations",["ip/address.go","ip/prefix.go","ip/range.go","ip/mask.go"])
p("C40","Prefix order",
  "The lexicographic order used on prefixes is a strict total order: network address, then length (shorter first), then host bits.",
  "all triples of prefixes","transitivity/totality over all triples",["ipv4/prefix.go: lessThan"])
p("C41","net.IPNet round trip",
  "Converting a prefix (host bits included) to *net.IPNet and back yields the same prefix; PrefixFromNetIPNet accepts exactly the non-nil values whose mask is canonical and has the family's size and whose IP is an address of the family, and keeps address and mask length.",
  "all prefixes; all byte slices as IP and Mask","all byte slices of any length",["ipv4/prefix.go: PrefixFromNetIPNet, ToNetIPNet","ipv6/prefix.go: PrefixFromNetIPNet, ToNetIPNet"])
p("C42","Tables hold values of any type",
  "A table made with NewTableCustomCompare_ works for every value type, including types that Go's == cannot compare: Insert of a new prefix succeeds whatever the stored values are.",
  "all tables, all value types","all value types",["ipv4/node.go: copyMutate","ipv4/tablex.go: newTable_CustomCompare"])
p("C43","IPv4 text is exact both ways",
  "The String of an IPv4 address is its dotted quad and AddressFromString gives the same address back; a string without a colon parses as an IPv4 address only if it is exactly the dotted quad of the result. A string parses as an IPv4 prefix iff it is the dotted quad, a slash and a decimal number of at most 32, and the prefix is the one written (host bits kept); the String of a prefix parses back to it.",
  "all IPv4 addresses and prefixes; all strings","all strings and all addresses",["ipv4/address.go: AddressFromString, String","ipv4/prefix.go: PrefixFromString, String"])
p("C44","IPv6 text round trip, and text through package ip",
  "Every IPv6 address and prefix is recovered from its String by ipv6.AddressFromString / PrefixFromString; every address and prefix of either family is recovered, with its family, from its String by ip.AddressFromString / ip.PrefixFromString; no string is an address of both families.",
  "all IPv6 addresses and prefixes; all strings","all 2^128 addresses and all strings",["ipv6/address.go: AddressFromString, String","ipv6/prefix.go: PrefixFromString, String","ip/address.go: AddressFromString","ip/prefix.go: PrefixFromString"])
p("C45","IPv6 text is canonical",
  "The String of an IPv6 address that is not v4-mapped is its RFC 5952 form: eight groups in lower-case hexadecimal without leading zeros, the first longest run of two or more zero groups written as ::. Different addresses of a family always have different Strings, so Strings can be used as keys.",
  "all addresses, all pairs of addresses","all 2^128 addresses and pairs of them",["ipv6/address.go: String","ipv4/address.go: String"])
p("C46","Text of masks, ranges and sets",
  "The String of a mask is that of the address with the same bits; the String of a range shows its first and last address and determines the range; the String of a set lists, in brackets, the prefixes WalkPrefixes reports, in that order, and sets with the same String contain the same addresses.",
  "all masks, ranges and sets","all sets reachable by any sequence of operations",["ipv4/mask.go: String","ipv4/range.go: String","ipv4/set.go: String","ipv6/mask.go: String","ipv6/range.go: String","ipv6/set.go: String"])
p("C47","Exactly the texts of IP addresses are read",
  "ipv6.AddressFromString accepts a string iff it is one of the forms of RFC 4291 section 2.2 (eight hexadecimal groups, or fewer with one ::, the last 32 bits possibly a dotted quad; any case and any number of leading zeros) of an address that is not v4-mapped, and returns that address; ipv4.AddressFromString accepts exactly the dotted quads and the IPv6 texts of v4-mapped addresses; ipv6.PrefixFromString accepts exactly an IPv6 text, a slash and a decimal number of at most 128. Every other string is refused.",
  "all strings","all strings",["ipv6/address.go: AddressFromString","ipv6/prefix.go: PrefixFromString, parseNet","ipv4/address.go: AddressFromString"])
p("C48","Package ipv6 obeys the same laws on its own pairs of words",
  "Package ipv6 computes on addresses that are pairs of 64-bit words, with its own copy of the trie, set and table code. Every history of its table operations leaves the map the operations spell out; Get, LongestMatch, Walk, NumEntries, Diff, Aggregate and Map of its tables, and Union, Intersection, Difference, Insert, Remove, Contains, Equal, IsEmpty, WalkPrefixes, WalkRanges, NumPrefixes and FindAvailablePrefix of its sets, obey on the 128-bit numbers represented the laws stated in C08-C14, C16, C19, C21-C30, C32-C35 (with the exceptions stated there).",
  "all 128-bit addresses and prefixes as pairs of words, all histories, all values, all callbacks","all 2^128 addresses and all histories; carries, borrows and shifts across the two words",["ipv6/node.go","ipv6/setnode.go","ipv6/table.go","ipv6/tablex.go","ipv6/set.go","ipv6/uint128.go"])
p("C49","Replies on every schedule",
  "Whatever calls run concurrently, including modifying calls that overlap, every call that returns gives an ordinary reply: reads, snapshots and constructors never panic (FindAvailablePrefix with a nil reserved set, and Map with a custom comparator, excepted), and a modifying call on an initialised handle panics only if another modifying call on the same handle was in progress during it.",
  "all interleavings of any number of threads, calls and handles","schedules",["ipv4/tablex.go: mutate","ipv4/set.go: mutate","ipv4/table.go","ipv4/unsafe_atomic.go"])
p("C50","No call waits for another goroutine",
  "Every call returns after a number of its own steps bounded by a function of the address width alone, whatever other goroutines do, how many there are, or where they stop; in every state every call in progress can take its next step.",
  "all interleavings, all numbers of threads, all points at which other threads stop","schedules and the absence of starvation",["ipv4/tablex.go: mutate","ipv4/set.go: mutate","ipv4/node.go","ipv4/setnode.go"])
p("C51","Cost does not grow with the size",
  "Insert, Update, InsertOrUpdate, GetOrInsert and Remove on a table, and Insert and Remove of a prefix on a set, leave every existing node untouched and allocate at most a number of nodes proportional to the address width, whatever the size of the table or set; Get, LongestMatch and NumEntries, and Contains of an address, read at most one path; Walk, WalkPrefixes, WalkRanges and Diff read a number of nodes proportional to the number of entries, as do NumAddresses, IsEmpty and Equal; Union, Difference and Intersection of two sets take a number of steps proportional to the numbers of their prefixes and leave the operands untouched.",
  "all tables and sets of any size, all prefixes, all callbacks","asymptotic claims for sizes no test reaches",["ipv4/node.go: insert, del, copyMutate, mutate, Match, diff","ipv4/setnode.go: Union, Difference","ipv4/table.go","ipv4/set.go"])
p("C52","Single prefixes on a set trie",
  "On the set trie itself, Remove(prefix) returns exactly the set that Difference with the prefix returns, and Insert(prefix) exactly the set that Union with the prefix returns, so a caller may use either form.",
  "all sets obtainable by any sequence of operations, all prefixes, all outcomes of pointer comparisons, both address families","all sets and prefixes",["ipv4/setnode.go: Insert, Remove","ipv4/node.go: insert, del","ipv6/setnode.go: Insert, Remove","ipv6/node.go: insert, del"])
p("C53","Diff between snapshots costs in proportion to the changes",
  "Take a snapshot of a table, apply any modifying calls, take another: Diff between the two, in either direction and without a callback for unchanged entries, reads no node that both tables have, and at most a number of nodes proportional to the number of calls made in between (times the address width), whatever the size of the tables and whatever else ran meanwhile on other tables.",
  "all tables of any size, all histories of modifying calls, all prefixes and values, all callbacks, both directions","a claim about growth for sizes no test reaches",["README.md","ipv4/node.go: diff, Diff, insert, del, copyMutate","ipv4/table.go: Diff"])
p("C54","Memory is proportional to the minimal prefixes",
  "A set, however it was obtained, keeps at least one and fewer than two nodes for each prefix of the smallest family of prefixes that covers exactly its addresses; a table keeps at least one and fewer than two nodes for each entry; and a table obtained from a snapshot by modifying calls keeps, besides nodes of the snapshot, at most a path of nodes for each call.",
  "all sets and tables obtainable by any sequence of operations, all families of prefixes, all histories of modifying calls","a claim about growth, over all sets and all ways to cover them",["README.md","ipv4/setnode.go: Union, Difference","ipv4/node.go: insert, del, copyMutate"])
p("C55","Callbacks may use the library",
  "The callbacks of Walk, Diff and Map, and those of a set's WalkPrefixes, may themselves call the library, also to modify the very handle whose contents are being walked: the walk behaves as if the entries had all been taken down first and the callback were then called on one after the other until it returns false; Map returns what it would with a mapper that just gave the same answers. In particular one can walk a table and remove entries from it on the way: exactly the unwanted entries are gone afterwards.",
  "all tables and sets obtainable by any sequence of operations, all callbacks made of library calls (nested walks included), all nodes present in memory","quantifies over all programs a callback may run",["ipv4/table.go: Walk, Diff, Map","ipv4/set.go: WalkPrefixes","ipv4/node.go: Walk, diff, Diff, Map"])
p("C56","Calls that change nothing give back the same table or set",
  "Inserting a prefix that has an entry, updating one that has none, a Remove that reports false, and GetOrInsert of a prefix that has an entry leave the handle with the very same nodes, not with an equal copy, so that a Diff between the table before and after (without a callback for unchanged entries) returns at once, without reading a node, however large the table. Likewise the Difference of two sets without a common address is the very first set, and no node is made for it.",
  "all tables and sets obtainable by any sequence of operations, all prefixes and values, all nodes present in memory","a claim about all tables and sets of any size",["ipv4/node.go: insert, del, GetOrInsert, copyMutate, diff","ipv4/setnode.go: Difference"])
if __name__=="__main__":
    with open("/verif/properties.jsonl","w") as f:
        for x in P: f.write(json.dumps(x)+"\n")
    print(len(P))
