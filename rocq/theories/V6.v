(* V6.v - package ipv6 at the level of its own types: addresses are uint128
   structs and every expression uses the methods of uint128.go, exactly as the
   ipv6 files write it.  V6Proof.v shows that each function computes, on the
   numbers represented, what the width-128 instance of Values.v / Trie.v /
   SetNode.v computes; Trie6.v, SetNode6.v, Table6.v and SetApi6.v model the rest
   of ipv6/node.go, setnode.go, table.go, tablex.go and set.go on top of it. *)
From Verif Require Export U128 Trie.

(* ipv6/prefix.go:16-19, ipv6/range.go:14-16 *)
Record prefix6 := mkPrefix6 { paddr6 : u128; plen6 : N }.
Record range6 := mkRange6 { rfirst6 : u128; rlast6 : u128 }.

(* ipv6/prefix.go:138-140 Mask *)
Definition prefix_mask6 (p : prefix6) : u128 := u_lengthToMask (plen6 p).
(* ipv6/prefix.go:147-155 Network *)
Definition Network6 (p : prefix6) : prefix6 := mkPrefix6 (u_and (paddr6 p) (prefix_mask6 p)) (plen6 p).
(* ipv6/prefix.go:159-167 Host *)
Definition Host6 (p : prefix6) : prefix6 := mkPrefix6 (u_and (paddr6 p) (u_not (prefix_mask6 p))) (plen6 p).
(* ipv6/prefix.go:193-201 prefixUpperLimit *)
Definition UpperLimit6 (p : prefix6) : prefix6 := mkPrefix6 (u_or (paddr6 p) (u_not (prefix_mask6 p))) (plen6 p).
(* ipv6/prefix.go:53-58 PrefixFromAddressMask *)
Definition PrefixFromAddressMask6 (a m : u128) : prefix6 := mkPrefix6 a (u_mask_length m).
(* ipv6/prefix.go:104-113 lessThan *)
Definition prefix_lt6 (me other : prefix6) : bool :=
  if negb (u_eqb (paddr6 (Network6 me)) (paddr6 (Network6 other)))
  then u_lt (paddr6 (Network6 me)) (paddr6 (Network6 other))
  else if plen6 me =? plen6 other then u_lt (paddr6 (Host6 me)) (paddr6 (Host6 other))
  else plen6 me <? plen6 other.
(* ipv6/range.go:21-29 RangeFromAddresses *)
Definition RangeFromAddresses6 (first last : u128) : range6 * bool :=
  if u_lt last first then (mkRange6 (mkU 0 0) (mkU 0 0), true) else (mkRange6 first last, false).
(* ipv6/prefix.go:205-209 Range *)
Definition prefix_range6 (p : prefix6) : range6 :=
  fst (RangeFromAddresses6 (paddr6 (Network6 p)) (paddr6 (UpperLimit6 p))).
(* ipv6/prefix.go:213-226 Halves *)
Definition Halves6 (p : prefix6) : prefix6 * prefix6 :=
  if plen6 p <? 128 then
    let base := paddr6 (Network6 p) in
    (mkPrefix6 base (plen6 p + 1), mkPrefix6 (u_or base (u_shr u_top (plen6 p))) (plen6 p + 1))
  else (mkPrefix6 (mkU 0 0) 0, mkPrefix6 (mkU 0 0) 0).
(* ipv6/address.go:65-70 minAddress, 73-78 maxAddress *)
Definition minAddress6 (a b : u128) : u128 := if u_lt a b then a else b.
Definition maxAddress6 (a b : u128) : u128 := if u_lt a b then b else a.
(* ipv6/range.go:103-105 prev, 109-111 next *)
Definition range_prev6 (r : range6) : u128 := u_sub (rfirst6 r) 1.
Definition range_next6 (r : range6) : u128 := u_add (rlast6 r) 1.
(* ipv6/range.go:58-73 Minus *)
Definition range_minus6 (me other : range6) : list range6 :=
  (if u_lt (rfirst6 me) (rfirst6 other)
   then [mkRange6 (rfirst6 me) (minAddress6 (range_prev6 other) (rlast6 me))] else [])
  ++
  (if u_lt (rlast6 other) (rlast6 me)
   then [mkRange6 (maxAddress6 (rfirst6 me) (range_next6 other)) (rlast6 me)] else []).
(* ipv6/range.go:79-92 Plus *)
Definition range_plus6 (me other : range6) : list range6 :=
  let plus a b :=
    if u_lt (range_next6 a) (rfirst6 b) then [a; b]
    else [mkRange6 (rfirst6 a) (maxAddress6 (rlast6 a) (rlast6 b))] in
  if u_lt (rfirst6 me) (rfirst6 other) then plus me other else plus other me.

(* ipv6/node.go:50-68 contains *)
Definition contains6 (shorter longer : prefix6) : bool * bool * N * bool :=
  let mask := u_shl u_max (wsub 32 128 (plen6 shorter)) in
  let matches := u_eqb (u_and (paddr6 shorter) mask) (u_and (paddr6 longer) mask) in
  let exact := matches && (plen6 shorter =? plen6 longer) in
  let common := if matches then plen6 shorter
                else u_leadingZeros (u_xor (paddr6 shorter) (paddr6 longer)) in
  let child := if exact then false
               else negb (u_eqb (u_and (paddr6 longer) (u_shr u_top common)) (mkU 0 0)) in
  (matches, exact, common, child).
(* ipv6/node.go:78-98 compare *)
Definition compare6 (a b : prefix6) : cmpres * bool * N * bool :=
  let reversed := plen6 b <? plen6 a in
  let '(aMatch, bMatch, common, child) :=
    if reversed
    then let '(m, e, common, child) := contains6 b a in (e, m, common, child)
    else let '(m, e, common, child) := contains6 a b in (m, e, common, child) in
  let result :=
    match aMatch, bMatch with
    | true, true => compareSame
    | true, false => compareContains
    | false, true => compareIsContained
    | false, false => compareDisjoint
    end in
  (result, reversed, common, child).
(* ipv6/node.go:448-456, ipv6/setnode.go:169-177: the prefix of a joining node *)
Definition join_prefix6 (me : prefix6) (common : N) : prefix6 :=
  mkPrefix6 (u_and (paddr6 me) (u_not (u_shr u_max common))) common.

(* ipv6/setnode.go:23-46 setNodeFromRange: the test, the prefix it returns and
   the two ranges it recurses on *)
Definition range_split6 (r : range6) : prefix6 + range6 * range6 :=
  let xor := u_xor (rfirst6 r) (rlast6 r) in
  let numCommonBits := u_leadingZeros xor in
  if numCommonBits =? u_onesCount (u_not xor)
  then inl (mkPrefix6 (rfirst6 r) numCommonBits)
  else
    let pivot0 := u_and (rfirst6 r) (u_shl u_max (128 - numCommonBits)) in
    let pivot := u_or pivot0 (u_shr u_top numCommonBits) in
    inr (mkRange6 (rfirst6 r) (u_sub pivot 1), mkRange6 pivot (rlast6 r)).
