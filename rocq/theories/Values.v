(* Values.v - Address, Mask, Prefix and Range (ipv4/address.go, mask.go,
   prefix.go, range.go), written once for a width W.
   W = 32 is package ipv4.  W = 128 is package ipv6 with the struct uint128
   read as the number high*2^64+low; U128.v models the struct itself and V6.v
   proves that every ipv6 expression equals the W = 128 instance used here.
   Simplification: a Go Address/Mask is a struct with one word; it is modelled
   by the word.  Prefix.Length() is an int conversion of a uint32, modelled by N. *)
From Verif Require Export Word.

(* ipv4/prefix.go:16-19, ipv6/prefix.go:16-19: type Prefix struct { addr Address; length uint32 } *)
Record prefix := mkPrefix { paddr : N; plen : N }.

(* ipv4/range.go:14-16, ipv6/range.go:14-16: type Range struct { first, last Address } *)
Record range := mkRange { rfirst : N; rlast : N }.

(* Prefix{}: the zero value, 0.0.0.0/0 *)
Definition zero_prefix : prefix := mkPrefix 0 0.

(* Go's == on the struct Prefix *)
Definition prefix_eqb (p q : prefix) : bool := (paddr p =? paddr q) && (plen p =? plen q).

Section Width.
Variable W : N.

(* ipv4/address.go:84-86 (lessThan), ipv6/address.go:87-89 *)
Definition addr_lt (a b : N) : bool := a <? b.
(* ipv4/address.go:61-66, 69-74 *)
Definition minAddress (a b : N) : N := if addr_lt a b then a else b.
Definition maxAddress (a b : N) : N := if addr_lt a b then b else a.
(* ipv4/address.go:89-91 : Prefix{me, uint32(addressSize)} *)
Definition addr_prefix (a : N) : prefix := mkPrefix a W.

(* ipv4/mask.go:88-92, ipv6/mask.go:87-91: lengthToMask.
   Simplification: for length > W Go computes a negative shift count and
   panics; no constructor of Prefix or Mask yields such a length, except
   FindAvailablePrefix (see C33), so the guard is a hypothesis of the theorems. *)
Definition lengthToMask (len : N) : N := wshl W (N.ones W) (W - len).

(* ipv4/mask.go:20-26 (length is an int, hence Z) : None = error *)
Definition MaskFromLength (len : Z) : option N :=
  if (Z.ltb len 0 || Z.ltb (Z.of_N W) len)%bool then None
  else Some (lengthToMask (Z.to_N len)).

(* ipv4/mask.go:65-67 Length: bits.LeadingZeros32(^me.ui) *)
Definition mask_length (m : N) : N := clz W (wnot W m).
(* ipv4/mask.go:84-86 valid *)
Definition mask_valid (m : N) : bool := mask_length m =? popcount m.
(* ipv4/mask.go:40-46 MaskFromUint32, ipv6/mask.go:39-45 MaskFromUint64 : None = error *)
Definition MaskFromUint (ui : N) : option N := if mask_valid ui then Some ui else None.

(* ipv4/prefix.go:53-58 PrefixFromAddressMask *)
Definition PrefixFromAddressMask (a m : N) : prefix := mkPrefix a (mask_length m).

(* ipv4/prefix.go:122-124 Mask *)
Definition prefix_mask (p : prefix) : N := lengthToMask (plen p).
(* ipv4/prefix.go:131-139 Network *)
Definition Network (p : prefix) : prefix := mkPrefix (N.land (paddr p) (prefix_mask p)) (plen p).
(* ipv4/prefix.go:145-153 Broadcast; ipv6/prefix.go:193-201 prefixUpperLimit *)
Definition Broadcast (p : prefix) : prefix :=
  mkPrefix (N.lor (paddr p) (wnot W (prefix_mask p))) (plen p).
(* ipv4/prefix.go:157-165 Host *)
Definition Host (p : prefix) : prefix :=
  mkPrefix (N.land (paddr p) (wnot W (prefix_mask p))) (plen p).

(* ipv4/prefix.go:104-113 lessThan *)
Definition prefix_lt (p q : prefix) : bool :=
  if negb (paddr (Network p) =? paddr (Network q)) then
    addr_lt (paddr (Network p)) (paddr (Network q))
  else if plen p =? plen q then addr_lt (paddr (Host p)) (paddr (Host q))
  else plen p <? plen q.

(* ipv4/range.go:21-29 RangeFromAddresses; the boolean is [empty] *)
Definition RangeFromAddresses (first last : N) : range * bool :=
  if addr_lt last first then (mkRange 0 0, true) else (mkRange first last, false).

(* ipv4/prefix.go:224-228 Range *)
Definition prefix_range (p : prefix) : range :=
  fst (RangeFromAddresses (paddr (Network p)) (paddr (Broadcast p))).

(* ipv4/prefix.go:232-245 Halves; the zero prefixes when length = W *)
Definition Halves (p : prefix) : prefix * prefix :=
  if plen p <? W then
    let base := paddr (Network p) in
    (mkPrefix base (plen p + 1),
     mkPrefix (N.lor base (wshr W (2 ^ (W - 1)) (plen p))) (plen p + 1))
  else (zero_prefix, zero_prefix).

(* ipv4/range.go:109-111 prev, 115-117 next: wrapping -1 / +1 *)
Definition range_prev (r : range) : N := wsub W (rfirst r) 1.
Definition range_next (r : range) : N := wadd W (rlast r) 1.

(* ipv4/range.go:64-79 Minus *)
Definition range_minus (me other : range) : list range :=
  (if addr_lt (rfirst me) (rfirst other)
   then [mkRange (rfirst me) (minAddress (range_prev other) (rlast me))] else [])
  ++
  (if addr_lt (rlast other) (rlast me)
   then [mkRange (maxAddress (rfirst me) (range_next other)) (rlast me)] else []).

(* ipv4/range.go:85-98 Plus *)
Definition range_plus (me other : range) : list range :=
  let plus a b :=
    if addr_lt (range_next a) (rfirst b) then [a; b]
    else [mkRange (rfirst a) (maxAddress (rlast a) (rlast b))] in
  if addr_lt (rfirst me) (rfirst other) then plus me other else plus other me.

(* ipv4/prefix.go:183-193 NumPrefixes (ipv4): (count, err<>nil).
   Simplification: uint64(math.Pow(2, float64(k))) is taken to be 2^k, exact for
   k <= 63 (math.Pow is exact on powers of two). *)
Definition prefix_num_prefixes4 (p : prefix) (len : N) : N * bool :=
  if W <? len then (0, true)
  else if len <? plen p then (0, false)
  else (2 ^ (len - plen p), false).
(* ipv6/prefix.go:122-134 NumPrefixes (ipv6) *)
Definition prefix_num_prefixes6 (p : prefix) (len : N) : N * bool :=
  if W <? len then (0, true)
  else if len <? plen p then (0, false)
  else if 63 <? len - plen p then (0, true)
  else (2 ^ (len - plen p), false).
End Width.

(* ---- ipv4 byte forms ---- *)

(* ipv4/address.go:26-30 AddressFromBytes *)
Definition AddressFromBytes4 (a b c d : N) : N :=
  N.lor (N.lor (N.lor (wshl 32 a 24) (wshl 32 b 16)) (wshl 32 c 8)) d.
(* ipv4/address.go:114-120 toBytes.  In Go & and >> have the same precedence,
   so the source reads (me.ui & 0xff000000) >> 24 etc. *)
Definition toBytes4 (ui : N) : N * N * N * N :=
  ((N.shiftr (N.land ui 0xff000000) 24) mod 256,
   (N.shiftr (N.land ui 0xff0000) 16) mod 256,
   (N.shiftr (N.land ui 0xff00) 8) mod 256,
   (N.land ui 0xff) mod 256).
(* ipv4/address.go:124-132 fromSlice; a nil slice is None *)
Definition fromSlice4 (s : option (list N)) : option N :=
  match s with
  | None => None
  | Some [a; b; c; d] => Some (AddressFromBytes4 a b c d)
  | Some _ => None
  end.
(* ipv4/address.go:77-80 ToNetIP: net.IPv4(a,b,c,d).To4() is the slice a,b,c,d *)
Definition ToNetIP4 (ui : N) : list N :=
  let '(a, b, c, d) := toBytes4 ui in [a; b; c; d].
(* net.IP.To4 of the Go standard library (net/ip.go): 4 bytes unchanged; 16
   bytes with the ::ffff:0:0/96 prefix give the last four; anything else nil. *)
Definition To4 (ip : list N) : option (list N) :=
  if N.of_nat (length ip) =? 4 then Some ip
  else if (N.of_nat (length ip) =? 16) && forallb (N.eqb 0) (firstn 10 ip)
          && (nth 10 ip 0 =? 0xff) && (nth 11 ip 0 =? 0xff)
  then Some (skipn 12 ip) else None.
(* ipv4/address.go:39-41 AddressFromNetIP *)
Definition AddressFromNetIP4 (ip : list N) : option N := fromSlice4 (To4 ip).
(* ipv4/mask.go:30-36 MaskFromBytes *)
Definition MaskFromBytes4 (a b c d : N) : option N := MaskFromUint 32 (AddressFromBytes4 a b c d).
