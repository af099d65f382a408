(* U128.v - model of ipv6/uint128.go and of the byte/word constructors of
   ipv6/address.go and ipv6/mask.go.  A uint64 is an N below 2^64. *)
From Verif Require Export Values.

(* ipv6/uint128.go:20-22 *)
Record u128 := mkU { high : N; low : N }.

(* ipv6/uint128.go:25-50 uint128FromBytes: None is the error return (a nil slice,
   or one that does not have 16 bytes) *)
Definition word8 (s : list N) : N :=
  match s with
  | [s0; s1; s2; s3; s4; s5; s6; s7] =>
    N.lor (N.lor (N.lor (N.lor (N.lor (N.lor (N.lor (wshl 64 s0 56) (wshl 64 s1 48)) (wshl 64 s2 40))
      (wshl 64 s3 32)) (wshl 64 s4 24)) (wshl 64 s5 16)) (wshl 64 s6 8)) s7
  | _ => 0
  end.
Definition uint128FromBytes (s : option (list N)) : option u128 :=
  match s with
  | None => None
  | Some bs =>
    if negb (N.of_nat (length bs) =? 16) then None
    else Some (mkU (word8 (firstn 8 bs)) (word8 (skipn 8 bs)))
  end.

(* ipv6/uint128.go:53-73 toBytes *)
Definition bytes8 (w : N) : list N :=
  map (fun k => (N.land 0xff (wshr 64 w k)) mod 256) [56; 48; 40; 32; 24; 16; 8; 0].
Definition u_toBytes (u : u128) : list N := bytes8 (high u) ++ bytes8 (low u).

(* ipv6/uint128.go:76-78 uint64 *)
Definition u_uint64 (u : u128) : N * N := (high u, low u).
(* ipv6/uint128.go:81-83 onesCount *)
Definition u_onesCount (u : u128) : N := popcount (high u) + popcount (low u).
(* ipv6/uint128.go:86-92 leadingZeros *)
Definition u_leadingZeros (u : u128) : N :=
  let z := clz 64 (high u) in if z =? 64 then z + clz 64 (low u) else z.
(* Go's == on the struct *)
Definition u_eqb (a b : u128) : bool := (high a =? high b) && (low a =? low b).
(* ipv6/uint128.go:101-109 compare *)
Definition u_compare (me other : u128) : Z :=
  if u_eqb me other then 0%Z
  else if (high me <? high other) || ((high me =? high other) && (low me <? low other)) then (-1)%Z
  else 1%Z.
(* ipv6/uint128.go:112-119 addUint64 *)
Definition u_add (me : u128) (x : N) : u128 :=
  let l := wadd 64 (low me) x in
  mkU (if l <? low me then wadd 64 (high me) 1 else high me) l.
(* ipv6/uint128.go:122-129 subtractUint64 *)
Definition u_sub (me : u128) (x : N) : u128 :=
  let l := wsub 64 (low me) x in
  mkU (if low me <? l then wsub 64 (high me) 1 else high me) l.
(* ipv6/uint128.go:132-134, 137-139, 142-144, 147-149 *)
Definition u_and (me x : u128) : u128 := mkU (N.land (high me) (high x)) (N.land (low me) (low x)).
Definition u_or (me x : u128) : u128 := mkU (N.lor (high me) (high x)) (N.lor (low me) (low x)).
Definition u_xor (me x : u128) : u128 := mkU (N.lxor (high me) (high x)) (N.lxor (low me) (low x)).
Definition u_not (me : u128) : u128 := mkU (wnot 64 (high me)) (wnot 64 (low me)).
(* ipv6/uint128.go:152-167 leftShift.  The count is a Go int; a negative count
   makes the shift panic, and is excluded here by taking it in N. *)
Definition u_shl (me : u128) (bits : N) : u128 :=
  if 128 <=? bits then mkU 0 0
  else if 64 <=? bits then mkU (wshl 64 (low me) (bits - 64)) 0
  else mkU (N.lor (wshl 64 (high me) bits) (wshr 64 (low me) (64 - bits))) (wshl 64 (low me) bits).
(* ipv6/uint128.go:170-185 rightShift *)
Definition u_shr (me : u128) (bits : N) : u128 :=
  if 128 <=? bits then mkU 0 0
  else if 64 <=? bits then mkU 0 (wshr 64 (high me) (bits - 64))
  else mkU (wshr 64 (high me) bits) (N.lor (wshr 64 (low me) bits) (wshl 64 (high me) (64 - bits))).

(* ipv6/mask.go:16 maxUint128; the literal uint128{0xffffffffffffffff, 0xffffffffffffffff} *)
Definition u_max : u128 := mkU (N.ones 64) (N.ones 64).
(* the literal uint128{0x8000000000000000, 0} *)
Definition u_top : u128 := mkU (2 ^ 63) 0.

(* ipv6/address.go:19-21 AddressFromUint64, 112-114 Uint64 *)
Definition AddressFromUint64 (h l : N) : u128 := mkU h l.
(* ipv6/address.go:24-34 AddressFromUint16 *)
Definition word4 (a b c d : N) : N :=
  N.lor (N.lor (N.lor (wshl 64 a 48) (wshl 64 b 32)) (wshl 64 c 16)) d.
Definition AddressFromUint16 (a b c d e f g h : N) : u128 := mkU (word4 a b c d) (word4 e f g h).
(* ipv6/address.go:118-127 fromSlice, 38-40 AddressFromSlice, 43-45 AddressFromNetIP *)
Definition fromSlice6 (s : option (list N)) : option u128 :=
  match s with
  | None => None
  | Some bs => if negb (N.of_nat (length bs) =? 16) then None else uint128FromBytes (Some bs)
  end.
(* ipv6/address.go:81-83 ToNetIP *)
Definition ToNetIP6 (u : u128) : list N := u_toBytes u.
(* ipv6/address.go:87-89 lessThan *)
Definition u_lt (a b : u128) : bool := (u_compare a b <? 0)%Z.
(* ipv6/mask.go:64-66 Length, 83-85 valid, 39-45 MaskFromUint64, 29-35 MaskFromUint16, 87-91 lengthToMask *)
Definition u_mask_length (m : u128) : N := u_leadingZeros (u_not m).
Definition u_mask_valid (m : u128) : bool := u_mask_length m =? u_onesCount m.
Definition MaskFromUint64 (h l : N) : option u128 := if u_mask_valid (mkU h l) then Some (mkU h l) else None.
Definition MaskFromUint16 (a b c d e f g h : N) : option u128 :=
  let m := AddressFromUint16 a b c d e f g h in if u_mask_valid m then Some m else None.
Definition u_lengthToMask (len : N) : u128 := u_shl u_max (128 - len).
(* ipv6/mask.go:19-25 MaskFromLength *)
Definition u_MaskFromLength (len : Z) : option u128 :=
  if (Z.ltb len 0 || Z.ltb 128 len)%bool then None else Some (u_lengthToMask (Z.to_N len)).
