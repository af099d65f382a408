(* Net.v - the conversions between the library's values and those of Go's
   package net.  net.IP and net.IPMask are byte slices; a nil slice behaves like
   an empty one in all the functions used here. *)
From Verif Require Export V6.

(* ---- Go's package net (net/ip.go) ---- *)

(* the inner loop of simpleMaskLength on one byte that is not 0xff:
     for v&0x80 != 0 { n++; v <<= 1 };  if v != 0 { return -1 }
   fuel 8 suffices because v <<= 1 on a byte reaches 0 after 8 steps *)
Fixpoint byte_ones (fuel : nat) (v : N) : option N :=
  if N.land v 0x80 =? 0 then (if v =? 0 then Some 0 else None)
  else match fuel with
       | O => None
       | S f => option_map (N.add 1) (byte_ones f (wshl 8 v 1))
       end.
(* simpleMaskLength; None is the result -1 *)
Fixpoint simpleMaskLength (m : list N) : option N :=
  match m with
  | [] => Some 0
  | v :: m' =>
    if v =? 0xff then option_map (N.add 8) (simpleMaskLength m')
    else match byte_ones 8 v with
         | None => None
         | Some n => if forallb (N.eqb 0) m' then Some n else None
         end
  end.
(* (IPMask).Size: (ones, bits), or (0, 0) if the mask is not canonical *)
Definition mask_Size (m : list N) : N * N :=
  match simpleMaskLength m with
  | None => (0, 0)
  | Some ones => (ones, 8 * N.of_nat (length m))
  end.
(* CIDRMask for 0 <= ones <= bits = 8*l: the loop over the l bytes.
   ^byte(0xff >> n) is the byte with n leading ones *)
Fixpoint cidr_bytes (l : nat) (n : N) : list N :=
  match l with
  | O => []
  | S l' => if 8 <=? n then 0xff :: cidr_bytes l' (n - 8)
            else wnot 8 (wshr 8 0xff n) :: cidr_bytes l' 0
  end.
Definition CIDRMask (ones bits : N) : list N :=
  if negb ((bits =? 32) || (bits =? 128)) || (bits <? ones) then []
  else cidr_bytes (N.to_nat (bits / 8)) ones.

(* ---- the library ---- *)

(* ipv4/mask.go:49-62, ipv6/mask.go:48-61 MaskFromNetIPMask *)
Definition MaskFromNetIPMask4 (m : list N) : option N :=
  let '(ones, bits) := mask_Size m in
  if negb (bits =? 32) then None
  else match MaskFromLength 32 (Z.of_N ones) with
       | None => None
       | Some k => if mask_valid 32 k then Some k else None
       end.
Definition MaskFromNetIPMask6 (m : list N) : option u128 :=
  let '(ones, bits) := mask_Size m in
  if negb (bits =? 128) then None
  else match u_MaskFromLength (Z.of_N ones) with
       | None => None
       | Some k => if u_mask_valid k then Some k else None
       end.
(* ipv4/mask.go:70-72, ipv6/mask.go:69-71 ToNetIPMask *)
Definition ToNetIPMask4 (m : N) : list N := CIDRMask (mask_length 32 m) 32.
Definition ToNetIPMask6 (m : u128) : list N := CIDRMask (u_mask_length m) 128.
(* ipv4/prefix.go:33-50, ipv6/prefix.go:33-50 PrefixFromNetIPNet; a *net.IPNet is
   None (nil) or its IP and Mask *)
Definition PrefixFromNetIPNet4 (n : option (list N * list N)) : option prefix :=
  match n with
  | None => None
  | Some (ip, m) =>
    let '(ones, bits) := mask_Size m in
    if negb (bits =? 32) then None
    else option_map (fun a => mkPrefix a (ones mod 2 ^ 32)) (AddressFromNetIP4 ip)
  end.
Definition PrefixFromNetIPNet6 (n : option (list N * list N)) : option prefix6 :=
  match n with
  | None => None
  | Some (ip, m) =>
    let '(ones, bits) := mask_Size m in
    if negb (bits =? 128) then None
    else option_map (fun a => mkPrefix6 a (ones mod 2 ^ 32)) (fromSlice6 (Some ip))
  end.
(* ipv4/prefix.go:95-100, ipv6/prefix.go:95-100 ToNetIPNet *)
Definition ToNetIPNet4 (p : prefix) : list N * list N := (ToNetIP4 (paddr p), CIDRMask (plen p) 32).
Definition ToNetIPNet6 (p : prefix6) : list N * list N := (ToNetIP6 (paddr6 p), CIDRMask (plen6 p) 128).
