(* Ip.v - model of package ip: the family-agnostic front end.  Its interfaces
   Address, Mask, Prefix and Range hold a value of ipv4 or ipv6, nil, or a value
   of some type outside the library.  One type of interface values is used for
   all four, because Go converts between them: FirstFromRange returns an address
   as a Range. *)
From Verif Require Export Net.

Inductive dyn : Type :=
| DNil                    (* the nil interface *)
| Addr4 (a : N) | Addr6 (a : u128)
| Mask4 (m : N) | Mask6 (m : u128)
| Pfx4 (p : prefix) | Pfx6 (p : prefix6)
| Rng4 (r : range) | Rng6 (r : range6)
| Foreign (tag : N).      (* a type defined outside ipv4 and ipv6 *)

(* A pair (value, error) is Some v when the error is nil and None otherwise: the
   value that comes with an error (nil, or a zero value of the family) is to be
   ignored by the caller. *)

(* ip/address.go:31-40 AddressFromNetIP; net.IPv6len = 16, net.IPv4len = 4 *)
Definition ip_AddressFromNetIP (ip : list N) : option dyn :=
  if N.of_nat (length ip) =? 16 then option_map Addr6 (fromSlice6 (Some ip))
  else if N.of_nat (length ip) =? 4 then option_map Addr4 (AddressFromNetIP4 ip)
  else None.
(* ip/address.go:45-54 PrefixFromAddress; Address.Prefix of each family is
   ipv4/address.go:89-91 and ipv6/address.go:92-94 *)
Definition ip_PrefixFromAddress (a : dyn) : dyn :=
  match a with
  | Addr4 x => Pfx4 (addr_prefix 32 x)
  | Addr6 x => Pfx6 (mkPrefix6 x 128)
  | _ => DNil
  end.
(* ip/mask.go:20-36 MaskFromNetIPMask.  mask.Size returns non-negative ints, and
   ones > bits never holds; both checks are kept as the code has them. *)
Definition ip_MaskFromNetIPMask (m : list N) : option dyn :=
  let '(ones, bits) := mask_Size m in
  if (Z.of_N ones <? 0)%Z || (Z.of_N bits <? 0)%Z then None
  else if bits <? ones then None
  else if bits =? 128 then option_map Mask6 (u_MaskFromLength (Z.of_N ones))
  else if bits =? 32 then option_map Mask4 (MaskFromLength 32 (Z.of_N ones))
  else None.
(* ip/prefix.go:22-38 PrefixFromAddressMask *)
Definition ip_PrefixFromAddressMask (a m : dyn) : option dyn :=
  match a with
  | Addr6 x => match m with Mask6 k => Some (Pfx6 (PrefixFromAddressMask6 x k)) | _ => None end
  | Addr4 x => match m with Mask4 k => Some (Pfx4 (PrefixFromAddressMask 32 x k)) | _ => None end
  | _ => None
  end.
(* ip/prefix.go:47-59 PrefixFromNetIPNet *)
Definition ip_PrefixFromNetIPNet (n : option (list N * list N)) : option dyn :=
  match n with
  | None => None
  | Some (ip, m) =>
    if N.of_nat (length ip) =? 16 then option_map Pfx6 (PrefixFromNetIPNet6 (Some (ip, m)))
    else if N.of_nat (length ip) =? 4 then option_map Pfx4 (PrefixFromNetIPNet4 (Some (ip, m)))
    else None
  end.
(* ip/prefix.go:63-72 AddressFromPrefix *)
Definition ip_AddressFromPrefix (p : dyn) : dyn :=
  match p with Pfx4 p => Addr4 (paddr p) | Pfx6 p => Addr6 (paddr6 p) | _ => DNil end.
(* ip/prefix.go:76-85 MaskFromPrefix *)
Definition ip_MaskFromPrefix (p : dyn) : dyn :=
  match p with Pfx4 p => Mask4 (prefix_mask 32 p) | Pfx6 p => Mask6 (prefix_mask6 p) | _ => DNil end.
(* ip/prefix.go:89-98 RangeFromPrefix *)
Definition ip_RangeFromPrefix (p : dyn) : dyn :=
  match p with Pfx4 p => Rng4 (prefix_range 32 p) | Pfx6 p => Rng6 (prefix_range6 p) | _ => DNil end.
(* ip/range.go:18-36 RangeFromAddresses: (range, empty, error) *)
Definition ip_RangeFromAddresses (first last : dyn) : option (dyn * bool) :=
  match first with
  | Addr6 f => match last with
               | Addr6 l => let '(r, empty) := RangeFromAddresses6 f l in Some (Rng6 r, empty)
               | _ => None end
  | Addr4 f => match last with
               | Addr4 l => let '(r, empty) := RangeFromAddresses f l in Some (Rng4 r, empty)
               | _ => None end
  | _ => None
  end.
(* ip/range.go:40-49 FirstFromRange, 53-62 LastFromRange *)
Definition ip_FirstFromRange (r : dyn) : dyn :=
  match r with Rng4 r => Addr4 (rfirst r) | Rng6 r => Addr6 (rfirst6 r) | _ => DNil end.
Definition ip_LastFromRange (r : dyn) : dyn :=
  match r with Rng4 r => Addr4 (rlast r) | Rng6 r => Addr6 (rlast6 r) | _ => DNil end.

(* the interface methods, dispatched on the dynamic type; None is a call on a nil
   interface (a panic) or on a foreign value *)
(* ipv4/address.go:77-80, ipv6/address.go:81-83 ToNetIP *)
Definition dyn_ToNetIP (a : dyn) : option (list N) :=
  match a with Addr4 x => Some (ToNetIP4 x) | Addr6 x => Some (ToNetIP6 x) | _ => None end.
(* ipv4/address.go:105-107, ipv6/address.go:107-109 NumBits *)
Definition dyn_NumBits (a : dyn) : option N :=
  match a with Addr4 _ => Some 32 | Addr6 _ => Some 128 | _ => None end.
(* ipv4/mask.go:70-72, ipv6/mask.go:69-71 ToNetIPMask; Length of a mask or prefix *)
Definition dyn_ToNetIPMask (m : dyn) : option (list N) :=
  match m with Mask4 x => Some (ToNetIPMask4 x) | Mask6 x => Some (ToNetIPMask6 x) | _ => None end.
Definition dyn_Length (p : dyn) : option N :=
  match p with
  | Pfx4 p => Some (plen p) | Pfx6 p => Some (plen6 p)
  | Mask4 m => Some (mask_length 32 m) | Mask6 m => Some (u_mask_length m) | _ => None end.
(* ipv4/prefix.go:95-100, ipv6/prefix.go:95-100 ToNetIPNet *)
Definition dyn_ToNetIPNet (p : dyn) : option (list N * list N) :=
  match p with Pfx4 p => Some (ToNetIPNet4 p) | Pfx6 p => Some (ToNetIPNet6 p) | _ => None end.
