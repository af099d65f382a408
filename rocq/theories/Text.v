(* Text.v - model of the conversions to and from text: String() of addresses,
   masks, prefixes, ranges and sets, and AddressFromString / PrefixFromString of
   packages ipv4, ipv6 and ip, with the parts of Go's packages fmt, strings and net
   that they call (net/ip.go and net/parse.go of Go 1.18, the version in go.mod).
   A Go string is a sequence of bytes: a list of Coq's 8-bit characters. *)
From Verif Require Export Ip SetApi.
From Coq Require Export Ascii.
From Coq Require Strings.String.
Export (notations) Coq.Strings.String.

Definition str := list ascii.
Definition lit (s : String.string) : str := String.list_ascii_of_string s.
Notation "'#' s" := (lit s%string) (at level 1, format "'#' s").
Definition chr (n : N) : ascii := ascii_of_N n.
Definition ord (c : ascii) : N := N_of_ascii c.

(* ---- fmt ---- *)

(* %d of an unsigned number (fmt/format.go fmtInteger, base 10): digits are
   written from the least significant one, in front of those already written.
   The fuel bounds the number of digits; 10 is enough for a uint32. *)
Fixpoint fmt_int (fuel : nat) (n : N) (buf : str) : str :=
  match fuel with
  | O => buf
  | Datatypes.S f => if n <? 10 then chr (48 + n) :: buf else fmt_int f (n / 10) (chr (48 + n mod 10) :: buf)
  end.
Definition fmt_d (n : N) : str := fmt_int 10 n [].

(* ---- net/parse.go ---- *)

(* const big = 0xFFFFFF *)
Definition big : N := 0xFFFFFF.
(* the number a decimal digit stands for: '0' <= c && c <= '9' and c - '0' *)
Definition dec_digit (c : ascii) : option N :=
  let n := ord c in if (48 <=? n) && (n <=? 57) then Some (n - 48) else None.
(* the three tests of xtoi: 0-9, a-f, A-F *)
Definition hex_digit (c : ascii) : option N :=
  let n := ord c in
  if (48 <=? n) && (n <=? 57) then Some (n - 48)
  else if (97 <=? n) && (n <=? 102) then Some (n - 97 + 10)
  else if (65 <=? n) && (n <=? 70) then Some (n - 65 + 10)
  else None.
(* dtoi and xtoi: (number, characters consumed), None when !ok (the callers
   then ignore the other results).  The two functions differ only in the base
   and the set of digits. *)
Fixpoint toi (digit : ascii -> option N) (base : N) (s : str) (n : N) (i : nat) : option (N * nat) :=
  match s with
  | c :: s' =>
    match digit c with
    | Some d => let n := n * base + d in if big <=? n then None else toi digit base s' n (Datatypes.S i)
    | None => if Nat.eqb i 0 then None else Some (n, i)
    end
  | [] => if Nat.eqb i 0 then None else Some (n, i)
  end.
Definition dtoi (s : str) : option (N * nat) := toi dec_digit 10 s 0 0.
Definition xtoi (s : str) : option (N * nat) := toi hex_digit 16 s 0 0.

(* ---- net/ip.go ---- *)

(* IPv4(a, b, c, d): the 16-byte form *)
Definition net_IPv4 (p : list N) : list N := [0;0;0;0;0;0;0;0;0;0;0xff;0xff] ++ p.

(* the loop of parseIPv4 for octets i .. 3, and the check that nothing is left;
   k is the number of octets still to read *)
Fixpoint parseIPv4_loop (k : nat) (first : bool) (p : list N) (s : str) : option (list N) :=
  match k with
  | O => match s with [] => Some (net_IPv4 p) | _ => None end
  | Datatypes.S k' =>
    match s with
    | [] => None
    | c0 :: s0 =>
      match (if first then Some s else if Ascii.eqb c0 "."%char then Some s0 else None) with
      | None => None
      | Some s =>
        match dtoi s with
        | None => None
        | Some (n, c) =>
          if 0xFF <? n then None
          else if (Nat.ltb 1 c) && (match s with z :: _ => Ascii.eqb z "0"%char | [] => false end) then None
          else parseIPv4_loop k' false (p ++ [n]) (skipn c s)
        end
      end
    end
  end.
Definition parseIPv4 (s : str) : option (list N) := parseIPv4_loop 4 true [] s.

(* The loop of parseIPv6.  The array ip is written from left to right, so the
   bytes written so far (acc) stand for it, and i = length acc; ell is the
   position of the ellipsis.  Each round adds at least two bytes, so the fuel 8
   makes the test i < IPv6len.  Result: the bytes, the ellipsis and what is left
   of the string when the loop ends. *)
Fixpoint parseIPv6_loop (fuel : nat) (acc : list N) (ell : option nat) (s : str) : option (list N * option nat * str) :=
  match fuel with
  | O => Some (acc, ell, s)
  | Datatypes.S f =>
    match xtoi s with
    | None => None
    | Some (n, c) =>
      if 0xFFFF <? n then None else
      let rest := skipn c s in
      if (match rest with c1 :: _ => Ascii.eqb c1 "."%char | [] => false end) then
        if (match ell with None => true | Some _ => false end) && negb (Nat.eqb (length acc) 12) then None
        else if Nat.ltb 16 (length acc + 4) then None
        else match parseIPv4 s with
             | None => None
             | Some ip4 => Some (acc ++ skipn 12 ip4, ell, [])
             end
      else
        let acc := acc ++ [n / 256; n mod 256] in
        match rest with
        | [] => Some (acc, ell, [])
        | c1 :: rest1 =>
          if negb (Ascii.eqb c1 ":"%char) then None
          else match rest1 with
               | [] => None
               | c2 :: rest2 =>
                 if Ascii.eqb c2 ":"%char then
                   match ell with
                   | Some _ => None
                   | None => match rest2 with
                             | [] => Some (acc, Some (length acc), [])
                             | _ => parseIPv6_loop f acc (Some (length acc)) rest2
                             end
                   end
                 else parseIPv6_loop f acc ell rest1
               end
        end
    end
  end.
(* what parseIPv6 does after the loop: nothing may be left; a short address is
   filled with zeros at the ellipsis *)
Definition parseIPv6_end (r : list N * option nat * str) : option (list N) :=
  let '(acc, ell, s) := r in
  match s with
  | _ :: _ => None
  | [] =>
    if Nat.ltb (length acc) 16 then
      match ell with
      | None => None
      | Some e => Some (firstn e acc ++ repeat 0 (16 - length acc) ++ skipn e acc)
      end
    else match ell with Some _ => None | None => Some acc end
  end.
Definition parseIPv6 (s : str) : option (list N) :=
  let go ell s := match parseIPv6_loop 8 [] ell s with Some r => parseIPv6_end r | None => None end in
  match s with
  | c0 :: c1 :: s' =>
    if Ascii.eqb c0 ":"%char && Ascii.eqb c1 ":"%char then
      match s' with [] => Some (repeat 0 16) | _ => go (Some O) s' end
    else go None s
  | _ => go None s
  end.

(* ParseIP: the first '.' or ':' decides *)
Fixpoint ParseIP_scan (s rest : str) : option (list N) :=
  match rest with
  | [] => None
  | c :: rest' =>
    if Ascii.eqb c "."%char then parseIPv4 s
    else if Ascii.eqb c ":"%char then parseIPv6 s
    else ParseIP_scan s rest'
  end.
Definition ParseIP (s : str) : option (list N) := ParseIP_scan s s.

(* bytealg.IndexByteString followed by the two slices: what is before and after
   the first occurrence *)
Fixpoint cut_at (c : ascii) (s : str) : option (str * str) :=
  match s with
  | [] => None
  | x :: s' => if Ascii.eqb x c then Some ([], s')
               else match cut_at c s' with Some (a, b) => Some (x :: a, b) | None => None end
  end.
(* ParseCIDR: the IP and the mask of the IPNet (its masked IP is not used by the
   library, see parseNet) *)
Definition ParseCIDR (s : str) : option (list N * list N) :=
  match cut_at "/"%char s with
  | None => None
  | Some (addr, mask) =>
    let '(ip, iplen) := match parseIPv4 addr with
                        | Some ip => (Some ip, 4)
                        | None => (parseIPv6 addr, 16)
                        end in
    match ip, dtoi mask with
    | Some ip, Some (n, i) =>
      if negb (Nat.eqb i (length mask)) || (8 * iplen <? n) then None
      else Some (ip, CIDRMask n (8 * iplen))
    | _, _ => None
    end
  end.

(* appendHex *)
Definition hexDigit (v : N) : ascii := if v <? 10 then chr (48 + v) else chr (97 + (v - 10)).
Fixpoint appendHex_loop (js : list N) (i : N) : str :=
  match js with
  | [] => []
  | j :: js' =>
    let v := wshr 32 i (j * 4) in
    (if 0 <? v then [hexDigit (N.land v 0xf)] else []) ++ appendHex_loop js' i
  end.
Definition appendHex (i : N) : str := if i =? 0 then ["0"%char] else appendHex_loop [7;6;5;4;3;2;1;0] i.

(* (IP).String for 16 bytes that are not an IPv4 address.  Go walks over the
   bytes two at a time; here over the list of eight 16-bit groups, so all
   positions are halved. *)
Fixpoint groups (p : list N) : list N :=
  match p with
  | a :: b :: p' => N.lor (wshl 32 a 8) b :: groups p'
  | _ => []
  end.
(* j: from i, skip the zero groups *)
Fixpoint run_end (gs : list N) (i : nat) : nat :=
  match gs with
  | 0%N :: gs' => run_end gs' (Datatypes.S i)
  | _ => i
  end.
(* the loop that finds the longest run of zeros, from position i on, with the
   best run so far (e0 and e1 are both -1 at first) *)
Fixpoint longest (fuel : nat) (gs : list N) (i : nat) (best : Z * Z) : Z * Z :=
  match fuel with
  | O => best
  | Datatypes.S f =>
    if Nat.leb (length gs) i then best
    else let j := run_end (skipn i gs) i in
         let '(e0, e1) := best in
         if Nat.ltb i j && (e1 - e0 <? Z.of_nat (j - i))%Z
         then longest f gs (Datatypes.S j) (Z.of_nat i, Z.of_nat j)
         else longest f gs (Datatypes.S i) best
  end.
Definition ellipsis (gs : list N) : Z * Z :=
  let '(e0, e1) := longest 8 gs 0 (-1, -1)%Z in
  if (e1 - e0 <=? 1)%Z then (-1, -1)%Z else (e0, e1).
(* the printing loop from position i on *)
Fixpoint print_groups (fuel : nat) (gs : list N) (e : Z * Z) (i : nat) : str :=
  match fuel with
  | O => []
  | Datatypes.S f =>
    if Nat.leb (length gs) i then []
    else if (Z.of_nat i =? fst e)%Z then
      [":"%char; ":"%char] ++
      (let i := Z.to_nat (snd e) in
       if Nat.leb (length gs) i then []
       else appendHex (nth i gs 0) ++ print_groups f gs e (Datatypes.S i))
    else (if Nat.ltb 0 i then [":"%char] else []) ++
         appendHex (nth i gs 0) ++ print_groups f gs e (Datatypes.S i)
  end.
(* the dotted form; net/ip.go writes the bytes with ubtoa, which gives the same
   text as %d *)
Definition dotted (p : list N) : str :=
  match p with
  | [a; b; c; d] => fmt_d a ++ ["."%char] ++ fmt_d b ++ ["."%char] ++ fmt_d c ++ ["."%char] ++ fmt_d d
  | _ => []
  end.
(* (IP).String for 16 bytes (the only use: ipv6.Address.ToNetIP) *)
Definition IP_String (p : list N) : str :=
  match To4 p with
  | Some p4 => dotted p4
  | None => let gs := groups p in print_groups 8 gs (ellipsis gs) 0
  end.

(* ---- the library: to text ---- *)

(* ipv4/address.go:99-102 (Address).String *)
Definition Address_String4 (a : N) : str :=
  let '(a, b, c, d) := toBytes4 a in
  fmt_d a ++ ["."%char] ++ fmt_d b ++ ["."%char] ++ fmt_d c ++ ["."%char] ++ fmt_d d.
(* ipv6/address.go:102-104 *)
Definition Address_String6 (a : u128) : str := IP_String (ToNetIP6 a).
(* ipv4/mask.go:75-77, ipv6/mask.go:74-76 (Mask).String *)
Definition Mask_String4 (m : N) : str := Address_String4 m.
Definition Mask_String6 (m : u128) : str := Address_String6 (mkU (high m) (low m)).
(* ipv4/prefix.go:197-199, ipv6/prefix.go:178-180 (Prefix).String *)
Definition Prefix_String4 (p : prefix) : str := Address_String4 (paddr p) ++ ["/"%char] ++ fmt_d (plen p).
Definition Prefix_String6 (p : prefix6) : str := Address_String6 (paddr6 p) ++ ["/"%char] ++ fmt_d (plen6 p).
(* ipv4/range.go:53-55, ipv6/range.go:41-43 (Range).String *)
Definition Range_String4 (r : range) : str :=
  ["["%char] ++ Address_String4 (rfirst r) ++ [","%char] ++ Address_String4 (rlast r) ++ ["]"%char].
Definition Range_String6 (r : range6) : str :=
  ["["%char] ++ Address_String6 (rfirst6 r) ++ [","%char] ++ Address_String6 (rlast6 r) ++ ["]"%char].
(* ipv4/set.go:220-235, ipv6/set.go:211-226 (Set).String: a walk whose state is
   the builder and the flag comma *)
Definition Set_String (W : N) (peq : snode -> snode -> bool) (prefix_String : prefix -> str) (s : snode) : res str :=
  '(st, _) <- set_WalkPrefixes W peq s
     (fun p '(builder, comma) => (((builder ++ (if comma : bool then #", " else [])) ++ prefix_String p, true), true))
     (["["%char], false) ;;
  Ok (fst st ++ ["]"%char]).

(* ---- the library: from text ---- *)

(* ipv4/address.go:46-58 AddressFromString *)
Definition AddressFromString4 (s : str) : option N :=
  match ParseIP s with
  | None => None
  | Some netIP => match To4 netIP with
                  | None => None
                  | Some netIPv4 => AddressFromNetIP4 netIPv4
                  end
  end.
(* ipv6/address.go:50-62 AddressFromString *)
Definition AddressFromString6 (s : str) : option u128 :=
  match ParseIP s with
  | None => None
  | Some netIP => match To4 netIP with
                  | Some _ => None
                  | None => fromSlice6 (Some netIP)
                  end
  end.
(* ipv4/prefix.go:65-71, ipv6/prefix.go:65-71 parseNet; ipv4/prefix.go:76-82,
   ipv6/prefix.go:76-82 PrefixFromString *)
Definition PrefixFromString4 (s : str) : option prefix :=
  match ParseCIDR s with None => None | Some n => PrefixFromNetIPNet4 (Some n) end.
Definition PrefixFromString6 (s : str) : option prefix6 :=
  match ParseCIDR s with None => None | Some n => PrefixFromNetIPNet6 (Some n) end.

(* ip/address.go:23-28 AddressFromString, ip/prefix.go:40-45 PrefixFromString;
   strings.Contains(s, ":") *)
Definition has_colon (s : str) : bool := existsb (fun c => Ascii.eqb c ":"%char) s.
Definition ip_AddressFromString (s : str) : option dyn :=
  if has_colon s then option_map Addr6 (AddressFromString6 s) else option_map Addr4 (AddressFromString4 s).
Definition ip_PrefixFromString (s : str) : option dyn :=
  if has_colon s then option_map Pfx6 (PrefixFromString6 s) else option_map Pfx4 (PrefixFromString4 s).
(* String() through the interfaces Address, Prefix, Mask and Range of package ip;
   None for nil (a panic) and for types of other packages *)
Definition dyn_String (d : dyn) : option str :=
  match d with
  | Addr4 a => Some (Address_String4 a) | Addr6 a => Some (Address_String6 a)
  | Mask4 m => Some (Mask_String4 m) | Mask6 m => Some (Mask_String6 m)
  | Pfx4 p => Some (Prefix_String4 p) | Pfx6 p => Some (Prefix_String6 p)
  | Rng4 r => Some (Range_String4 r) | Rng6 r => Some (Range_String6 r)
  | _ => None
  end.

(* the model, run *)
Example text_ex4 : Address_String4 0x0A00FF01 = #"10.0.255.1" /\ AddressFromString4 #"10.0.255.1" = Some 0x0A00FF01 /\
  AddressFromString4 #"10.0.255.01" = None /\ AddressFromString4 #"10.0.256.1" = None /\
  AddressFromString4 #"::ffff:10.0.255.1" = Some 0x0A00FF01 /\
  PrefixFromString4 #"10.0.255.1/24" = Some (mkPrefix 0x0A00FF01 24) /\ PrefixFromString4 #"10.0.255.1/33" = None.
Proof. vm_compute. repeat split. Qed.
Example text_ex6 : Address_String6 (mkU 0x20010db800000000 0x0000000100000000) = #"2001:db8::1:0:0" /\
  Address_String6 (mkU 0 0) = #"::" /\ Address_String6 (mkU 0 1) = #"::1" /\ Address_String6 (mkU 0x0001000000000000 0) = #"1::" /\
  Address_String6 (mkU 0x0001000000020003 0x0004000500060007) = #"1:0:2:3:4:5:6:7" /\
  Address_String6 (mkU 0 0x0000ffff01020304) = #"1.2.3.4" /\
  AddressFromString6 #"2001:DB8::1:0:0" = Some (mkU 0x20010db800000000 0x0000000100000000) /\
  AddressFromString6 #"::" = Some (mkU 0 0) /\ AddressFromString6 #"1:2:3:4:5:6:7::" = Some (mkU 0x0001000200030004 0x0005000600070000) /\
  AddressFromString6 #"::1.2.3.4" = Some (mkU 0 0x01020304) /\ AddressFromString6 #"1:2" = None /\
  PrefixFromString6 #"2001:db8::/32" = Some (mkPrefix6 (mkU 0x20010db800000000 0) 32).
Proof. vm_compute. repeat split. Qed.
