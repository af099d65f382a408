(* TextSpec.v - specification vocabulary for text: decimal numbers as Coq's own
   library prints them, dotted quads, and which characters are decimal digits. *)
From Verif Require Import Text Spec.
From Coq Require Import DecimalString DecimalN.

(* the usual decimal notation of a number (Coq.Numbers.DecimalString) *)
Definition decimal (n : N) : str := String.list_ascii_of_string (DecimalString.NilZero.string_of_uint (N.to_uint n)).

(* the dotted quad of a 32-bit number *)
Definition quad (a : N) : str :=
  decimal (a / 2 ^ 24) ++ #"." ++ decimal (a / 2 ^ 16 mod 256) ++ #"." ++
  decimal (a / 2 ^ 8 mod 256) ++ #"." ++ decimal (a mod 256).

(* s is a non-empty string of decimal digits with value n (leading zeros allowed) *)
Definition digit_string (s : str) (n : N) : Prop :=
  s <> [] /\ exists ds, Forall (fun d => d < 10) ds /\ s = map (fun d => ascii_of_N (48 + d)) ds /\
                        n = fold_left (fun v d => 10 * v + d) ds 0.

(* an IPv6 address that stands for an IPv4 address: ::ffff:0:0/96 *)
Definition v4_mapped (a : N) : Prop := a / 2 ^ 32 = 0xffff.

(* the comma-separated list of texts *)
Fixpoint comma_list (l : list str) : str :=
  match l with
  | [] => []
  | [x] => x
  | x :: l' => x ++ #", " ++ comma_list l'
  end.

(* ---- IPv6 (RFC 4291, 2.2 and RFC 5952, 4) ---- *)

(* a 16-bit group as four lower-case hexadecimal digits, the leading zeros left
   out but not the last digit *)
Definition hex_char (d : N) : ascii := nth (N.to_nat d) #"0123456789abcdef" " "%char.
Fixpoint no_leading_zeros (ds : list N) : list N :=
  match ds with
  | 0 :: ((_ :: _) as t) => no_leading_zeros t
  | _ => ds
  end.
Definition hex (g : N) : str := map hex_char (no_leading_zeros [g / 16 ^ 3 mod 16; g / 16 ^ 2 mod 16; g / 16 mod 16; g mod 16]).
(* the eight 16-bit groups of a 128-bit number, the most significant one first *)
Definition groups_of (a : N) : list N := map (fun i => a / 2 ^ (16 * i) mod 2 ^ 16) [7; 6; 5; 4; 3; 2; 1; 0].
(* groups in hexadecimal with colons between them *)
Fixpoint colons (gs : list N) : str :=
  match gs with
  | [] => []
  | [g] => hex g
  | g :: gs' => hex g ++ #":" ++ colons gs'
  end.
(* k groups from position i on are zero *)
Definition zero_run (gs : list N) (i k : nat) : Prop := forall j, (i <= j < i + k)%nat -> nth_error gs j = Some 0.
(* the first of the longest runs of two or more zero groups, if there is one, is
   written as :: *)
Definition rfc5952 (a : N) (s : str) : Prop :=
  let gs := groups_of a in
  (forall i, ~ zero_run gs i 2) /\ s = colons gs \/
  exists i k, (2 <= k)%nat /\ zero_run gs i k /\
    (forall i' k', (2 <= k')%nat -> zero_run gs i' k' -> (k' <= k)%nat) /\
    (forall i', zero_run gs i' k -> (i <= i')%nat) /\
    s = colons (firstn i gs) ++ #"::" ++ colons (skipn (i + k) gs).

(* ---- the forms of IPv6 text (RFC 4291, 2.2) ---- *)

(* c is a hexadecimal digit, of either case, with value d *)
Definition hex_char_upper (d : N) : ascii := nth (N.to_nat d) #"0123456789ABCDEF" " "%char.
Definition is_hex (c : ascii) (d : N) : Prop := d < 16 /\ (c = hex_char d \/ c = hex_char_upper d).
(* one group: hexadecimal digits with a value of at most 0xffff *)
Definition hex_text (t : str) (g : N) : Prop :=
  t <> [] /\ g < 2 ^ 16 /\ exists ds, Forall2 is_hex t ds /\ g = fold_left (fun v d => 16 * v + d) ds 0.
(* n groups with colons between them, and the number they stand for *)
Inductive hex_groups : str -> nat -> N -> Prop :=
| hg_one t g : hex_text t g -> hex_groups t 1 g
| hg_cons t g s n v : hex_text t g -> hex_groups s n v ->
    hex_groups (t ++ #":" ++ s) (S n) (g * 2 ^ (16 * N.of_nat n) + v).
(* the same, where the last two groups may be written as a dotted quad *)
Inductive last_groups : str -> nat -> N -> Prop :=
| lg_groups s n v : hex_groups s n v -> last_groups s n v
| lg_quad v : v < 2 ^ 32 -> last_groups (quad v) 2 v
| lg_both s n v w : hex_groups s n v -> w < 2 ^ 32 -> last_groups (s ++ #":" ++ quad w) (n + 2) (v * 2 ^ 32 + w).
(* eight groups, or fewer with :: for the missing ones *)
Inductive ipv6_text : str -> N -> Prop :=
| it_full s a : last_groups s 8 a -> ipv6_text s a
| it_zero : ipv6_text #"::" 0
| it_left s n v : hex_groups s n v -> (n < 8)%nat -> ipv6_text (s ++ #"::") (v * 2 ^ (16 * N.of_nat (8 - n)))
| it_right s n v : last_groups s n v -> (n < 8)%nat -> ipv6_text (#"::" ++ s) v
| it_both s1 n1 v1 s2 n2 v2 : hex_groups s1 n1 v1 -> last_groups s2 n2 v2 -> (n1 + n2 < 8)%nat ->
    ipv6_text (s1 ++ #"::" ++ s2) (v1 * 2 ^ (16 * N.of_nat (8 - n1)) + v2).
