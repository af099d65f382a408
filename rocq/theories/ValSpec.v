(* ValSpec.v - specification vocabulary for the value types: ordinary
   arithmetic, none of the model's word operations. *)
From Coq Require Import NArith List.
Import ListNotations.
Open Scope N_scope.

(* the number written, most significant digit first, in base B *)
Definition digits (B : N) (l : list N) : N := fold_left (fun acc d => acc * B + d) l 0.
(* big-endian bytes and big-endian 16-bit groups *)
Definition be (l : list N) : N := digits 256 l.
Definition be16 (l : list N) : N := digits 65536 l.
Definition byte (x : N) : Prop := x < 256.
Definition group (x : N) : Prop := x < 65536.

(* the W-bit word with n leading ones, all other bits zero *)
Definition ones_then_zeros (W n : N) : N := (2 ^ n - 1) * 2 ^ (W - n).

(* how many of the bits 0 .. W-1 of x are set *)
Definition bits_set (W : nat) (x : N) : N :=
  N.of_nat (length (filter (fun i => N.testbit x (N.of_nat i)) (seq 0 W))).
(* z is the number of zero bits of the W-bit word x above its highest set bit:
   x < 2^(W-z), and bit W-z-1 is set unless x = 0 *)
Definition leading_zeros (W x z : N) : Prop :=
  z <= W /\ x < 2 ^ (W - z) /\ (z = W \/ 2 ^ (W - z - 1) <= x).

From Verif Require Import Spec Values.

(* n / b / h / r are the network address, last address, host part and range of p *)
Definition network_spec (W : N) (p : prefix) (n b h : prefix) (r : range) : Prop :=
  plen n = plen p /\ plen b = plen p /\ plen h = plen p /\
  (* the network address is the least address of the prefix, b the greatest *)
  in_prefix W p (paddr n) /\ in_prefix W p (paddr b) /\
  (forall a, in_prefix W p a <-> paddr n <= a /\ a <= paddr b) /\
  paddr b < 2 ^ W /\
  (* network and host part rebuild the address *)
  paddr h < 2 ^ (W - plen p) /\ paddr p = paddr n + paddr h /\
  (* the range has exactly the addresses of the prefix *)
  r = mkRange (paddr n) (paddr b).

Definition halves_spec (W : N) (p a b : prefix) : Prop :=
  plen a = plen p + 1 /\ plen b = plen p + 1 /\ wf_prefix W a /\ wf_prefix W b /\
  (forall x, in_prefix W p x <-> in_prefix W a x \/ in_prefix W b x) /\
  (forall x y, in_prefix W a x -> in_prefix W b y -> x < y).

(* consecutive ranges are in order and leave a gap of at least one address *)
Fixpoint separated (l : list range) : Prop :=
  match l with
  | a :: ((b :: _) as t) => rlast a + 1 < rfirst b /\ separated t
  | _ => True
  end.
Definition in_ranges (l : list range) (x : N) : Prop := exists r, In r l /\ in_range r x.

Definition minus_spec (W : N) (r o : range) (l : list range) : Prop :=
  Forall (wf_range W) l /\ (length l <= 2)%nat /\ separated l /\
  (forall x, in_ranges l x <-> in_range r x /\ ~ in_range o x).
Definition plus_spec (W : N) (r o : range) (l : list range) : Prop :=
  Forall (wf_range W) l /\ (length l <= 2)%nat /\ separated l /\
  (forall x, in_ranges l x <-> in_range r x \/ in_range o x).
