(* Spec.v - the specification vocabulary used by the property theorems.
   It is written with ordinary arithmetic (division by powers of two) and does
   not use the model's bit operations; only the record types prefix and range
   are shared with the model. *)
From Verif Require Import Values.

(* the two address families: 32-bit and 128-bit *)
Definition ip_width (W : N) : Prop := W = 32 \/ W = 128.

Definition wf_addr (W a : N) : Prop := a < 2 ^ W.
Definition wf_prefix (W : N) (p : prefix) : Prop := paddr p < 2 ^ W /\ plen p <= W.
Definition wf_range (W : N) (r : range) : Prop := rfirst r <= rlast r /\ rlast r < 2 ^ W.

(* address a belongs to prefix p: they agree once the W - length low bits are dropped *)
Definition in_prefix (W : N) (p : prefix) (a : N) : Prop :=
  a / 2 ^ (W - plen p) = paddr p / 2 ^ (W - plen p).
Definition in_range (r : range) (a : N) : Prop := rfirst r <= a /\ a <= rlast r.

(* lowest address of a prefix; the identity of a prefix as a table key *)
Definition net (W : N) (p : prefix) : N := paddr p / 2 ^ (W - plen p) * 2 ^ (W - plen p).
Definition pkey (W : N) (p : prefix) : N * N := (net W p, plen p).

(* q lies inside p *)
Definition covers (W : N) (p q : prefix) : Prop := plen p <= plen q /\ in_prefix W p (paddr q).

(* lexicographic order of prefixes: network address, then length *)
Definition lex_lt (W : N) (p q : prefix) : Prop :=
  net W p < net W q \/ (net W p = net W q /\ plen p < plen q).

(* the lower (false) and upper (true) half of a prefix shorter than W *)
Definition half (W : N) (c : bool) (p : prefix) : prefix :=
  mkPrefix (net W p + if c then 2 ^ (W - plen p - 1) else 0) (plen p + 1).
