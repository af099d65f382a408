(* Word.v - Go fixed-width unsigned arithmetic, modelled on N with an explicit
   width W (32 for ipv4/*.go, 64 for the halves of ipv6/uint128.go, 128 for an
   ipv6 address taken as a whole).  Values are meant to be < 2^W.
   No file of /repo is modelled here: these are the Go language's own operators
   (Go specification, "Arithmetic operators") and package math/bits. *)
From Coq Require Export NArith ZArith Bool List Lia.
Export ListNotations.
Open Scope N_scope.

(* Go's [x << n] on a W-bit unsigned word: a shift count >= W gives 0. *)
Definition wshl (W x n : N) : N := if W <=? n then 0 else (N.shiftl x n) mod 2 ^ W.
(* Go's [x >> n] on an unsigned word: a shift count >= W gives 0. *)
Definition wshr (W x n : N) : N := if W <=? n then 0 else N.shiftr x n.
(* Go's [^x] *)
Definition wnot (W x : N) : N := N.lxor x (N.ones W).
(* Go's [a + b] and [a - b], which wrap. *)
Definition wadd (W a b : N) : N := (a + b) mod 2 ^ W.
Definition wsub (W a b : N) : N := (a + (2 ^ W - b mod 2 ^ W)) mod 2 ^ W.
(* math/bits.LeadingZeros32 / LeadingZeros64 *)
Definition clz (W x : N) : N := W - N.size x.
(* math/bits.OnesCount32 / OnesCount64 *)
Fixpoint pos_popcount (p : positive) : N :=
  match p with
  | xH => 1
  | xO q => pos_popcount q
  | xI q => 1 + pos_popcount q
  end.
Definition popcount (x : N) : N := match x with 0 => 0 | Npos p => pos_popcount p end.

(* The outcome of running a piece of Go code: a value, a run-time panic, or (for
   functions modelled with explicit fuel) exhaustion of the fuel, which stands
   for "not terminated yet" and is excluded by the theorems. *)
Inductive res (A : Type) : Type :=
| Ok (a : A)
| Panic
| OutOfFuel.
Arguments Ok {A} a.
Arguments Panic {A}.
Arguments OutOfFuel {A}.

Definition bind {A B} (m : res A) (f : A -> res B) : res B :=
  match m with
  | Ok a => f a
  | Panic => Panic
  | OutOfFuel => OutOfFuel
  end.
Notation "x <- m ;; k" := (bind m (fun x => k))
  (at level 61, m at next level, right associativity).
Notation "' p <- m ;; k" := (bind m (fun p => k))
  (at level 61, p pattern, m at next level, right associativity).
