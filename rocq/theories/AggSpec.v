(* AggSpec.v - what Aggregate computes, as a function of the map from prefixes to
   values alone: a prefix is a string of bits, and nothing here knows about tries,
   nodes or path compression. *)
From Coq Require Import NArith List.
From Verif Require Import Values.
Import ListNotations.
Open Scope N_scope.

(* the prefix whose leading bits are k, all host bits zero *)
Definition bits_value (k : list bool) : N := fold_left (fun n (b : bool) => 2 * n + (if b then 1 else 0)) k 0.
Definition prefix_of_bits (W : N) (k : list bool) : prefix :=
  mkPrefix (bits_value k * 2 ^ (W - N.of_nat (length k))) (N.of_nat (length k)).

Section Spec.
Context {V : Type}.
Variable same : V -> V -> bool.

(* [aggregated n M u]: the entries, relative to some prefix, that aggregation
   leaves in the subspace of that prefix, n bits above the host addresses, when the
   original entries in it are M and the value u is inherited from above.
   - The entry of the prefix itself is dropped if its value is the inherited one;
     otherwise its value is inherited by both halves.
   - If afterwards both halves carry an entry of the same value, the prefix gets
     one entry of this value and everything else below it is dropped (also entries
     of other values: this is what makes C16 false). *)
Fixpoint aggregated (n : nat) (M : list bool -> option V) (u : option V) (q : list bool) : option V :=
  let own := match M [], u with
             | Some v, Some x => if same x v then None else Some v
             | o, _ => o
             end in
  match n with
  | O => match q with [] => own | _ :: _ => None end
  | S n' =>
    let inherited := match own with Some v => Some v | None => u end in
    let below c := aggregated n' (fun x => M (c :: x)) inherited in
    let merged := match below false [], below true [] with
                  | Some x, Some y => if same x y then Some x else None
                  | _, _ => None
                  end in
    match merged with
    | Some x => match q with [] => Some x | _ :: _ => None end
    | None => match q with [] => own | c :: q' => below c q' end
    end
  end.
End Spec.
