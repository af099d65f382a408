(* V6Hist.v - specification vocabulary for package ipv6 at the level of its own
   types: an IPv6 address is a pair of 64-bit words and stands for the number
   num (high * 2^64 + low); a prefix or range stands for pnum, rnum.  The
   histories of calls and the tables and sets an ipv6 program can obtain are
   defined here with the functions of Table6.v and SetApi6.v only. *)
From Verif Require Export SimTable6 SimSet6 Hist SetSpec.
From Coq Require Import Arith Lia ZifyBool ZifyNat ZifyN.

(* the pair for a number *)
Definition of_num (a : N) : u128 := mkU (a / 2 ^ 64) (a mod 2 ^ 64).
Definition pof (p : prefix) : prefix6 := mkPrefix6 (of_num (paddr p)) (plen p).
Definition rof (r : range) : range6 := mkRange6 (of_num (rfirst r)) (of_num (rlast r)).

(* what a Go program can write down: two uint64 words; a length of at most 128 *)
Definition wf6 (p : prefix6) : Prop := wfu (paddr6 p) /\ plen6 p <= 128.

(* ---- tables ---- *)
Inductive op6 (T : Type) :=
| OpInsert6 (p : option prefix6) (v : T)
| OpUpdate6 (p : option prefix6) (v : T)
| OpInsertOrUpdate6 (p : option prefix6) (v : T)
| OpGetOrInsert6 (p : option prefix6) (v : T)
| OpRemove6 (p : option prefix6).
Arguments OpInsert6 {T}. Arguments OpUpdate6 {T}. Arguments OpInsertOrUpdate6 {T}.
Arguments OpGetOrInsert6 {T}. Arguments OpRemove6 {T}.
Definition the_prefix6 (p : option prefix6) : prefix6 := match p with Some q => q | None => mkPrefix6 (mkU 0 0) 0 end.
Definition op_prefix6 {T} (o : op6 T) : prefix6 :=
  match o with OpInsert6 p _ | OpUpdate6 p _ | OpInsertOrUpdate6 p _ | OpGetOrInsert6 p _ | OpRemove6 p => the_prefix6 p end.
(* the same call with its prefix read as a number *)
Definition op_num {T} (o : op6 T) : op T :=
  match o with
  | OpInsert6 p v => OpInsert (option_map pnum p) v
  | OpUpdate6 p v => OpUpdate (option_map pnum p) v
  | OpInsertOrUpdate6 p v => OpInsertOrUpdate (option_map pnum p) v
  | OpGetOrInsert6 p v => OpGetOrInsert (option_map pnum p) v
  | OpRemove6 p => OpRemove (option_map pnum p)
  end.

Section Tables.
Context {T : Type}.
Variable zeroT : T.
Variable box : T -> option T.
Variable goeq : T -> T -> res bool.

(* one call on an ipv6.Table_, and a history of them *)
Definition exec6 (m : option (tableX6 T)) (o : op6 T) : res (option (tableX6 T) * outcome T) :=
  match o with
  | OpInsert6 p v => '(m', b) <- tbl_Insert6 box m p v ;; Ok (m', OutBool b)
  | OpUpdate6 p v => '(m', b) <- tbl_Update6 box m p v ;; Ok (m', OutBool b)
  | OpInsertOrUpdate6 p v => m' <- tbl_InsertOrUpdate6 box m p v ;; Ok (m', OutNone)
  | OpGetOrInsert6 p v => '(m', x) <- tbl_GetOrInsert6 zeroT box m p v ;; Ok (m', OutVal x)
  | OpRemove6 p => '(m', b) <- tbl_Remove6 m p ;; Ok (m', OutBool b)
  end.
Fixpoint runs6 (m : option (tableX6 T)) (os : list (op6 T)) : res (option (tableX6 T) * list (outcome T)) :=
  match os with
  | [] => Ok (m, [])
  | o :: os' => '(m1, r) <- exec6 m o ;; '(m2, rs) <- runs6 m1 os' ;; Ok (m2, r :: rs)
  end.

(* the tables an ipv6 program can obtain (cf. reachable in Hist.v) *)
Inductive reachable6 : tableX6 T -> Prop :=
| reach6_zero : reachable6 zero_table6
| reach6_new t : NewTable_6 goeq = Some t -> reachable6 t
| reach6_custom g t : NewTableCustomCompare_6 g = Some t -> reachable6 t
| reach6_op t o t' x : reachable6 t -> wf6 (op_prefix6 o) -> exec6 (Some t) o = Ok (Some t', x) -> reachable6 t'
| reach6_Table_ t t' : reachable6 t -> Table_6 goeq t = Some t' -> reachable6 t'
| reach6_aggregate (peq : trie6 T -> trie6 T -> bool) t t' :
    (forall a b, peq a b = true -> a = b) -> reachable6 t -> tbl_Aggregate6 peq t = Ok t' -> reachable6 t'
| reach6_map (S : Type) (st st' : S) mapper t t' :
    reachable6 t -> tbl_Map6 zeroT box t mapper st = Ok (st', t') -> reachable6 t'.

(* what a user can see stored for the prefix q, cf. PropsTable.stored *)
Definition stored_at6 (t : tableX6 T) (q : prefix6) : option (prefix6 * T) :=
  let '(v, found, p) := LongestMatch6 zeroT t (Some q) in
  if found && (plen6 p =? plen6 q) then Some (p, v) else None.
End Tables.

(* ---- sets ---- *)
(* the prefixes stored in a set: what WalkPrefixes reports (C48_walk_prefixes) *)
Fixpoint stored6 (s : snode6) : list prefix6 :=
  match s with
  | Nil6 => []
  | Node6 p _ _ _ a l r => (if a then [p] else []) ++ stored6 l ++ stored6 r
  end.
(* the address a is in the prefix, range, set *)
Definition in_prefix6 (p : prefix6) (a : u128) : Prop := in_prefix 128 (pnum p) (num a).
Definition in_range6 (r : range6) (a : u128) : Prop := num (rfirst6 r) <= num a /\ num a <= num (rlast6 r).
Definition mem6 (s : snode6) (a : u128) : Prop := exists p, In p (stored6 s) /\ in_prefix6 p a.
Definition pointer_eq6 (peq : snode6 -> snode6 -> bool) : Prop := forall a b, peq a b = true -> a = b.
Definition arg_mem6 (i : option SetI6) (a : u128) : Prop :=
  match i with
  | None => False
  | Some (AddressSet6 b) => a = b
  | Some (PrefixSet6 p) => in_prefix6 p a
  | Some (RangeSet6 r) => in_range6 r a
  | Some (TheSet6 s) => mem6 s a
  | Some (TheSet_6 None) => False
  | Some (TheSet_6 (Some s)) => mem6 s a
  end.
(* all arguments but the ranges of C29 *)
Definition exact_arg6 (i : option SetI6) : Prop :=
  match i with Some (RangeSet6 r) => ~ centred 128 (rnum r) | _ => True end.
(* the sets an ipv6 program can obtain *)
Inductive set_value6 : snode6 -> Prop :=
| sv6_empty : set_value6 Nil6
| sv6_arg (peq : snode6 -> snode6 -> bool) i s :
    pointer_eq6 peq -> valid_arg6 i -> setI6 peq i = Ok s -> set_value6 s
| sv6_union (peq : snode6 -> snode6 -> bool) a i s :
    pointer_eq6 peq -> set_value6 a -> valid_arg6 i -> set_Union6 peq a i = Ok s -> set_value6 s
| sv6_inter (peq : snode6 -> snode6 -> bool) a i s :
    pointer_eq6 peq -> set_value6 a -> valid_arg6 i -> set_Intersection6 peq a i = Ok s -> set_value6 s
| sv6_diff (peq : snode6 -> snode6 -> bool) a i s :
    pointer_eq6 peq -> set_value6 a -> valid_arg6 i -> set_Difference6 peq a i = Ok s -> set_value6 s
with valid_arg6 : option SetI6 -> Prop :=
| va6_nil : valid_arg6 None
| va6_addr a : wfu a -> valid_arg6 (Some (AddressSet6 a))
| va6_prefix p : wf6 p -> valid_arg6 (Some (PrefixSet6 p))
| va6_range r : wfr6 r -> num (rfirst6 r) <= num (rlast6 r) -> valid_arg6 (Some (RangeSet6 r))
| va6_set s : set_value6 s -> valid_arg6 (Some (TheSet6 s))
| va6_set_nil : valid_arg6 (Some (TheSet_6 None))
| va6_set_ s : set_value6 s -> valid_arg6 (Some (TheSet_6 (Some s))).
(* histories of a Set_ *)
Inductive sop6 := SInsert6 (i : option SetI6) | SRemove6 (i : option SetI6).
Definition sop_arg6 (o : sop6) : option SetI6 := match o with SInsert6 i | SRemove6 i => i end.
Definition sop_run6 (m : option snode6) (x : (snode6 -> snode6 -> bool) * sop6) : res (option snode6) :=
  match snd x with SInsert6 i => set__Insert6 (fst x) m i | SRemove6 i => set__Remove6 (fst x) m i end.
Fixpoint sop_runs6 (m : option snode6) (os : list ((snode6 -> snode6 -> bool) * sop6)) : res (option snode6) :=
  match os with [] => Ok m | x :: os' => m' <- sop_run6 m x ;; sop_runs6 m' os' end.
Definition sop_step6 (P : u128 -> Prop) (o : sop6) : u128 -> Prop :=
  match o with
  | SInsert6 i => fun a => P a \/ arg_mem6 i a
  | SRemove6 i => fun a => P a /\ ~ arg_mem6 i a
  end.
Definition sop_spec6 (os : list sop6) : u128 -> Prop := fold_left sop_step6 os (fun _ => False).
