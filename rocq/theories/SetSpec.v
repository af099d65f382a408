(* SetSpec.v - specification vocabulary for sets of addresses. *)
From Verif Require Export Values Spec ValSpec SetApi.

(* the prefixes stored in a set, in the order of the tree.  That these are
   exactly what WalkPrefixes reports, in order, is theorem C26_walk_prefixes;
   that an address belongs to one of them iff Contains says so is
   C28_contains_address. *)
Fixpoint stored (s : snode) : list prefix :=
  match s with
  | Nil => []
  | Node p _ _ _ a l r => (if a then [p] else []) ++ stored l ++ stored r
  end.

(* what the code may assume of comparing two pointers: they are only equal when
   they point to the same, hence equal, nodes *)
Definition pointer_eq (peq : snode -> snode -> bool) : Prop := forall a b, peq a b = true -> a = b.

Section SetSpec.
Variable W : N.

(* the address a is in the set *)
Definition mem (s : snode) (a : N) : Prop := a < 2 ^ W /\ exists p, In p (stored s) /\ in_prefix W p a.

(* every address of the prefix is in the set *)
Definition prefix_in (P : N -> Prop) (p : prefix) : Prop := forall a, in_prefix W p a -> P a.

(* the family of prefixes l covers exactly the addresses of P *)
Definition exactly (l : list prefix) (P : N -> Prop) : Prop :=
  forall a, a < 2 ^ W -> ((exists p, In p l /\ in_prefix W p a) <-> P a).
(* p is a largest prefix inside P *)
Definition maximal (P : N -> Prop) (p : prefix) : Prop :=
  prefix_in P p /\ forall q, wf_prefix W q -> prefix_in P q -> covers W q p -> plen q = plen p.
(* no host bits *)
Definition canonical (p : prefix) : Prop := paddr p = net W p.

(* the addresses an argument stands for *)
Definition arg_mem (i : option SetI) (a : N) : Prop :=
  match i with
  | None => False
  | Some (AddressSet b) => a = b
  | Some (PrefixSet p) => in_prefix W p a
  | Some (RangeSet r) => in_range r a
  | Some (TheSet s) => mem s a
  | Some (TheSet_ None) => False
  | Some (TheSet_ (Some s)) => mem s a
  end.

(* the ranges for which Range.Set is wrong (C29): the middle part of an aligned
   block of 2^k addresses, x addresses short of it at either end *)
Definition centred (r : range) : Prop :=
  exists k b x, 0 < x /\ x < 2 ^ (k - 1) /\ 0 < k /\ k <= W /\
    rfirst r = b * 2 ^ k + x /\ rlast r + x + 1 = (b + 1) * 2 ^ k.

(* arguments for which the conversion to a Set is exact: all but centred ranges *)
Definition exact_arg (i : option SetI) : Prop :=
  match i with Some (RangeSet r) => ~ centred r | _ => True end.

(* the sets a program can obtain: each operation may see any pointer equality
   that only equates equal nodes *)
Inductive set_value : snode -> Prop :=
| sv_empty : set_value Nil
| sv_arg (peq : snode -> snode -> bool) i s :
    pointer_eq peq -> valid_arg i -> setI W peq i = Ok s -> set_value s
| sv_union (peq : snode -> snode -> bool) a i s :
    pointer_eq peq -> set_value a -> valid_arg i -> set_Union W peq a i = Ok s -> set_value s
| sv_inter (peq : snode -> snode -> bool) a i s :
    pointer_eq peq -> set_value a -> valid_arg i -> set_Intersection W peq a i = Ok s -> set_value s
| sv_diff (peq : snode -> snode -> bool) a i s :
    pointer_eq peq -> set_value a -> valid_arg i -> set_Difference W peq a i = Ok s -> set_value s
with valid_arg : option SetI -> Prop :=
| va_nil : valid_arg None
| va_addr a : wf_addr W a -> valid_arg (Some (AddressSet a))
| va_prefix p : wf_prefix W p -> valid_arg (Some (PrefixSet p))
| va_range r : wf_range W r -> valid_arg (Some (RangeSet r))
| va_set s : set_value s -> valid_arg (Some (TheSet s))
| va_set_nil : valid_arg (Some (TheSet_ None))
| va_set_ s : set_value s -> valid_arg (Some (TheSet_ (Some s))).

(* a history of calls on a Set_, and what a mathematical set does with it *)
Inductive sop := SInsert (i : option SetI) | SRemove (i : option SetI).
Definition sop_arg (o : sop) : option SetI := match o with SInsert i | SRemove i => i end.
Definition sop_step (P : N -> Prop) (o : sop) : N -> Prop :=
  match o with
  | SInsert i => fun a => P a \/ arg_mem i a
  | SRemove i => fun a => P a /\ ~ arg_mem i a
  end.
Definition sop_spec (os : list sop) : N -> Prop := fold_left sop_step os (fun _ => False).
End SetSpec.
