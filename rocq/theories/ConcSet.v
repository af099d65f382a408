(* ConcSet.v - the machines of Conc.v for sets: the calls of Set_ and Set as
   heap programs, and as functions on values.  A Set_ passed as an argument is not
   modelled here (its Set() would be loaded inside the call); the client machine
   calls Set() first and passes the result.  Likewise Set_.Union, Intersection and
   Difference are Set() followed by the operation on the Set. *)
From Verif Require Export Conc ConcTable SetSpec.
Local Open Scope prog_scope.

(* ---- more heap programs, for reading sets ---- *)
Section Reads.
Variable W : N.
Notation M := (prog unit).

(* ipv4/node.go:247-255 NumAddresses *)
Fixpoint h_NumAddresses (fuel : nat) (p : ptr) : M N :=
  match fuel with
  | O => lift OutOfFuel
  | S fuel' =>
    if nilp p then ret 0
    else
      n <- load p ;;
      if hactive n then ret (wnot W (prefix_mask W (hPrefix n)) + 1)
      else
        x <- h_NumAddresses fuel' (hc0 n) ;; y <- h_NumAddresses fuel' (hc1 n) ;; ret (x + y)
  end.
(* ipv6/node.go:243-251 IsEmpty *)
Fixpoint h_trie_IsEmpty (fuel : nat) (p : ptr) : M bool :=
  match fuel with
  | O => lift OutOfFuel
  | S fuel' =>
    if nilp p then ret true
    else
      n <- load p ;;
      if hactive n then ret false
      else
        x <- h_trie_IsEmpty fuel' (hc0 n) ;;
        if x then h_trie_IsEmpty fuel' (hc1 n) else ret false
  end.
(* ipv4/set.go:196-198, ipv6/set.go:192-194 *)
Definition h_IsEmpty (p : ptr) : M bool :=
  if W =? 32 then n <- h_NumAddresses (pathW W) p ;; ret (n =? 0) else h_trie_IsEmpty (pathW W) p.

(* ipv4/setnode.go:301-323 best *)
Definition h_best (lft rgt : M (option prefix)) (length : N) : M (option prefix) :=
  l <- lft ;;
  match l with
  | Some lPrefix =>
    if plen lPrefix =? length then ret (Some lPrefix)
    else
      r <- rgt ;;
      match r with
      | Some rPrefix => if plen lPrefix <? plen rPrefix then ret (Some rPrefix) else ret (Some lPrefix)
      | None => ret (Some lPrefix)
      end
  | None =>
    r <- rgt ;;
    match r with
    | Some rPrefix => ret (Some rPrefix)
    | None => ret None
    end
  end.
(* ipv4/setnode.go:325-348 findSmallestContainingPrefix *)
Fixpoint h_findSmallest (fuel : nat) (p : ptr) (length : N) : M (option prefix) :=
  match fuel with
  | O => lift OutOfFuel
  | S fuel' =>
    if nilp p then ret None
    else
      n <- load p ;;
      if length <? plen (hPrefix n) then ret None
      else if (length =? plen (hPrefix n)) && hactive n then ret (Some (hPrefix n))
      else
        b <- h_best (h_findSmallest fuel' (hc0 n) length) (h_findSmallest fuel' (hc1 n) length) length ;;
        match b with
        | Some bestPrefix => ret (Some bestPrefix)
        | None => if negb (hactive n) then ret None else ret (Some (hPrefix n))
        end
  end.
(* ipv4/setnode.go:350-406 FindSmallestContainingPrefix *)
Fixpoint h_findSmallestR (fuel : nat) (me reserved : ptr) (length : N) : M (option prefix) :=
  match fuel with
  | O => lift OutOfFuel
  | S fuel' =>
    if nilp me then ret None
    else
      m <- load me ;;
      if length <? plen (hPrefix m) then ret None
      else if nilp reserved then h_findSmallest (pathW W) me length
      else
        r <- load reserved ;;
        let '(result, _, _, child) := compare W (hPrefix m) (hPrefix r) in
        match result with
        | compareIsContained =>
          if hactive r then ret None else h_findSmallestR fuel' me (kidp child r) length
        | compareDisjoint => h_findSmallest (pathW W) me length
        | _ =>
          if negb (hactive m) then
            h_best (h_findSmallestR fuel' (hc0 m) reserved length) (h_findSmallestR fuel' (hc1 m) reserved length) length
          else
            match result with
            | compareSame =>
              if hactive r then ret None
              else
                '(lft, rgt) <- h_halves W (hPrefix m) ;;
                h_best (h_findSmallestR fuel' lft (hc0 r) length) (h_findSmallestR fuel' rgt (hc1 r) length) length
            | _ =>
              '(lft, rgt) <- h_halves W (hPrefix m) ;;
              let whole := if child then lft else rgt in
              let partial := if child then rgt else lft in
              h_best (h_findSmallest (pathW W) whole length) (h_findSmallestR fuel' partial reserved length) length
            end
        end
  end.
End Reads.

Section ConcSet.
Variable W : N.
Notation value := (ptr * unit)%type.

(* an argument of type SetI: nil, or one of the kinds of value; ASet is an
   immutable set, the last of the further arguments of the call *)
Inductive s_arg := ANil | AAddress (a : N) | APrefix (p : prefix) | ARange (r : range) | ASet.
Inductive s_wop := WInsert (x : s_arg) | WRemove (x : s_arg).
(* callbacks: as in ConcTable.v *)
Inductive s_rop :=
| RNumAddresses
| RIsEmpty
| RContains (x : s_arg)
| REqual
| RWalkPrefixes (go : list prefix -> bool)
| RWalkRanges (go : list range -> bool)
| RFindAvailablePrefix (x : s_arg) (length : N).
(* conversion to a Set, and the operations; the receiver is the first argument *)
Inductive s_bop := BSet (x : s_arg) | BUnion (x : s_arg) | BIntersection (x : s_arg) | BDifference (x : s_arg).
Inductive sout :=
| SUnit | SNum (n : N) | SBool (b : bool)
| SPrefixes (l : list prefix) (finished : bool)
| SRanges (l : list range) (finished : bool)
| SFound (p : option prefix).

(* ---- as heap programs ---- *)
Definition s_argp (x : s_arg) (xs : list value) : prog unit ptr :=
  match x with
  | ANil => ret None
  | AAddress a => h_setNodeFromPrefix (addr_prefix W a)
  | APrefix p => h_setNodeFromPrefix p
  | ARange r => h_setNodeFromRange W r
  | ASet => match xs with [(q, _)] => ret q | _ => lift Panic end
  end.
(* the mutators of ipv4/set.go:56-58 Insert, 71-73 Remove *)
Definition s_wprog (o : s_wop) (x : value) (xs : list value) : prog unit (option ptr * sout) :=
  match o with
  | WInsert i => q <- s_argp i xs ;; n <- h_Union W (fst x) q ;; ret (Some n, SUnit)
  | WRemove i => q <- s_argp i xs ;; n <- h_Difference W (fst x) q ;; ret (Some n, SUnit)
  end.
(* ipv4/set.go:77-103 (Set_), 196-216, 268-307, 348-358 (Set) *)
Definition s_rprog (r : s_rop) (x : option value) (xs : list value) : prog unit sout :=
  match x with
  | None =>
    match r with
    | RNumAddresses => ret (SNum 0)
    | RIsEmpty => ret (SBool true)
    | RContains ANil => ret (SBool true)
    | RContains i => q <- s_argp i xs ;; b <- h_IsEmpty W q ;; ret (SBool b)
    | REqual => match xs with [(q, _)] => b <- h_IsEmpty W q ;; ret (SBool b) | _ => lift Panic end
    | _ => lift Panic (* not methods of Set_ *)
    end
  | Some (p, _) =>
    match r with
    | RNumAddresses => n <- h_NumAddresses W (pathW W) p ;; ret (SNum n)
    | RIsEmpty => b <- h_IsEmpty W p ;; ret (SBool b)
    | RContains i => q <- s_argp i xs ;; d <- h_Difference W q p ;; b <- h_IsEmpty W d ;; ret (SBool b)
    | REqual => match xs with [(q, _)] => b <- h_Equal (pathW W) p q (fun _ _ => Ok true) ;; ret (SBool b) | _ => lift Panic end
    | RWalkPrefixes go => '(l, b) <- h_Walk W p (fun pr _ => seen go pr) [] ;; ret (SPrefixes l b)
    | RWalkRanges go =>
      '((ranges, st1), finished) <-
        h_Walk W p (fun pr _ (x : list range * list range) =>
           let '(ranges, st) := x in
           let ranges1 := match ranges with
                          | [] => [prefix_range W pr]
                          | r0 :: _ => range_plus W (prefix_range W pr) r0
                          end in
           match ranges1 with
           | [a; b] =>
             let '(st', go) := seen go a st in
             if negb go then ((ranges1, st'), false) else (([b], st'), true)
           | _ => ((ranges1, st), true)
           end) ([], []) ;;
      if negb finished then ret (SRanges st1 false)
      else
        match ranges with
        | [a] => let '(st2, go) := seen go a st1 in if negb go then ret (SRanges st2 false) else ret (SRanges st2 true)
        | _ => ret (SRanges st1 true)
        end
    | RFindAvailablePrefix ANil length => lift Panic
    | RFindAvailablePrefix i length =>
      q <- s_argp i xs ;;
      x <- h_findSmallestR W (fuelW W) p q length ;;
      match x with
      | None => ret (SFound None)
      | Some p => ret (SFound (Some (mkPrefix (paddr (Network W p)) length)))
      end
    end
  end.
(* .Set() of the argument kinds; ipv4/set.go:310-338 *)
Definition s_bprog (b : s_bop) (xs : list value) : prog unit ptr :=
  match b, xs with
  | BSet i, _ => s_argp i xs
  | BUnion i, (p, _) :: xs' => q <- s_argp i xs' ;; h_Union W p q
  | BIntersection i, (p, _) :: xs' => q <- s_argp i xs' ;; h_Intersect W p q
  | BDifference i, (p, _) :: xs' => q <- s_argp i xs' ;; h_Difference W p q
  | _, _ => lift Panic
  end.
Definition s_bext (b : s_bop) (xs : list value) : unit := tt.
Definition s_thaw (e : unit) : unit := e.

(* the calls a client may make: valid arguments, the right number of sets, and
   the methods that only Set has on a Set *)
Definition s_arg_ok (x : s_arg) (a : list nat) : Prop :=
  match x with
  | ANil => a = []
  | AAddress b => wf_addr W b /\ a = []
  | APrefix p => wf_prefix W p /\ a = []
  | ARange r => wf_range W r /\ a = []
  | ASet => exists s, a = [s]
  end.
Definition s_call_ok (k : call unit s_wop s_rop s_bop) : Prop :=
  match k with
  | KWrite _ (WInsert x) a | KWrite _ (WRemove x) a => s_arg_ok x a
  | KRead _ RNumAddresses a | KRead _ RIsEmpty a => a = []
  | KRead _ (RContains x) a => s_arg_ok x a
  | KRead _ REqual a => exists s, a = [s]
  | KRead x (RWalkPrefixes _) a | KRead x (RWalkRanges _) a => (exists s, x = Snap s) /\ a = []
  | KRead x (RFindAvailablePrefix i _) a => (exists s, x = Snap s) /\ s_arg_ok i a
  | KBuild (BSet x) a => s_arg_ok x a
  | KBuild (BUnion x) a | KBuild (BIntersection x) a | KBuild (BDifference x) a => exists s a', a = s :: a' /\ s_arg_ok x a'
  | _ => True
  end.

(* ---- as functions on values ---- *)
Notation nopeq := (fun _ _ : snode => false).
Definition s_setI (x : s_arg) (ts : list snode) : option (option SetI) :=
  match x with
  | ANil => Some None
  | AAddress a => Some (Some (AddressSet a))
  | APrefix p => Some (Some (PrefixSet p))
  | ARange r => Some (Some (RangeSet r))
  | ASet => match ts with [t] => Some (Some (TheSet t)) | _ => None end
  end.
Definition with_arg {X} (x : s_arg) (ts : list snode) (f : option SetI -> res X) : res X :=
  match s_setI x ts with Some i => f i | None => Panic end.
Definition of_some {X} (r : res (option X)) (out : sout) : res (option X * sout) :=
  bind r (fun x => match x with Some y => Ok (Some y, out) | None => Panic end).
Definition s_wfun (o : s_wop) (s : snode) (ts : list snode) : res (option snode * sout) :=
  match o with
  | WInsert x => with_arg x ts (fun i => of_some (set__Insert W nopeq (Some s) i) SUnit)
  | WRemove x => with_arg x ts (fun i => of_some (set__Remove W nopeq (Some s) i) SUnit)
  end.
Definition s_rfun (r : s_rop) (s : option snode) (ts : list snode) : res sout :=
  match r with
  | RNumAddresses => Ok (SNum (set__NumAddresses W s))
  | RIsEmpty => Ok (SBool (set__IsEmpty W s))
  | RContains x => with_arg x ts (fun i => bind (set__Contains W nopeq s i) (fun b => Ok (SBool b)))
  | REqual => match ts with [t] => bind (set__Equal W nopeq s (Some t)) (fun b => Ok (SBool b)) | _ => Panic end
  | RWalkPrefixes go =>
    match s with
    | Some s => bind (set_WalkPrefixes W nopeq s (seen go) []) (fun x => Ok (SPrefixes (fst x) (snd x)))
    | None => Panic
    end
  | RWalkRanges go =>
    match s with
    | Some s => bind (set_WalkRanges W nopeq s (seen go) []) (fun x => Ok (SRanges (fst x) (snd x)))
    | None => Panic
    end
  | RFindAvailablePrefix x length =>
    match s with
    | Some s => with_arg x ts (fun i => bind (set_FindAvailablePrefix W nopeq s i length) (fun p => Ok (SFound p)))
    | None => Panic
    end
  end.
Definition s_bfun (b : s_bop) (ts : list snode) (R : res snode) : Prop :=
  match b, ts with
  | BSet x, _ => R = with_arg x ts (setI W nopeq)
  | BUnion x, s :: ts' => R = with_arg x ts' (set_Union W nopeq s)
  | BIntersection x, s :: ts' => R = with_arg x ts' (set_Intersection W nopeq s)
  | BDifference x, s :: ts' => R = with_arg x ts' (set_Difference W nopeq s)
  | _, _ => R = Panic
  end.
Definition s_new (e : unit) : snode := Nil.
Definition s_thawed (s : snode) : snode := s.
End ConcSet.
