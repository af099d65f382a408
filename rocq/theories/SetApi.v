(* SetApi.v - model of ipv4/set.go (ipv6/set.go: the differences, listed by
   `diff ipv4/set.go ipv6/set.go`, are the absence of NumAddresses and
   WalkAddresses, emptiness tests by IsEmpty instead of NumAddresses() == 0, and
   the error handling of NumPrefixes; each is modelled below).
   A Set is its one field, the trie.  A Set_ is a pointer to a Set: here
   [option snode] is the pointed-to value (None = nil pointer, the uninitialised
   Set_) and a modifying method returns the new pointed-to value.  Sharing of
   the pointer and the compare-and-swap are in Conc.v. *)
From Verif Require Export SetNode.

Section SetApi.
Variable W : N.
(* pointer equality oracle, see Trie.v *)
Variable peq : snode -> snode -> bool.

(* ipv4/set.go:153-163: what can be passed as a SetI; a nil SetI is None *)
Inductive SetI :=
| AddressSet (a : N)
| PrefixSet (p : prefix)
| RangeSet (r : range)
| TheSet (s : snode)
| TheSet_ (s : option snode).

(* ipv4/set.go:19-23 *)
Definition NewSet_ : option snode := Some Nil.
(* ipv4/set.go:27-34 *)
Definition set__Set (m : option snode) : snode := match m with None => Nil | Some s => s end.
(* ipv4/set.go:167-173 *)
Definition Set_ (s : snode) : option snode := Some s.

(* .Set() of each kind: ipv4/address.go:94-96, prefix.go:249-253, range.go:101-105, set.go:191-193, 27-34 *)
Definition asSet (i : SetI) : res snode :=
  match i with
  | AddressSet a => Ok (setNodeFromPrefix (addr_prefix W a))
  | PrefixSet p => Ok (setNodeFromPrefix p)
  | RangeSet r => setNodeFromRange W peq r
  | TheSet s => Ok s
  | TheSet_ m => Ok (set__Set m)
  end.
(* "if other == nil { other = Set{} }" followed by other.Set().trie *)
Definition setI (i : option SetI) : res snode :=
  match i with None => Ok Nil | Some x => asSet x end.

(* ipv4/set.go:196-198 (NumAddresses() == 0), ipv6/set.go:192-194 (trie.IsEmpty()) *)
Definition set_IsEmpty (s : snode) : bool :=
  if W =? 32 then NumAddresses W s =? 0 else IsEmpty s.
(* ipv4/set.go:201-203 (ipv4 only) *)
Definition set_NumAddresses (s : snode) : N := NumAddresses W s.

(* ipv4/set.go:310-317, 320-327, 331-338 *)
Definition set_Union (s : snode) (o : option SetI) : res snode := t <- setI o ;; Union W peq s t.
Definition set_Intersection (s : snode) (o : option SetI) : res snode := t <- setI o ;; Intersect W peq s t.
Definition set_Difference (s : snode) (o : option SetI) : res snode := t <- setI o ;; Difference W peq s t.
(* ipv4/set.go:301-307, ipv6/set.go:289-295 *)
Definition set_Contains (s : snode) (o : option SetI) : res bool :=
  t <- setI o ;; d <- Difference W peq t s ;; Ok (set_IsEmpty d).
(* ipv4/set.go:296-298 *)
Definition set_Equal (s o : snode) : res bool := snode_Equal peq s o.

(* ipv4/set.go:212-216 *)
Definition set_WalkPrefixes {S} (s : snode) (callback : prefix -> S -> S * bool) (st : S) : res (S * bool) :=
  Walk W peq s (Some (fun p _ => callback p)) st.

(* ipv4/prefix.go:213-220 walkAddresses: for a := first; a <= last; a++, with a uint32.
   The fuel bounds the number of iterations. *)
Fixpoint walk_addrs {S} (fuel : nat) (a last : N) (callback : N -> S -> S * bool) (st : S) : res (S * bool) :=
  match fuel with
  | O => OutOfFuel
  | Datatypes.S fuel' =>
    if a <=? last then
      let '(st', go) := callback a st in
      if negb go then Ok (st', false) else walk_addrs fuel' (wadd W a 1) last callback st'
    else Ok (st, true)
  end.
Definition prefix_walkAddresses {S} (fuel : nat) (p : prefix) (callback : N -> S -> S * bool) (st : S) : res (S * bool) :=
  walk_addrs fuel (paddr (Network W p)) (paddr (Broadcast W p)) callback st.
(* ipv4/set.go:242-246 WalkAddresses (ipv4 only).  The fuel bounds the
   iterations of each inner loop; when one does not terminate within it, the
   whole walk does not: the threaded state is then OutOfFuel. *)
Definition set_WalkAddresses {S} (fuel : nat) (s : snode) (callback : N -> S -> S * bool) (st : S) : res (S * bool) :=
  '(rst, b) <-
    set_WalkPrefixes s
      (fun p (rst : res S) =>
         match rst with
         | Ok st =>
           match prefix_walkAddresses fuel p callback st with
           | Ok (st', b) => (Ok st', b)
           | Panic => (Panic, false)
           | OutOfFuel => (OutOfFuel, false)
           end
         | _ => (rst, false)
         end) (Ok st) ;;
  st' <- rst ;; Ok (st', b).

(* ipv4/set.go:250-259 NumPrefixes (ipv4): errors of Prefix.NumPrefixes are
   dropped, err stays nil; count is a uint64 *)
Definition set_NumPrefixes4 (s : snode) (length : N) : res (N * bool) :=
  '(count, _) <- set_WalkPrefixes s
     (fun p count => let '(c, _) := prefix_num_prefixes4 W p length in (wadd 64 count c, true)) 0 ;;
  Ok (count, false).
(* ipv6/set.go:230-247 NumPrefixes (ipv6): (count, err <> nil) *)
Definition set_NumPrefixes6 (s : snode) (length : N) : res (N * bool) :=
  '(x, _) <- set_WalkPrefixes s
     (fun p (x : N * bool) =>
        let '(count, err) := x in
        let '(c, e) := prefix_num_prefixes6 W p length in
        if e then ((count, true), false)
        else if N.ones 64 - c <? count then ((count, true), false)
        else ((wadd 64 count c, err), true)) (0, false) ;;
  Ok x.
Definition set_NumPrefixes (s : snode) (length : N) : res (N * bool) :=
  if W =? 32 then set_NumPrefixes4 s length else set_NumPrefixes6 s length.

(* ipv4/set.go:268-293 WalkRanges; the captured slice [ranges] is threaded *)
Definition set_WalkRanges {S} (s : snode) (callback : range -> S -> S * bool) (st : S) : res (S * bool) :=
  '((ranges, st1), finished) <-
    set_WalkPrefixes s
      (fun p (x : list range * S) =>
         let '(ranges, st) := x in
         let ranges1 := match ranges with
                        | [] => [prefix_range W p]
                        | r0 :: _ => range_plus W (prefix_range W p) r0
                        end in
         match ranges1 with
         | [a; b] =>
           let '(st', go) := callback a st in
           if negb go then ((ranges1, st'), false) else (([b], st'), true)
         | _ => ((ranges1, st), true)
         end) ([], st) ;;
  if negb finished then Ok (st1, false)
  else
    match ranges with
    | [a] => let '(st2, go) := callback a st1 in if negb go then Ok (st2, false) else Ok (st2, true)
    | _ => Ok (st1, true)
    end.

(* ipv4/set.go:348-358 FindAvailablePrefix: reserved.Set() on a nil interface
   panics; None = error *)
Definition set_FindAvailablePrefix (s : snode) (reserved : option SetI) (length : N) : res (option prefix) :=
  match reserved with
  | None => Panic
  | Some i =>
    t <- asSet i ;;
    x <- FindSmallestContainingPrefix W s t length ;;
    match x with
    | None => Ok None
    | Some p => Ok (Some (mkPrefix (paddr (Network W p)) length))
    end
  end.

(* ipv4/set.go:340-342 *)
Definition set_isValid (s : snode) : bool := isValid s.

(* ---- Set_ ---- *)
(* ipv4/set.go:49-59 Insert, 64-74 Remove, with mutate (37-45) free of interference *)
Definition set__Insert (m : option snode) (o : option SetI) : res (option snode) :=
  match m with
  | None => Panic
  | Some s => t <- setI o ;; n <- Union W peq s t ;; Ok (Some n)
  end.
Definition set__Remove (m : option snode) (o : option SetI) : res (option snode) :=
  match m with
  | None => Panic
  | Some s => t <- setI o ;; n <- Difference W peq s t ;; Ok (Some n)
  end.
(* ipv4/set.go:77-79, 82-87, ipv6/set.go:93-98 *)
Definition set__NumAddresses (m : option snode) : N := match m with None => 0 | Some s => set_NumAddresses s end.
Definition set__IsEmpty (m : option snode) : bool :=
  if W =? 32 then set__NumAddresses m =? 0
  else match m with None => true | Some s => set_IsEmpty s end.
(* ipv4/set.go:90-95 *)
Definition set__Contains (m : option snode) (o : option SetI) : res bool :=
  match m with
  | None => match o with None => Ok true | Some i => t <- asSet i ;; Ok (set_IsEmpty t) end
  | Some s => set_Contains s o
  end.
(* ipv4/set.go:98-103 *)
Definition set__Equal (m o : option snode) : res bool :=
  match m with
  | None => Ok (set__IsEmpty o)
  | Some s => set_Equal s (set__Set o)
  end.
(* ipv4/set.go:110-118, 121-129, 133-141 *)
Definition set__Union (m : option snode) (o : option SetI) : res snode :=
  match m with None => setI o | Some s => set_Union s o end.
Definition set__Intersection (m : option snode) (o : option SetI) : res snode :=
  match m with None => Ok Nil | Some s => set_Intersection s o end.
Definition set__Difference (m : option snode) (o : option SetI) : res snode :=
  match m with None => Ok Nil | Some s => set_Difference s o end.

(* ipv4/set.go:182-188 Build; see tbl Build in Table.v *)
Definition set_Build (s : snode) (builder : option snode -> res (option snode * bool)) : res snode :=
  '(s', ok) <- builder (Set_ s) ;;
  if ok then Ok (set__Set s') else Ok s.

(* ipv4/prefix.go:170-172 Prefix.Contains; range.go:58-60 Range.Contains *)
Definition prefix_Contains (p : prefix) (o : option SetI) : res bool :=
  s <- asSet (PrefixSet p) ;; set_Contains s o.
Definition range_Contains (r : range) (o : option SetI) : res bool :=
  s <- asSet (RangeSet r) ;; set_Contains s o.
(* ipv4/range.go:33-35 NumPrefixes; 38-41 NumAddresses (ipv4 only) *)
Definition range_NumPrefixes (r : range) (length : N) : res (N * bool) :=
  s <- asSet (RangeSet r) ;; set_NumPrefixes s length.
Definition range_NumAddresses (r : range) : res N :=
  '(c, _) <- range_NumPrefixes r 32 ;; Ok c.
(* ipv4/prefix.go:176-179 NumAddresses (ipv4 only) *)
Definition prefix_NumAddresses (p : prefix) : N := fst (prefix_num_prefixes4 W p 32).
End SetApi.
