(* SetApi6.v - model of ipv6/set.go at the level of the types of package ipv6;
   see Trie6.v and SetApi.v.  A Set is its one field, the trie; a Set_ is a
   pointer to a Set: [option snode6] is the pointed-to value. *)
From Verif Require Export SetNode6.

(* ipv6/address.go:92-94 Prefix *)
Definition addr_prefix6 (a : u128) : prefix6 := mkPrefix6 a 128.
(* ipv6/prefix.go:122-134 NumPrefixes: (count, err <> nil); math.Pow as in Values.v *)
Definition prefix6_NumPrefixes (p : prefix6) (len : N) : N * bool :=
  if 128 <? len then (0, true)
  else if len <? plen6 p then (0, false)
  else if 63 <? len - plen6 p then (0, true)
  else (2 ^ (len - plen6 p), false).

Section SetApi6.
(* pointer equality oracle, see Trie.v *)
Variable peq : snode6 -> snode6 -> bool.

(* ipv6/set.go:167-175: what can be passed as a SetI; a nil SetI is None *)
Inductive SetI6 :=
| AddressSet6 (a : u128)
| PrefixSet6 (p : prefix6)
| RangeSet6 (r : range6)
| TheSet6 (s : snode6)
| TheSet_6 (s : option snode6).

(* ipv6/set.go:20-24 *)
Definition NewSet_6 : option snode6 := Some Nil6.
(* ipv6/set.go:28-35 *)
Definition set__Set6 (m : option snode6) : snode6 := match m with None => Nil6 | Some s => s end.
(* ipv6/set.go:178-184 *)
Definition Set_6 (s : snode6) : option snode6 := Some s.

(* .Set() of each kind: ipv6/address.go:97-99, prefix.go:230-234, range.go:95-99, set.go:187-189, 28-35 *)
Definition asSet6 (i : SetI6) : res snode6 :=
  match i with
  | AddressSet6 a => Ok (setNodeFromPrefix6 (addr_prefix6 a))
  | PrefixSet6 p => Ok (setNodeFromPrefix6 p)
  | RangeSet6 r => setNodeFromRange6 peq r
  | TheSet6 s => Ok s
  | TheSet_6 m => Ok (set__Set6 m)
  end.
(* "if other == nil { other = Set{} }" followed by other.Set().trie *)
Definition setI6 (i : option SetI6) : res snode6 :=
  match i with None => Ok Nil6 | Some x => asSet6 x end.

(* ipv6/set.go:192-194 *)
Definition set_IsEmpty6 (s : snode6) : bool := IsEmpty6 s.

(* ipv6/set.go:298-305, 308-315, 319-326 *)
Definition set_Union6 (s : snode6) (o : option SetI6) : res snode6 := t <- setI6 o ;; Union6 peq s t.
Definition set_Intersection6 (s : snode6) (o : option SetI6) : res snode6 := t <- setI6 o ;; Intersect6 peq s t.
Definition set_Difference6 (s : snode6) (o : option SetI6) : res snode6 := t <- setI6 o ;; Difference6 peq s t.
(* ipv6/set.go:289-295 *)
Definition set_Contains6 (s : snode6) (o : option SetI6) : res bool :=
  t <- setI6 o ;; d <- Difference6 peq t s ;; Ok (set_IsEmpty6 d).
(* ipv6/set.go:284-286 *)
Definition set_Equal6 (s o : snode6) : res bool := snode_Equal6 peq s o.

(* ipv6/set.go:203-207 *)
Definition set_WalkPrefixes6 {S} (s : snode6) (callback : prefix6 -> S -> S * bool) (st : S) : res (S * bool) :=
  Walk6 peq s (Some (fun p _ => callback p)) st.

(* ipv6/set.go:230-247 NumPrefixes: (count, err <> nil) *)
Definition set6_NumPrefixes (s : snode6) (length : N) : res (N * bool) :=
  '(x, _) <- set_WalkPrefixes6 s
     (fun p (x : N * bool) =>
        let '(count, err) := x in
        let '(c, e) := prefix6_NumPrefixes p length in
        if e then ((count, true), false)
        else if N.ones 64 - c <? count then ((count, true), false)
        else ((wadd 64 count c, err), true)) (0, false) ;;
  Ok x.
(* ipv6/set.go:256-281 WalkRanges; the captured slice [ranges] is threaded *)
Definition set_WalkRanges6 {S} (s : snode6) (callback : range6 -> S -> S * bool) (st : S) : res (S * bool) :=
  '((ranges, st1), finished) <-
    set_WalkPrefixes6 s
      (fun p (x : list range6 * S) =>
         let '(ranges, st) := x in
         let ranges1 := match ranges with
                        | [] => [prefix_range6 p]
                        | r0 :: _ => range_plus6 (prefix_range6 p) r0
                        end in
         match ranges1 with
         | [a; b] =>
           let '(st', go) := callback a st in
           if negb go then ((ranges1, st'), false) else (([b], st'), true)
         | _ => ((ranges1, st), true)
         end) ([], st) ;;
  if negb finished then Ok (st1, false)
  else
    match ranges with
    | [a] => let '(st2, go) := callback a st1 in if negb go then Ok (st2, false) else Ok (st2, true)
    | _ => Ok (st1, true)
    end.

(* ipv6/set.go:336-346 FindAvailablePrefix: reserved.Set() on a nil interface
   panics; None = error *)
Definition set_FindAvailablePrefix6 (s : snode6) (reserved : option SetI6) (length : N) : res (option prefix6) :=
  match reserved with
  | None => Panic
  | Some i =>
    t <- asSet6 i ;;
    x <- FindSmallestContainingPrefix6 s t length ;;
    match x with
    | None => Ok None
    | Some p => Ok (Some (mkPrefix6 (paddr6 (Network6 p)) length))
    end
  end.

(* ipv6/set.go:328-330 *)
Definition set_isValid6 (s : snode6) : bool := isValid6 s.

(* ---- Set_ ---- *)
(* ipv6/set.go:65-75 Insert, 80-90 Remove, with mutate (53-61) free of interference *)
Definition set__Insert6 (m : option snode6) (o : option SetI6) : res (option snode6) :=
  match m with
  | None => Panic
  | Some s => t <- setI6 o ;; n <- Union6 peq s t ;; Ok (Some n)
  end.
Definition set__Remove6 (m : option snode6) (o : option SetI6) : res (option snode6) :=
  match m with
  | None => Panic
  | Some s => t <- setI6 o ;; n <- Difference6 peq s t ;; Ok (Some n)
  end.
(* ipv6/set.go:93-98 *)
Definition set__IsEmpty6 (m : option snode6) : bool := match m with None => true | Some s => set_IsEmpty6 s end.
(* ipv6/set.go:101-106 *)
Definition set__Contains6 (m : option snode6) (o : option SetI6) : res bool :=
  match m with
  | None => match o with None => Ok true | Some i => t <- asSet6 i ;; Ok (set_IsEmpty6 t) end
  | Some s => set_Contains6 s o
  end.
(* ipv6/set.go:109-114 *)
Definition set__Equal6 (m o : option snode6) : res bool :=
  match m with
  | None => Ok (set__IsEmpty6 o)
  | Some s => set_Equal6 s (set__Set6 o)
  end.
(* ipv6/set.go:121-129, 132-140, 144-152 *)
Definition set__Union6 (m : option snode6) (o : option SetI6) : res snode6 :=
  match m with None => setI6 o | Some s => set_Union6 s o end.
Definition set__Intersection6 (m : option snode6) (o : option SetI6) : res snode6 :=
  match m with None => Ok Nil6 | Some s => set_Intersection6 s o end.
Definition set__Difference6 (m : option snode6) (o : option SetI6) : res snode6 :=
  match m with None => Ok Nil6 | Some s => set_Difference6 s o end.

(* ipv6/set.go:44-50 Build; see Build6 in Table6.v *)
Definition set_Build6 (s : snode6) (builder : option snode6 -> res (option snode6 * bool)) : res snode6 :=
  '(s', ok) <- builder (Set_6 s) ;;
  if ok then Ok (set__Set6 s') else Ok s.

(* ipv6/prefix.go:172-174 Prefix.Contains; range.go:46-48 Range.Contains *)
Definition prefix_Contains6 (p : prefix6) (o : option SetI6) : res bool :=
  s <- asSet6 (PrefixSet6 p) ;; set_Contains6 s o.
Definition range_Contains6 (r : range6) (o : option SetI6) : res bool :=
  s <- asSet6 (RangeSet6 r) ;; set_Contains6 s o.
(* ipv6/range.go:52-54 NumPrefixes *)
Definition range_NumPrefixes6 (r : range6) (length : N) : res (N * bool) :=
  s <- asSet6 (RangeSet6 r) ;; set6_NumPrefixes s length.
End SetApi6.
