(* Table6.v - model of ipv6/tablex.go and ipv6/table.go at the level of the types
   of package ipv6; see Trie6.v and Table.v. *)
From Verif Require Export Trie6 Table.

Section Table6.
Context {T : Type}.
(* the zero value of T *)
Variable zeroT : T.
(* conversion of a T to interface{}: Some v, or None when T is an interface type
   and the value is its nil *)
Variable box : T -> option T.
(* Go's == on two values of dynamic type T (may panic when T is not comparable) *)
Variable goeq : T -> T -> res bool.
(* pointer equality oracle, see Trie.v *)
Variable peq : trie6 T -> trie6 T -> bool.

(* ipv6/tablex.go:219-222 *)
Record tableX6 := { tx_trie6 : trie6 T; tx_eq6 : option (comparator T) }.

(* ipv6/tablex.go:26-33 and table.go:19-23 *)
Definition NewTable_6 : option tableX6 := Some {| tx_trie6 := Nil6; tx_eq6 := Some (defaultComparator goeq) |}.
(* ipv6/tablex.go:37-44 and table.go:27-35 *)
Definition NewTableCustomCompare_6 (g : T -> T -> bool) : option tableX6 :=
  Some {| tx_trie6 := Nil6; tx_eq6 := Some (customComparator g) |}.

(* a nil PrefixI is Prefix{}: ipv6/tablex.go:84-86, 106-108, 127-129, 153-155, 184-186, 282-284 *)
Definition prefixI6 (p : option prefix6) : prefix6 := match p with Some q => q | None => zero_prefix6 end.

(* ipv6/tablex.go:67-75 mutate, without interference: the new root is stored *)
Definition set_trie6 (c : tableX6) (t : trie6 T) : tableX6 := {| tx_trie6 := t; tx_eq6 := tx_eq6 c |}.

(* ipv6/tablex.go:80-97 Insert, table.go:48-50 *)
Definition tbl_Insert6 (m : option tableX6) (p : option prefix6) (v : T) : res (option tableX6 * bool) :=
  match m with
  | None => Panic
  | Some c =>
    '(newHead, err) <- Insert6 (tx_trie6 c) (prefixI6 p) (box v) ;;
    match err with
    | Some _ => Ok (Some c, false)
    | None => Ok (Some (set_trie6 c newHead), true)
    end
  end.

(* ipv6/tablex.go:102-119 Update, table.go:55-57 *)
Definition tbl_Update6 (m : option tableX6) (p : option prefix6) (v : T) : res (option tableX6 * bool) :=
  match m with
  | None => Panic
  | Some c =>
    '(newHead, err) <- Update6 (tx_trie6 c) (prefixI6 p) (box v) (ceq (tx_eq6 c)) ;;
    match err with
    | Some _ => Ok (Some c, false)
    | None => Ok (Some (set_trie6 c newHead), true)
    end
  end.

(* ipv6/tablex.go:123-133 InsertOrUpdate, table.go:61-63 *)
Definition tbl_InsertOrUpdate6 (m : option tableX6) (p : option prefix6) (v : T) : res (option tableX6) :=
  match m with
  | None => Panic
  | Some c =>
    newHead <- InsertOrUpdate6 (tx_trie6 c) (prefixI6 p) (box v) (ceq (tx_eq6 c)) ;;
    Ok (Some (set_trie6 c newHead))
  end.

(* ipv6/tablex.go:149-163 GetOrInsert, table.go:82-86 *)
Definition tbl_GetOrInsert6 (m : option tableX6) (p : option prefix6) (v : T) : res (option tableX6 * T) :=
  match m with
  | None => Panic
  | Some c =>
    '(newHead, d) <- GetOrInsert6 (tx_trie6 c) (prefixI6 p) (box v) ;;
    Ok (Some (set_trie6 c newHead), unbox zeroT d)
  end.

(* ipv6/tablex.go:180-194 Remove, table.go:107-109; note that the new root is
   stored even when err <> nil (it is then the old root) *)
Definition tbl_Remove6 (m : option tableX6) (p : option prefix6) : res (option tableX6 * bool) :=
  match m with
  | None => Panic
  | Some c =>
    let '(newHead, err) := del6 (tx_trie6 c) (prefixI6 p) in
    Ok (Some (set_trie6 c newHead), match err with None => true | Some _ => false end)
  end.

(* ipv6/tablex.go:281-295 longestMatch *)
Definition longestMatch6 (t : tableX6) (p : option prefix6) : option T * matchKind * prefix6 :=
  let sp := prefixI6 p in
  match Match6 (tx_trie6 t) sp with
  | None => (None, matchNone, zero_prefix6)
  | Some (np, d) => if plen6 np =? plen6 sp then (d, matchExact, np) else (d, matchContains, np)
  end.

(* ipv6/tablex.go:258-266 Get *)
Definition tx_Get6 (t : tableX6) (p : option prefix6) : option T * bool :=
  let '(value, matched, _) := longestMatch6 t p in
  match matched with matchExact => (value, true) | _ => (None, false) end.
(* ipv6/tablex.go:272-279 LongestMatch *)
Definition tx_LongestMatch6 (t : tableX6) (p : option prefix6) : option T * bool * prefix6 :=
  let '(value, matched, matchPrefix) := longestMatch6 t p in
  match matched with matchNone => (None, false, zero_prefix6) | _ => (value, true, matchPrefix) end.

(* ipv6/table.go:173-180 Get *)
Definition Get6 (t : tableX6) (p : option prefix6) : T * bool :=
  let '(i, b) := tx_Get6 t p in
  if negb b then (zeroT, b) else (unbox zeroT i, b).
(* ipv6/table.go:186-193 LongestMatch *)
Definition LongestMatch6 (t : tableX6) (p : option prefix6) : T * bool * prefix6 :=
  let '(v, found, q) := tx_LongestMatch6 t p in
  if negb found then (zeroT, false, q) else (unbox zeroT v, true, q).
(* ipv6/tablex.go:250-252, table.go:165-167 NumEntries *)
Definition NumEntries6 (t : tableX6) : N := NumNodes6 (tx_trie6 t).

(* reads of a Table_: ipv6/tablex.go:59-64, 139-144, 169-174; table.go:38-43, 69-77, 93-101 *)
Definition tbl_NumEntries6 (m : option tableX6) : N := match m with None => 0 | Some c => NumEntries6 c end.
Definition tbl_Get6 (m : option tableX6) (p : option prefix6) : T * bool :=
  match m with
  | None => (zeroT, false)
  | Some c => let '(value, ok) := tx_Get6 c p in (unbox zeroT value, ok)
  end.
Definition tbl_LongestMatch6 (m : option tableX6) (p : option prefix6) : T * bool * prefix6 :=
  match m with
  | None => (zeroT, false, zero_prefix6)
  | Some c => let '(v, found, q) := tx_LongestMatch6 c p in (unbox zeroT v, found, q)
  end.

(* Table{}: the zero value *)
Definition zero_table6 : tableX6 := {| tx_trie6 := Nil6; tx_eq6 := None |}.
(* ipv6/tablex.go:199-204, table.go:114-123 Table *)
Definition tbl_Table6 (m : option tableX6) : tableX6 := match m with None => zero_table6 | Some c => c end.
(* ipv6/tablex.go:227-232, table.go:145-147 Table_ *)
Definition Table_6 (t : tableX6) : option tableX6 :=
  Some {| tx_trie6 := tx_trie6 t;
          tx_eq6 := match tx_eq6 t with None => Some (defaultComparator goeq) | Some e => Some e end |}.
(* ipv6/tablex.go:241-247, table.go:156-162 Build; the builder is given the
   mutable clone and yields its final contents and its verdict, or panics *)
Definition Build6 (t : tableX6) (builder : option tableX6 -> res (option tableX6 * bool)) : res tableX6 :=
  '(t', ok) <- builder (Table_6 t) ;;
  if ok then Ok (tbl_Table6 t') else Ok t.

(* ipv6/table.go:220-226 Aggregate: the eq field of the result is nil *)
Definition tbl_Aggregate6 (t : tableX6) : res tableX6 :=
  n <- Aggregate6 peq (tx_trie6 t) (ceq (tx_eq6 t)) ;;
  Ok {| tx_trie6 := n; tx_eq6 := None |}.
(* ipv6/tablex.go:322-327 tableX.Aggregate (not reachable from the exported API) *)
Definition tx_Aggregate6 (t : tableX6) : res tableX6 :=
  n <- Aggregate6 peq (tx_trie6 t) (ceq (tx_eq6 t)) ;;
  Ok {| tx_trie6 := n; tx_eq6 := tx_eq6 t |}.

(* ipv6/table.go:233-239 Walk, tablex.go:334-336.  The wrapper passes a non-nil
   closure, so a nil callback panics when it is first called. *)
Definition tbl_Walk6 {S} (t : tableX6) (callback : prefix6 -> T -> S -> S * bool) (st : S) : res (S * bool) :=
  Walk6 peq (tx_trie6 t) (Some (fun p d => callback p (unbox zeroT d))) st.

(* ipv6/table.go:257-289 Diff *)
Definition tbl_Diff6 {S} (me other : tableX6)
           (changed : option (prefix6 -> T -> T -> S -> S * bool))
           (left right unchanged : option (prefix6 -> T -> S -> S * bool)) (st : S) : res (S * bool) :=
  Diff6 peq (tx_trie6 me) (tx_trie6 other)
       {| Removed6 := option_map (fun g n => g (prefix_of6 n) (unbox zeroT (data_of6 n))) left;
          Added6 := option_map (fun g n => g (prefix_of6 n) (unbox zeroT (data_of6 n))) right;
          Modified6 := option_map (fun g l r => g (prefix_of6 l) (unbox zeroT (data_of6 l)) (unbox zeroT (data_of6 r))) changed;
          Same6 := option_map (fun g n => g (prefix_of6 n) (unbox zeroT (data_of6 n))) unchanged |}
       (ceq (tx_eq6 me)) st.

(* ipv6/table.go:309-322 Map *)
Definition tbl_Map6 {S} (t : tableX6) (mapper : option (prefix6 -> T -> S -> S * T)) (st : S) : res (S * tableX6) :=
  match mapper with
  | None => Ok (st, t)
  | Some g =>
    '(st', n) <- Map6 (tx_trie6 t)
                   (fun p d s => let (s', v) := g p (unbox zeroT d) s in (s', box v)) (ceq (tx_eq6 t)) st ;;
    Ok (st', {| tx_trie6 := n; tx_eq6 := tx_eq6 t |})
  end.
End Table6.
Arguments tableX6 : clear implicits.
Arguments tx_trie6 {T}.
Arguments tx_eq6 {T}.
