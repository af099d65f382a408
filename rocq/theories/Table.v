(* Table.v - model of ipv4/tablex.go and ipv4/table.go (ipv6: the same files,
   identical up to the package name; `diff ipv4/table.go ipv6/table.go` shows
   only the package clause).
   The generic wrappers Table[T]/Table_[T] call the untyped tableX/tableX_
   methods or trieNode directly; both layers are modelled.
   A Table_ is a pointer to a tableX; here [m : option tableX] is the pointed-to
   value (None = nil pointer, the uninitialised Table_) and a modifying method
   returns the new pointed-to value.  Sharing of the pointer between copies of a
   Table_ and the compare-and-swap are in Conc.v. *)
From Verif Require Export Trie.

Section Table.
Variable W : N.
Context {T : Type}.
(* the zero value of T *)
Variable zeroT : T.
(* conversion of a T to interface{}: Some v, or None when T is an interface type
   and the value is its nil *)
Variable box : T -> option T.
(* Go's == on two values of dynamic type T (may panic when T is not comparable) *)
Variable goeq : T -> T -> res bool.
(* pointer equality oracle, see Trie.v *)
Variable peq : trie T -> trie T -> bool.

(* t, _ = i.(T) : the zero value when i is the nil interface *)
Definition unbox (d : option T) : T := match d with Some v => v | None => zeroT end.

(* ipv4/tablex.go:219-222 *)
Record tableX := { tx_trie : trie T; tx_eq : option (comparator T) }.

(* calling a comparator field, which may be a nil func value *)
Definition ceq (e : option (comparator T)) : comparator T :=
  match e with Some c => c | None => nil_eq end.

(* ipv4/tablex.go:20-22 *)
Definition defaultComparator : comparator T := fun a b =>
  match a, b with
  | None, None => Ok true
  | Some x, Some y => goeq x y
  | _, _ => Ok false
  end.
(* ipv4/table.go:30-32: comparator(a.(T), b.(T)) *)
Definition customComparator (g : T -> T -> bool) : comparator T := fun a b =>
  match a, b with
  | Some x, Some y => Ok (g x y)
  | _, _ => Panic
  end.

(* ipv4/tablex.go:26-33 and table.go:19-23 *)
Definition NewTable_ : option tableX := Some {| tx_trie := Nil; tx_eq := Some defaultComparator |}.
(* ipv4/tablex.go:37-44 and table.go:27-35 *)
Definition NewTableCustomCompare_ (g : T -> T -> bool) : option tableX :=
  Some {| tx_trie := Nil; tx_eq := Some (customComparator g) |}.

(* a nil PrefixI is Prefix{}: ipv4/tablex.go:84-86, 106-108, 127-129, 153-155, 184-186, 282-284 *)
Definition prefixI (p : option prefix) : prefix := match p with Some q => q | None => zero_prefix end.

(* ipv4/tablex.go:67-75 mutate, without interference: the new root is stored *)
Definition set_trie (c : tableX) (t : trie T) : tableX := {| tx_trie := t; tx_eq := tx_eq c |}.

(* ipv4/tablex.go:80-97 Insert, table.go:48-50 *)
Definition tbl_Insert (m : option tableX) (p : option prefix) (v : T) : res (option tableX * bool) :=
  match m with
  | None => Panic
  | Some c =>
    '(newHead, err) <- Insert W (tx_trie c) (prefixI p) (box v) ;;
    match err with
    | Some _ => Ok (Some c, false)
    | None => Ok (Some (set_trie c newHead), true)
    end
  end.

(* ipv4/tablex.go:102-119 Update, table.go:55-57 *)
Definition tbl_Update (m : option tableX) (p : option prefix) (v : T) : res (option tableX * bool) :=
  match m with
  | None => Panic
  | Some c =>
    '(newHead, err) <- Update W (tx_trie c) (prefixI p) (box v) (ceq (tx_eq c)) ;;
    match err with
    | Some _ => Ok (Some c, false)
    | None => Ok (Some (set_trie c newHead), true)
    end
  end.

(* ipv4/tablex.go:123-133 InsertOrUpdate, table.go:61-63 *)
Definition tbl_InsertOrUpdate (m : option tableX) (p : option prefix) (v : T) : res (option tableX) :=
  match m with
  | None => Panic
  | Some c =>
    newHead <- InsertOrUpdate W (tx_trie c) (prefixI p) (box v) (ceq (tx_eq c)) ;;
    Ok (Some (set_trie c newHead))
  end.

(* ipv4/tablex.go:149-163 GetOrInsert, table.go:82-86 *)
Definition tbl_GetOrInsert (m : option tableX) (p : option prefix) (v : T) : res (option tableX * T) :=
  match m with
  | None => Panic
  | Some c =>
    '(newHead, d) <- GetOrInsert W (tx_trie c) (prefixI p) (box v) ;;
    Ok (Some (set_trie c newHead), unbox d)
  end.

(* ipv4/tablex.go:180-194 Remove, table.go:107-109; note that the new root is
   stored even when err <> nil (it is then the old root) *)
Definition tbl_Remove (m : option tableX) (p : option prefix) : res (option tableX * bool) :=
  match m with
  | None => Panic
  | Some c =>
    let '(newHead, err) := del W (tx_trie c) (prefixI p) in
    Ok (Some (set_trie c newHead), match err with None => true | Some _ => false end)
  end.

(* ipv4/tablex.go:47-56 *)
Inductive matchKind := matchNone | matchContains | matchExact.

(* ipv4/tablex.go:281-295 longestMatch *)
Definition longestMatch (t : tableX) (p : option prefix) : option T * matchKind * prefix :=
  let sp := prefixI p in
  match Match W (tx_trie t) sp with
  | None => (None, matchNone, zero_prefix)
  | Some (np, d) => if plen np =? plen sp then (d, matchExact, np) else (d, matchContains, np)
  end.

(* ipv4/tablex.go:258-266 Get *)
Definition tx_Get (t : tableX) (p : option prefix) : option T * bool :=
  let '(value, matched, _) := longestMatch t p in
  match matched with matchExact => (value, true) | _ => (None, false) end.
(* ipv4/tablex.go:272-279 LongestMatch *)
Definition tx_LongestMatch (t : tableX) (p : option prefix) : option T * bool * prefix :=
  let '(value, matched, matchPrefix) := longestMatch t p in
  match matched with matchNone => (None, false, zero_prefix) | _ => (value, true, matchPrefix) end.

(* ipv4/table.go:173-180 Get *)
Definition Get (t : tableX) (p : option prefix) : T * bool :=
  let '(i, b) := tx_Get t p in
  if negb b then (zeroT, b) else (unbox i, b).
(* ipv4/table.go:186-193 LongestMatch *)
Definition LongestMatch (t : tableX) (p : option prefix) : T * bool * prefix :=
  let '(v, found, q) := tx_LongestMatch t p in
  if negb found then (zeroT, false, q) else (unbox v, true, q).
(* ipv4/tablex.go:250-252, table.go:165-167 NumEntries *)
Definition NumEntries (t : tableX) : N := NumNodes (tx_trie t).

(* reads of a Table_: ipv4/tablex.go:59-64, 139-144, 169-174; table.go:38-43, 69-77, 93-101 *)
Definition tbl_NumEntries (m : option tableX) : N := match m with None => 0 | Some c => NumEntries c end.
Definition tbl_Get (m : option tableX) (p : option prefix) : T * bool :=
  match m with
  | None => (zeroT, false)
  | Some c => let '(value, ok) := tx_Get c p in (unbox value, ok)
  end.
Definition tbl_LongestMatch (m : option tableX) (p : option prefix) : T * bool * prefix :=
  match m with
  | None => (zeroT, false, zero_prefix)
  | Some c => let '(v, found, q) := tx_LongestMatch c p in (unbox v, found, q)
  end.

(* Table{}: the zero value *)
Definition zero_table : tableX := {| tx_trie := Nil; tx_eq := None |}.
(* ipv4/tablex.go:199-204, table.go:114-123 Table *)
Definition tbl_Table (m : option tableX) : tableX := match m with None => zero_table | Some c => c end.
(* ipv4/tablex.go:227-232, table.go:145-147 Table_ *)
Definition Table_ (t : tableX) : option tableX :=
  Some {| tx_trie := tx_trie t;
          tx_eq := match tx_eq t with None => Some defaultComparator | Some e => Some e end |}.
(* ipv4/tablex.go:241-247, table.go:156-162 Build; the builder is given the
   mutable clone and yields its final contents and its verdict, or panics *)
Definition Build (t : tableX) (builder : option tableX -> res (option tableX * bool)) : res tableX :=
  '(t', ok) <- builder (Table_ t) ;;
  if ok then Ok (tbl_Table t') else Ok t.

(* ipv4/table.go:220-226 Aggregate: the eq field of the result is nil *)
Definition tbl_Aggregate (t : tableX) : res tableX :=
  n <- Aggregate peq (tx_trie t) (ceq (tx_eq t)) ;;
  Ok {| tx_trie := n; tx_eq := None |}.
(* ipv4/tablex.go:322-327 tableX.Aggregate (not reachable from the exported API) *)
Definition tx_Aggregate (t : tableX) : res tableX :=
  n <- Aggregate peq (tx_trie t) (ceq (tx_eq t)) ;;
  Ok {| tx_trie := n; tx_eq := tx_eq t |}.

(* ipv4/table.go:233-239 Walk, tablex.go:334-336.  The wrapper passes a non-nil
   closure, so a nil callback panics when it is first called. *)
Definition tbl_Walk {S} (t : tableX) (callback : prefix -> T -> S -> S * bool) (st : S) : res (S * bool) :=
  Walk W peq (tx_trie t) (Some (fun p d => callback p (unbox d))) st.

(* ipv4/table.go:257-289 Diff *)
Definition tbl_Diff {S} (me other : tableX)
           (changed : option (prefix -> T -> T -> S -> S * bool))
           (left right unchanged : option (prefix -> T -> S -> S * bool)) (st : S) : res (S * bool) :=
  Diff W peq (tx_trie me) (tx_trie other)
       {| Removed := option_map (fun g n => g (prefix_of n) (unbox (data_of n))) left;
          Added := option_map (fun g n => g (prefix_of n) (unbox (data_of n))) right;
          Modified := option_map (fun g l r => g (prefix_of l) (unbox (data_of l)) (unbox (data_of r))) changed;
          Same := option_map (fun g n => g (prefix_of n) (unbox (data_of n))) unchanged |}
       (ceq (tx_eq me)) st.

(* ipv4/table.go:309-322 Map *)
Definition tbl_Map {S} (t : tableX) (mapper : option (prefix -> T -> S -> S * T)) (st : S) : res (S * tableX) :=
  match mapper with
  | None => Ok (st, t)
  | Some g =>
    '(st', n) <- Map (tx_trie t)
                   (fun p d s => let (s', v) := g p (unbox d) s in (s', box v)) (ceq (tx_eq t)) st ;;
    Ok (st', {| tx_trie := n; tx_eq := tx_eq t |})
  end.
End Table.
Arguments tableX : clear implicits.
Arguments tx_trie {T}.
Arguments tx_eq {T}.
