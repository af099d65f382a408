(* Trie.v - model of ipv4/node.go (and, at W = 128, ipv6/node.go).
   A *trieNode is modelled by an immutable tree value; nil is Nil.  Pointer
   comparisons of the code are calls to an oracle [peq] (see DESIGN.md); the
   pointer-level model is in Heap.v.  Data (an interface{}) is an [option T]:
   None is the nil interface, Some v a boxed value of the table's type T. *)
From Verif Require Export Values.

Section Trie.
Variable W : N.
Context {T : Type}.

(* ipv4/node.go:8-15 *)
Inductive trie : Type :=
| Nil
| Node (Prefix : prefix) (Data : option T) (size h : N) (isActive : bool) (c0 c1 : trie).

(* ipv4/node.go:132 type comparator func(a, b interface{}) bool.
   Calling it may panic (type assertion on nil, nil func value, ==  on
   uncomparable dynamic types), hence the result type [res bool]. *)
Definition comparator := option T -> option T -> res bool.

(* ipv4/node.go:51-69 contains: (matches, exact, common, child).  child 1 is true. *)
Definition contains (shorter longer : prefix) : bool * bool * N * bool :=
  let mask := wshl W (N.ones W) (wsub 32 W (plen shorter)) in
  let matches := N.land (paddr shorter) mask =? N.land (paddr longer) mask in
  let exact := matches && (plen shorter =? plen longer) in
  let common := if matches then plen shorter
                else clz W (N.lxor (paddr shorter) (paddr longer)) in
  let child := if exact then false
               else negb (N.land (paddr longer) (wshr W (2 ^ (W - 1)) common) =? 0) in
  (matches, exact, common, child).

(* ipv4/node.go:71-76 *)
Inductive cmpres := compareSame | compareContains | compareIsContained | compareDisjoint.

(* ipv4/node.go:79-99 compare: (result, reversed, common, child) *)
Definition compare (a b : prefix) : cmpres * bool * N * bool :=
  let reversed := plen b <? plen a in
  let '(aMatch, bMatch, common, child) :=
    if reversed
    then let '(m, e, common, child) := contains b a in (e, m, common, child)
    else let '(m, e, common, child) := contains a b in (m, e, common, child) in
  let result :=
    match aMatch, bMatch with
    | true, true => compareSame
    | true, false => compareContains
    | false, true => compareIsContained
    | false, false => compareDisjoint
    end in
  (result, reversed, common, child).

(* ipv4/node.go:258-263 NumNodes; 266-271 height; 560-565 active *)
Definition NumNodes (t : trie) : N := match t with Nil => 0 | Node _ _ s _ _ _ _ => s end.
Definition height (t : trie) : N := match t with Nil => 0 | Node _ _ _ h _ _ _ => h end.
Definition active (t : trie) : bool := match t with Nil => false | Node _ _ _ _ a _ _ => a end.
Definition is_nil (t : trie) : bool := match t with Nil => true | _ => false end.

(* ipv4/node.go:101-117 mutate: the recomputation of size (uint32) and h
   (uint16) after the mutator has set the other fields.
   ipv4/node.go:119-130 copyMutate: makes the same node, or returns the old one
   when the new one is == to it; as a value that is the same tree. *)
Definition mk (p : prefix) (d : option T) (a : bool) (l r : trie) : trie :=
  let sz := (NumNodes l + NumNodes r) mod 2 ^ 32 in
  Node p d (if a then (sz + 1) mod 2 ^ 32 else sz)
       ((1 + N.max (height l) (height r)) mod 2 ^ 16) a l r.

(* children[child], and assignment to it *)
Definition kid (c : bool) (l r : trie) : trie := if c then r else l.
Definition setl (c : bool) (x l : trie) : trie := if c then l else x.
Definition setr (c : bool) (x r : trie) : trie := if c then x else r.

(* ipv4/node.go:334-362 flatten: new (isActive, children) of a fresh node *)
Definition flatten (p : prefix) (a : bool) (l r : trie) : res (bool * trie * trie) :=
  if a then Ok (true, Nil, Nil)
  else
    match l, r with
    | Node pl _ _ _ al _ _, Node pr _ _ _ ar _ _ =>
      if negb (plen pl =? plen pr) then Ok (a, l, r)
      else if negb (plen pl =? plen p + 1) then Ok (a, l, r)
      else if negb al || negb ar then Ok (a, l, r)
      else Ok (true, Nil, Nil)
    | _, _ => Panic
    end.

(* mutate with a mutator that ends in "if opts.flatten { n.flatten() }" *)
Definition mk_opt (fl : bool) (p : prefix) (d : option T) (a : bool) (l r : trie) : res trie :=
  if fl then '(a', l', r') <- flatten p a l r ;; Ok (mk p d a' l' r')
  else Ok (mk p d a l r).

(* ipv4/node.go:327-330 *)
Record insertOpts := { o_insert : bool; o_update : bool; o_flatten : bool; o_eq : comparator }.

(* the distinct error texts of node.go *)
Inductive terr := ErrNoKeyToUpdate | ErrExists | ErrDeleteNil | ErrKeyNotFound.

(* ipv4/node.go:368-376: insert on a nil receiver *)
Definition insert_nil (p : prefix) (d : option T) (o : insertOpts) : trie * option terr :=
  if negb (o_insert o) then (Nil, Some ErrNoKeyToUpdate)
  else (mk p d true Nil Nil, None).

(* ipv4/node.go:452-460: the prefix of the joining node; me.addr & ^(0xff.. >> common) *)
Definition join_prefix (me : prefix) (common : N) : prefix :=
  mkPrefix (N.land (paddr me) (wnot W (wshr W (N.ones W) common))) common.

(* ipv4/node.go:367-469 insert.  The node argument is a fresh node, given by its
   Prefix and Data. *)
Fixpoint insert (me : trie) (np : prefix) (nd : option T) (o : insertOpts)
  : res (trie * option terr) :=
  match me with
  | Nil => Ok (insert_nil np nd o)
  | Node p d s h a l r =>
    let '(result, reversed, common, child) := compare p np in
    match result with
    | compareSame =>
      if a && negb (o_update o) then Ok (me, Some ErrExists)
      else if negb a && negb (o_insert o) then Ok (me, Some ErrNoKeyToUpdate)
      else if o_flatten o then Ok (me, None)
      else
        keep <- (if a then o_eq o d nd else Ok false) ;;
        Ok (mk np (if keep then d else nd) true l r, None)
    | compareContains =>
      if o_flatten o && a then Ok (me, None)
      else
        '(newChild, err) <- insert (kid child l r) np nd o ;;
        match err with
        | Some e => Ok (me, Some e)
        | None =>
          n <- mk_opt (o_flatten o) p d a (setl child newChild l) (setr child newChild r) ;;
          Ok (n, None)
        end
    | compareIsContained =>
      if negb (o_insert o) then Ok (me, Some ErrNoKeyToUpdate)
      else
        n <- mk_opt (o_flatten o) np nd true (setl child me Nil) (setr child me Nil) ;;
        Ok (n, None)
    | compareDisjoint =>
      let '(newChild, err) := insert_nil np nd o in
      match err with
      | Some e => Ok (me, Some e)
      | None =>
        let '(x, y) := if xorb child reversed then (me, newChild) else (newChild, me) in
        n <- mk_opt (o_flatten o) (join_prefix p common) None false x y ;;
        Ok (n, None)
      end
    end
  end.

(* a comparator that is a nil func value: calling it panics *)
Definition nil_eq : comparator := fun _ _ => Panic.

(* ipv4/node.go:323-325 *)
Definition Insert (me : trie) (k : prefix) (v : option T) : res (trie * option terr) :=
  insert me k v {| o_insert := true; o_update := false; o_flatten := false; o_eq := nil_eq |}.
(* ipv4/node.go:306-308 *)
Definition Update (me : trie) (k : prefix) (v : option T) (eq : comparator) : res (trie * option terr) :=
  insert me k v {| o_insert := false; o_update := true; o_flatten := false; o_eq := eq |}.
(* ipv4/node.go:312-320 *)
Definition InsertOrUpdate (me : trie) (k : prefix) (v : option T) (eq : comparator) : res trie :=
  '(n, err) <- insert me k v {| o_insert := true; o_update := true; o_flatten := false; o_eq := eq |} ;;
  match err with None => Ok n | Some _ => Panic end.

(* ipv4/node.go:162-173: the deferred function of GetOrInsert, run when result == nil *)
Definition goi_insert (me : trie) (k : prefix) (v : option T) : res (trie * option T) :=
  '(head, err) <- Insert me k v ;;
  match err with None => Ok (head, v) | Some _ => Panic end.

(* ipv4/node.go:161-199 GetOrInsert.  The returned *trieNode [result] is only
   used through its Data, so it is modelled by that Data. *)
Fixpoint GetOrInsert (me : trie) (k : prefix) (v : option T) : res (trie * option T) :=
  match me with
  | Nil => goi_insert me k v
  | Node p d s h a l r =>
    if plen k <? plen p then goi_insert me k v
    else
      let '(matches, exact, _, child) := contains p k in
      if negb matches then goi_insert me k v
      else if negb exact then
        '(newChild, result) <- GetOrInsert (kid child l r) k v ;;
        Ok (mk p d a (setl child newChild l) (setr child newChild r), result)
      else if negb a then goi_insert me k v
      else Ok (me, d)
  end.

(* ipv4/node.go:215-241 Match; the node found, as (Prefix, Data) *)
Fixpoint Match (me : trie) (k : prefix) : option (prefix * option T) :=
  match me with
  | Nil => None
  | Node p d s h a l r =>
    if plen k <? plen p then None
    else
      let '(matches, exact, _, child) := contains p k in
      if negb matches then None
      else
        match (if negb exact then Match (kid child l r) k else None) with
        | Some better => Some better
        | None => if negb a then None else Some (p, d)
        end
  end.

(* ipv4/node.go:247-255 NumAddresses.  int64 arithmetic; modelled without wrap
   (NumAddresses is proved <= 2^W, and W = 32 where this function exists). *)
Fixpoint NumAddresses (me : trie) : N :=
  match me with
  | Nil => 0
  | Node p d s h a l r =>
    if a then wnot W (prefix_mask W p) + 1 else NumAddresses l + NumAddresses r
  end.

(* ipv6/node.go:243-251 IsEmpty *)
Fixpoint IsEmpty (me : trie) : bool :=
  match me with
  | Nil => true
  | Node p d s h a l r => if a then false else IsEmpty l && IsEmpty r
  end.

(* ipv4/node.go:279-303 isValidLen; 275-277 isValid.  size-- is a uint32 decrement. *)
Fixpoint isValidLen (me : trie) (minLen : N) : bool :=
  match me with
  | Nil => true
  | Node p d s h a l r =>
    if negb a && (is_nil l || is_nil r) then false
    else
      let size := if a then wsub 32 s 1 else s in
      if negb (size =? (NumNodes l + NumNodes r) mod 2 ^ 32) then false
      else if negb (h =? (1 + (N.max (height l) (height r)) mod 2 ^ 16) mod 2 ^ 16) then false
      else if plen p <? minLen then false
      else isValidLen l (plen p + 1) && isValidLen r (plen p + 1)
  end.
Definition isValid (me : trie) : bool := isValidLen me 0.

(* ipv4/node.go:485-556 del with opts.flatten = false (Delete, 477-479); the
   flatten = true case is SetNode.remove. *)
Fixpoint del (me : trie) (k : prefix) : trie * option terr :=
  match me with
  | Nil => (Nil, Some ErrDeleteNil)
  | Node p d s h a l r =>
    let '(result, _, _, child) := compare p k in
    match result with
    | compareSame =>
      if is_nil l then (r, None)
      else if is_nil r then (l, None)
      else (mk p None false l r, None)
    | compareContains =>
      let '(newChild, err) := del (kid child l r) k in
      match err with
      | Some e => (me, Some e)
      | None =>
        if is_nil newChild && negb a then (kid (negb child) l r, None)
        else (mk p d a (setl child newChild l) (setr child newChild r), None)
      end
    | compareIsContained => (me, Some ErrKeyNotFound)
    | compareDisjoint => (me, Some ErrKeyNotFound)
    end
  end.

(* Pointer equality oracle (see the head comment). *)
Variable peq : trie -> trie -> bool.

(* ipv4/node.go:135-158 Equal *)
Fixpoint Equal (me other : trie) (eq : comparator) : res bool :=
  if peq me other then Ok true
  else
    match me, other with
    | Nil, Nil => Ok true (* nil == nil *)
    | Nil, _ => Ok false
    | _, Nil => Ok false
    | Node p d s h a l r, Node p' d' s' h' a' l' r' =>
      if negb (Bool.eqb a a') then Ok false
      else if negb (prefix_eqb p p') then Ok false
      else
        same <- (if a then eq d d' else Ok true) ;;
        if negb same then Ok false
        else
          e0 <- Equal l l' eq ;;
          if negb e0 then Ok false
          else
            e1 <- Equal r r' eq ;;
            if negb e1 then Ok false else Ok true
    end.

(* ---- Diff and Walk ---- *)

(* ipv4/node.go:592-597 trieDiffHandler.  Callbacks may have side effects, so
   they thread a state S.  A nil callback is None. *)
Record diffHandler (S : Type) := {
  Removed : option (trie -> S -> S * bool);
  Added : option (trie -> S -> S * bool);
  Modified : option (trie -> trie -> S -> S * bool);
  Same : option (trie -> S -> S * bool) }.
Arguments Removed {S} _.
Arguments Added {S} _.
Arguments Modified {S} _.
Arguments Same {S} _.

(* The handler that Diff passes to diff: three total functions (which may panic
   through eq) and the nil-ness of Same. *)
Record innerHandler (S : Type) := {
  iRemoved : trie -> S -> res (S * bool);
  iAdded : trie -> S -> res (S * bool);
  iModified : trie -> trie -> S -> res (S * bool);
  iSameNil : bool }.
Arguments iRemoved {S} _.
Arguments iAdded {S} _.
Arguments iModified {S} _.
Arguments iSameNil {S} _.

Definition prefix_of (t : trie) : prefix := match t with Nil => zero_prefix | Node p _ _ _ _ _ _ => p end.
Definition data_of (t : trie) : option T := match t with Nil => None | Node _ d _ _ _ _ _ => d end.
Definition child0 (t : trie) : trie := match t with Nil => Nil | Node _ _ _ _ _ l _ => l end.
Definition child1 (t : trie) : trie := match t with Nil => Nil | Node _ _ _ _ _ _ r => r end.

(* ipv4/node.go:599-688 diff *)
Fixpoint diff {S} (fuel : nat) (left right : trie) (H : innerHandler S) (st : S)
  : res (S * bool) :=
  match fuel with
  | O => OutOfFuel
  | Datatypes.S fuel' =>
    if peq left right && iSameNil H then Ok (st, true)
    else
      match left, right with
      | Nil, Nil => Ok (st, true)
      | _, _ =>
        let '(result, child) :=
          match left, right with
          | Node pl _ _ _ _ _ _, Node pr _ _ _ _ _ _ =>
            let '(result, _, _, child) := compare pl pr in (result, child)
          | Node _ _ _ _ _ _ _, Nil => (compareContains, false)
          | _, _ => (compareIsContained, false)
          end in
        '(st1, go) <-
          match result with
          | compareSame => iModified H left right st
          | compareContains => iRemoved H left st
          | compareIsContained => iAdded H right st
          | compareDisjoint => Ok (st, true)
          end ;;
        if negb go then Ok (st1, false)
        else
          let '(nl0, nl1, nr0, nr1) :=
            match result with
            | compareSame => (child0 left, child1 left, child0 right, child1 right)
            | compareIsContained =>
              (setl child left Nil, setr child left Nil, child0 right, child1 right)
            | compareContains =>
              (child0 left, child1 left, setl child right Nil, setr child right Nil)
            | compareDisjoint =>
              if child then (left, Nil, Nil, right) else (Nil, left, right, Nil)
            end in
          '(st2, go2) <- diff fuel' nl0 nr0 H st1 ;;
          if negb go2 then Ok (st2, false)
          else
            '(st3, go3) <- diff fuel' nl1 nr1 H st2 ;;
            if negb go3 then Ok (st3, false) else Ok (st3, true)
      end
  end.

(* ipv4/node.go:693-713: nil callbacks replaced by no-ops *)
Definition noop {S} (o : option (trie -> S -> S * bool)) : trie -> S -> S * bool :=
  match o with Some f => f | None => fun _ st => (st, true) end.
Definition noop2 {S} (o : option (trie -> trie -> S -> S * bool)) : trie -> trie -> S -> S * bool :=
  match o with Some f => f | None => fun _ _ st => (st, true) end.

(* ipv4/node.go:715-744: the wrapping handler *)
Definition wrap {S} (H : diffHandler S) (eq : comparator) : innerHandler S :=
  {| iRemoved := fun left st => if active left then Ok (noop (Removed H) left st) else Ok (st, true);
     iAdded := fun right st => if active right then Ok (noop (Added H) right st) else Ok (st, true);
     iModified := fun left right st =>
       if active left && active right then
         e <- eq (data_of left) (data_of right) ;;
         if negb e then Ok (noop2 (Modified H) left right st)
         else Ok (noop (Same H) left st)
       else if active left then Ok (noop (Removed H) left st)
       else if active right then Ok (noop (Added H) right st)
       else Ok (st, true);
     iSameNil := match Same H with None => true | Some _ => false end |}.

(* fuel sufficient for any two tries whose prefix lengths grow along every path *)
Definition fuelW : nat := 2 * N.to_nat W + 6.

(* ipv4/node.go:692-745 Diff *)
Definition Diff {S} (left right : trie) (H : diffHandler S) (eq : comparator) (st : S)
  : res (S * bool) :=
  diff fuelW left right (wrap H eq) st.

(* ipv4/node.go:574-590 Walk; a nil callback is None *)
Definition Walk {S} (me : trie) (callback : option (prefix -> option T -> S -> S * bool)) (st : S)
  : res (S * bool) :=
  let cb := match callback with Some f => f | None => fun _ _ st => (st, true) end in
  Diff Nil me
       {| Removed := None;
          Added := Some (fun n => cb (prefix_of n) (data_of n));
          Modified := None; Same := None |}
       (fun _ _ => Ok false) st.

(* ---- Aggregate ---- *)

(* ipv4/node.go:759-774 createReturnValue, with the captured variables
   isActive, data, children as arguments *)
Definition createReturnValue (me : trie) (isActive : bool) (data : option T) (l r : trie)
           (eq : comparator) : res trie :=
  match me with
  | Nil => Ok Nil
  | Node p d s h a ml mr =>
    same <- (if Bool.eqb isActive a && (peq l ml && peq r mr) then eq data d else Ok false) ;;
    if same then Ok me
    else if isActive then
      replace <- match d with
                 | None => Ok true
                 | Some _ => e <- eq d data ;; Ok (negb e)
                 end ;;
      Ok (mk p (if replace then data else d) true l r)
    else Ok (mk p None false l r)
  end.

(* ipv4/node.go:751-822 aggregate.  The umbrella pointer is an option. *)
Fixpoint aggregate (me : trie) (umbrella : option (option T)) (eq : comparator) : res trie :=
  match me with
  | Nil => Ok Nil
  | Node p d s h a l r =>
    (* 776-784 *)
    '(u, isActive, data) <-
      (if a then
         match umbrella with
         | None => Ok (Some d, true, d)
         | Some ud => e <- eq ud d ;; if negb e then Ok (Some d, true, d) else Ok (umbrella, false, None)
         end
       else Ok (umbrella, false, d)) ;;
    (* 785-788 *)
    l1 <- aggregate l u eq ;;
    r1 <- aggregate r u eq ;;
    (* 790-801 *)
    childrenAggregate <-
      (if active l1 && active r1
          && (plen (prefix_of l1) =? plen p + 1)
          && (plen (prefix_of l1) =? plen (prefix_of r1))
       then eq (data_of l1) (data_of r1) else Ok false) ;;
    (* 803-807 *)
    let '(isActive, data, l2, r2) :=
      if childrenAggregate then (true, data_of l1, Nil, Nil) else (isActive, data, l1, r1) in
    (* 809-821 *)
    if isActive then createReturnValue me isActive data l2 r2 eq
    else if is_nil l2 then Ok r2
    else if is_nil r2 then Ok l2
    else createReturnValue me isActive data l2 r2 eq
  end.

(* ipv4/node.go:824-826 *)
Definition Aggregate (me : trie) (eq : comparator) : res trie := aggregate me None eq.

(* ipv4/node.go:831-842 Map; the mapper may have side effects (state S) *)
Fixpoint Map {S} (me : trie) (mapper : prefix -> option T -> S -> S * option T)
         (eq : comparator) (st : S) : res (S * trie) :=
  match me with
  | Nil => Ok (st, Nil)
  | Node p d s h a l r =>
    let '(st1, nd) := mapper p d st in
    e <- eq d nd ;;
    '(st2, l') <- Map l mapper eq st1 ;;
    '(st3, r') <- Map r mapper eq st2 ;;
    Ok (st3, mk p (if e then d else nd) a l' r')
  end.

End Trie.
Arguments trie : clear implicits.
Arguments comparator : clear implicits.
Arguments Nil {T}.
Arguments Removed {T S} _.
Arguments Added {T S} _.
Arguments Modified {T S} _.
Arguments Same {T S} _.
Arguments iRemoved {T S} _.
Arguments iAdded {T S} _.
Arguments iModified {T S} _.
Arguments iSameNil {T S} _.
