(* Trie6.v - model of ipv6/node.go at the level of its own types: a Prefix holds
   a uint128 struct, and every address expression uses the methods of uint128.go
   (U128.v, V6.v).  Otherwise as Trie.v, which see: nil is Nil6, pointer
   comparisons are calls to an oracle [peq], Data is an [option T]. *)
From Verif Require Export V6.

(* Prefix{}: the zero value, ::/0; Go's == on the struct Prefix *)
Definition zero_prefix6 : prefix6 := mkPrefix6 (mkU 0 0) 0.
Definition prefix_eqb6 (p q : prefix6) : bool := u_eqb (paddr6 p) (paddr6 q) && (plen6 p =? plen6 q).

Section Trie6.
Context {T : Type}.

(* ipv6/node.go:7-14 *)
Inductive trie6 : Type :=
| Nil6
| Node6 (Prefix : prefix6) (Data : option T) (size h : N) (isActive : bool) (c0 c1 : trie6).

(* ipv6/node.go:254-259 NumNodes; 262-267 height; 556-561 active *)
Definition NumNodes6 (t : trie6) : N := match t with Nil6 => 0 | Node6 _ _ s _ _ _ _ => s end.
Definition height6 (t : trie6) : N := match t with Nil6 => 0 | Node6 _ _ _ h _ _ _ => h end.
Definition active6 (t : trie6) : bool := match t with Nil6 => false | Node6 _ _ _ _ a _ _ => a end.
Definition is_nil6 (t : trie6) : bool := match t with Nil6 => true | _ => false end.

(* ipv6/node.go:100-116 mutate: the recomputation of size (uint32) and h
   (uint16) after the mutator has set the other fields.
   ipv6/node.go:118-129 copyMutate: makes the same node, or returns the old one
   when the new one is == to it; as a value that is the same tree. *)
Definition mk6 (p : prefix6) (d : option T) (a : bool) (l r : trie6) : trie6 :=
  let sz := (NumNodes6 l + NumNodes6 r) mod 2 ^ 32 in
  Node6 p d (if a then (sz + 1) mod 2 ^ 32 else sz)
       ((1 + N.max (height6 l) (height6 r)) mod 2 ^ 16) a l r.

(* children[child], and assignment to it *)
Definition kid6 (c : bool) (l r : trie6) : trie6 := if c then r else l.
Definition setl6 (c : bool) (x l : trie6) : trie6 := if c then l else x.
Definition setr6 (c : bool) (x r : trie6) : trie6 := if c then x else r.

(* ipv6/node.go:330-358 flatten: new (isActive, children) of a fresh node *)
Definition flatten6 (p : prefix6) (a : bool) (l r : trie6) : res (bool * trie6 * trie6) :=
  if a then Ok (true, Nil6, Nil6)
  else
    match l, r with
    | Node6 pl _ _ _ al _ _, Node6 pr _ _ _ ar _ _ =>
      if negb (plen6 pl =? plen6 pr) then Ok (a, l, r)
      else if negb (plen6 pl =? plen6 p + 1) then Ok (a, l, r)
      else if negb al || negb ar then Ok (a, l, r)
      else Ok (true, Nil6, Nil6)
    | _, _ => Panic
    end.

(* mutate with a mutator that ends in "if opts.flatten { n.flatten() }" *)
Definition mk_opt6 (fl : bool) (p : prefix6) (d : option T) (a : bool) (l r : trie6) : res trie6 :=
  if fl then '(a', l', r') <- flatten6 p a l r ;; Ok (mk6 p d a' l' r')
  else Ok (mk6 p d a l r).

(* ipv6/node.go:364-372: insert on a nil receiver *)
Definition insert_nil6 (p : prefix6) (d : option T) (o : @insertOpts T) : trie6 * option terr :=
  if negb (o_insert o) then (Nil6, Some ErrNoKeyToUpdate)
  else (mk6 p d true Nil6 Nil6, None).

(* ipv6/node.go:363-465 insert.  The node argument is a fresh node, given by its
   Prefix and Data. *)
Fixpoint insert6 (me : trie6) (np : prefix6) (nd : option T) (o : @insertOpts T)
  : res (trie6 * option terr) :=
  match me with
  | Nil6 => Ok (insert_nil6 np nd o)
  | Node6 p d s h a l r =>
    let '(result, reversed, common, child) := compare6 p np in
    match result with
    | compareSame =>
      if a && negb (o_update o) then Ok (me, Some ErrExists)
      else if negb a && negb (o_insert o) then Ok (me, Some ErrNoKeyToUpdate)
      else if o_flatten o then Ok (me, None)
      else
        keep <- (if a then o_eq o d nd else Ok false) ;;
        Ok (mk6 np (if keep then d else nd) true l r, None)
    | compareContains =>
      if o_flatten o && a then Ok (me, None)
      else
        '(newChild, err) <- insert6 (kid6 child l r) np nd o ;;
        match err with
        | Some e => Ok (me, Some e)
        | None =>
          n <- mk_opt6 (o_flatten o) p d a (setl6 child newChild l) (setr6 child newChild r) ;;
          Ok (n, None)
        end
    | compareIsContained =>
      if negb (o_insert o) then Ok (me, Some ErrNoKeyToUpdate)
      else
        n <- mk_opt6 (o_flatten o) np nd true (setl6 child me Nil6) (setr6 child me Nil6) ;;
        Ok (n, None)
    | compareDisjoint =>
      let '(newChild, err) := insert_nil6 np nd o in
      match err with
      | Some e => Ok (me, Some e)
      | None =>
        let '(x, y) := if xorb child reversed then (me, newChild) else (newChild, me) in
        n <- mk_opt6 (o_flatten o) (join_prefix6 p common) None false x y ;;
        Ok (n, None)
      end
    end
  end.

(* ipv6/node.go:319-321 *)
Definition Insert6 (me : trie6) (k : prefix6) (v : option T) : res (trie6 * option terr) :=
  insert6 me k v {| o_insert := true; o_update := false; o_flatten := false; o_eq := nil_eq |}.
(* ipv6/node.go:302-304 *)
Definition Update6 (me : trie6) (k : prefix6) (v : option T) (eq : comparator T) : res (trie6 * option terr) :=
  insert6 me k v {| o_insert := false; o_update := true; o_flatten := false; o_eq := eq |}.
(* ipv6/node.go:308-316 *)
Definition InsertOrUpdate6 (me : trie6) (k : prefix6) (v : option T) (eq : comparator T) : res trie6 :=
  '(n, err) <- insert6 me k v {| o_insert := true; o_update := true; o_flatten := false; o_eq := eq |} ;;
  match err with None => Ok n | Some _ => Panic end.

(* ipv6/node.go:161-172: the deferred function of GetOrInsert, run when result == nil *)
Definition goi_insert6 (me : trie6) (k : prefix6) (v : option T) : res (trie6 * option T) :=
  '(head, err) <- Insert6 me k v ;;
  match err with None => Ok (head, v) | Some _ => Panic end.

(* ipv6/node.go:160-198 GetOrInsert.  The returned *trieNode [result] is only
   used through its Data, so it is modelled by that Data. *)
Fixpoint GetOrInsert6 (me : trie6) (k : prefix6) (v : option T) : res (trie6 * option T) :=
  match me with
  | Nil6 => goi_insert6 me k v
  | Node6 p d s h a l r =>
    if plen6 k <? plen6 p then goi_insert6 me k v
    else
      let '(matches, exact, _, child) := contains6 p k in
      if negb matches then goi_insert6 me k v
      else if negb exact then
        '(newChild, result) <- GetOrInsert6 (kid6 child l r) k v ;;
        Ok (mk6 p d a (setl6 child newChild l) (setr6 child newChild r), result)
      else if negb a then goi_insert6 me k v
      else Ok (me, d)
  end.

(* ipv6/node.go:214-240 Match; the node found, as (Prefix, Data) *)
Fixpoint Match6 (me : trie6) (k : prefix6) : option (prefix6 * option T) :=
  match me with
  | Nil6 => None
  | Node6 p d s h a l r =>
    if plen6 k <? plen6 p then None
    else
      let '(matches, exact, _, child) := contains6 p k in
      if negb matches then None
      else
        match (if negb exact then Match6 (kid6 child l r) k else None) with
        | Some better => Some better
        | None => if negb a then None else Some (p, d)
        end
  end.

(* ipv6/node.go:243-251 IsEmpty *)
Fixpoint IsEmpty6 (me : trie6) : bool :=
  match me with
  | Nil6 => true
  | Node6 p d s h a l r => if a then false else IsEmpty6 l && IsEmpty6 r
  end.

(* ipv6/node.go:275-299 isValidLen; 271-273 isValid.  size-- is a uint32 decrement. *)
Fixpoint isValidLen6 (me : trie6) (minLen : N) : bool :=
  match me with
  | Nil6 => true
  | Node6 p d s h a l r =>
    if negb a && (is_nil6 l || is_nil6 r) then false
    else
      let size := if a then wsub 32 s 1 else s in
      if negb (size =? (NumNodes6 l + NumNodes6 r) mod 2 ^ 32) then false
      else if negb (h =? (1 + (N.max (height6 l) (height6 r)) mod 2 ^ 16) mod 2 ^ 16) then false
      else if plen6 p <? minLen then false
      else isValidLen6 l (plen6 p + 1) && isValidLen6 r (plen6 p + 1)
  end.
Definition isValid6 (me : trie6) : bool := isValidLen6 me 0.

(* ipv6/node.go:481-552 del with opts.flatten = false (Delete, 473-475); the
   flatten = true case is SetNode.remove. *)
Fixpoint del6 (me : trie6) (k : prefix6) : trie6 * option terr :=
  match me with
  | Nil6 => (Nil6, Some ErrDeleteNil)
  | Node6 p d s h a l r =>
    let '(result, _, _, child) := compare6 p k in
    match result with
    | compareSame =>
      if is_nil6 l then (r, None)
      else if is_nil6 r then (l, None)
      else (mk6 p None false l r, None)
    | compareContains =>
      let '(newChild, err) := del6 (kid6 child l r) k in
      match err with
      | Some e => (me, Some e)
      | None =>
        if is_nil6 newChild && negb a then (kid6 (negb child) l r, None)
        else (mk6 p d a (setl6 child newChild l) (setr6 child newChild r), None)
      end
    | compareIsContained => (me, Some ErrKeyNotFound)
    | compareDisjoint => (me, Some ErrKeyNotFound)
    end
  end.

(* Pointer equality oracle (see the head comment). *)
Variable peq : trie6 -> trie6 -> bool.

(* ipv6/node.go:134-157 Equal *)
Fixpoint Equal6 (me other : trie6) (eq : comparator T) : res bool :=
  if peq me other then Ok true
  else
    match me, other with
    | Nil6, Nil6 => Ok true (* nil == nil *)
    | Nil6, _ => Ok false
    | _, Nil6 => Ok false
    | Node6 p d s h a l r, Node6 p' d' s' h' a' l' r' =>
      if negb (Bool.eqb a a') then Ok false
      else if negb (prefix_eqb6 p p') then Ok false
      else
        same <- (if a then eq d d' else Ok true) ;;
        if negb same then Ok false
        else
          e0 <- Equal6 l l' eq ;;
          if negb e0 then Ok false
          else
            e1 <- Equal6 r r' eq ;;
            if negb e1 then Ok false else Ok true
    end.

(* ---- Diff and Walk ---- *)

(* ipv6/node.go:588-593 trieDiffHandler.  Callbacks may have side effects, so
   they thread a state S.  A nil callback is None. *)
Record diffHandler6 (S : Type) := {
  Removed6 : option (trie6 -> S -> S * bool);
  Added6 : option (trie6 -> S -> S * bool);
  Modified6 : option (trie6 -> trie6 -> S -> S * bool);
  Same6 : option (trie6 -> S -> S * bool) }.
Arguments Removed6 {S} _.
Arguments Added6 {S} _.
Arguments Modified6 {S} _.
Arguments Same6 {S} _.

(* The handler that Diff passes to diff: three total functions (which may panic
   through eq) and the nil-ness of Same. *)
Record innerHandler6 (S : Type) := {
  iRemoved6 : trie6 -> S -> res (S * bool);
  iAdded6 : trie6 -> S -> res (S * bool);
  iModified6 : trie6 -> trie6 -> S -> res (S * bool);
  iSameNil6 : bool }.
Arguments iRemoved6 {S} _.
Arguments iAdded6 {S} _.
Arguments iModified6 {S} _.
Arguments iSameNil6 {S} _.

Definition prefix_of6 (t : trie6) : prefix6 := match t with Nil6 => zero_prefix6 | Node6 p _ _ _ _ _ _ => p end.
Definition data_of6 (t : trie6) : option T := match t with Nil6 => None | Node6 _ d _ _ _ _ _ => d end.
Definition child06 (t : trie6) : trie6 := match t with Nil6 => Nil6 | Node6 _ _ _ _ _ l _ => l end.
Definition child16 (t : trie6) : trie6 := match t with Nil6 => Nil6 | Node6 _ _ _ _ _ _ r => r end.

(* ipv6/node.go:595-684 diff *)
Fixpoint diff6 {S} (fuel : nat) (left right : trie6) (H : innerHandler6 S) (st : S)
  : res (S * bool) :=
  match fuel with
  | O => OutOfFuel
  | Datatypes.S fuel' =>
    if peq left right && iSameNil6 H then Ok (st, true)
    else
      match left, right with
      | Nil6, Nil6 => Ok (st, true)
      | _, _ =>
        let '(result, child) :=
          match left, right with
          | Node6 pl _ _ _ _ _ _, Node6 pr _ _ _ _ _ _ =>
            let '(result, _, _, child) := compare6 pl pr in (result, child)
          | Node6 _ _ _ _ _ _ _, Nil6 => (compareContains, false)
          | _, _ => (compareIsContained, false)
          end in
        '(st1, go) <-
          match result with
          | compareSame => iModified6 H left right st
          | compareContains => iRemoved6 H left st
          | compareIsContained => iAdded6 H right st
          | compareDisjoint => Ok (st, true)
          end ;;
        if negb go then Ok (st1, false)
        else
          let '(nl0, nl1, nr0, nr1) :=
            match result with
            | compareSame => (child06 left, child16 left, child06 right, child16 right)
            | compareIsContained =>
              (setl6 child left Nil6, setr6 child left Nil6, child06 right, child16 right)
            | compareContains =>
              (child06 left, child16 left, setl6 child right Nil6, setr6 child right Nil6)
            | compareDisjoint =>
              if child then (left, Nil6, Nil6, right) else (Nil6, left, right, Nil6)
            end in
          '(st2, go2) <- diff6 fuel' nl0 nr0 H st1 ;;
          if negb go2 then Ok (st2, false)
          else
            '(st3, go3) <- diff6 fuel' nl1 nr1 H st2 ;;
            if negb go3 then Ok (st3, false) else Ok (st3, true)
      end
  end.

(* ipv6/node.go:689-709: nil callbacks replaced by no-ops *)
Definition noop6 {S} (o : option (trie6 -> S -> S * bool)) : trie6 -> S -> S * bool :=
  match o with Some f => f | None => fun _ st => (st, true) end.
Definition noop26 {S} (o : option (trie6 -> trie6 -> S -> S * bool)) : trie6 -> trie6 -> S -> S * bool :=
  match o with Some f => f | None => fun _ _ st => (st, true) end.

(* ipv6/node.go:711-740: the wrapping handler *)
Definition wrap6 {S} (H : diffHandler6 S) (eq : comparator T) : innerHandler6 S :=
  {| iRemoved6 := fun left st => if active6 left then Ok (noop6 (Removed6 H) left st) else Ok (st, true);
     iAdded6 := fun right st => if active6 right then Ok (noop6 (Added6 H) right st) else Ok (st, true);
     iModified6 := fun left right st =>
       if active6 left && active6 right then
         e <- eq (data_of6 left) (data_of6 right) ;;
         if negb e then Ok (noop26 (Modified6 H) left right st)
         else Ok (noop6 (Same6 H) left st)
       else if active6 left then Ok (noop6 (Removed6 H) left st)
       else if active6 right then Ok (noop6 (Added6 H) right st)
       else Ok (st, true);
     iSameNil6 := match Same6 H with None => true | Some _ => false end |}.

(* ipv6/node.go:688-741 Diff *)
Definition Diff6 {S} (left right : trie6) (H : diffHandler6 S) (eq : comparator T) (st : S)
  : res (S * bool) :=
  diff6 (fuelW 128) left right (wrap6 H eq) st.

(* ipv6/node.go:570-586 Walk; a nil callback is None *)
Definition Walk6 {S} (me : trie6) (callback : option (prefix6 -> option T -> S -> S * bool)) (st : S)
  : res (S * bool) :=
  let cb := match callback with Some f => f | None => fun _ _ st => (st, true) end in
  Diff6 Nil6 me
       {| Removed6 := None;
          Added6 := Some (fun n => cb (prefix_of6 n) (data_of6 n));
          Modified6 := None; Same6 := None |}
       (fun _ _ => Ok false) st.

(* ---- Aggregate ---- *)

(* ipv6/node.go:755-770 createReturnValue, with the captured variables
   isActive, data, children as arguments *)
Definition createReturnValue6 (me : trie6) (isActive : bool) (data : option T) (l r : trie6)
           (eq : comparator T) : res trie6 :=
  match me with
  | Nil6 => Ok Nil6
  | Node6 p d s h a ml mr =>
    same <- (if Bool.eqb isActive a && (peq l ml && peq r mr) then eq data d else Ok false) ;;
    if same then Ok me
    else if isActive then
      replace <- match d with
                 | None => Ok true
                 | Some _ => e <- eq d data ;; Ok (negb e)
                 end ;;
      Ok (mk6 p (if replace then data else d) true l r)
    else Ok (mk6 p None false l r)
  end.

(* ipv6/node.go:747-818 aggregate.  The umbrella pointer is an option. *)
Fixpoint aggregate6 (me : trie6) (umbrella : option (option T)) (eq : comparator T) : res trie6 :=
  match me with
  | Nil6 => Ok Nil6
  | Node6 p d s h a l r =>
    (* 772-780 *)
    '(u, isActive, data) <-
      (if a then
         match umbrella with
         | None => Ok (Some d, true, d)
         | Some ud => e <- eq ud d ;; if negb e then Ok (Some d, true, d) else Ok (umbrella, false, None)
         end
       else Ok (umbrella, false, d)) ;;
    (* 781-784 *)
    l1 <- aggregate6 l u eq ;;
    r1 <- aggregate6 r u eq ;;
    (* 786-797 *)
    childrenAggregate <-
      (if active6 l1 && active6 r1
          && (plen6 (prefix_of6 l1) =? plen6 p + 1)
          && (plen6 (prefix_of6 l1) =? plen6 (prefix_of6 r1))
       then eq (data_of6 l1) (data_of6 r1) else Ok false) ;;
    (* 799-803 *)
    let '(isActive, data, l2, r2) :=
      if childrenAggregate then (true, data_of6 l1, Nil6, Nil6) else (isActive, data, l1, r1) in
    (* 805-817 *)
    if isActive then createReturnValue6 me isActive data l2 r2 eq
    else if is_nil6 l2 then Ok r2
    else if is_nil6 r2 then Ok l2
    else createReturnValue6 me isActive data l2 r2 eq
  end.

(* ipv6/node.go:820-822 *)
Definition Aggregate6 (me : trie6) (eq : comparator T) : res trie6 := aggregate6 me None eq.

(* ipv6/node.go:827-838 Map; the mapper may have side effects (state S) *)
Fixpoint Map6 {S} (me : trie6) (mapper : prefix6 -> option T -> S -> S * option T)
         (eq : comparator T) (st : S) : res (S * trie6) :=
  match me with
  | Nil6 => Ok (st, Nil6)
  | Node6 p d s h a l r =>
    let '(st1, nd) := mapper p d st in
    e <- eq d nd ;;
    '(st2, l') <- Map6 l mapper eq st1 ;;
    '(st3, r') <- Map6 r mapper eq st2 ;;
    Ok (st3, mk6 p (if e then d else nd) a l' r')
  end.

End Trie6.
Arguments trie6 : clear implicits.
Arguments Nil6 {T}.
Arguments Removed6 {T S} _.
Arguments Added6 {T S} _.
Arguments Modified6 {T S} _.
Arguments Same6 {T S} _.
Arguments iRemoved6 {T S} _.
Arguments iAdded6 {T S} _.
Arguments iModified6 {T S} _.
Arguments iSameNil6 {T S} _.
