(* Heap.v - pointer-level model of ipv4/node.go and ipv4/setnode.go (ipv6 at
   W = 128).  Here a *trieNode is a heap address (or nil), nodes are allocated,
   loaded and stored one by one, and pointer comparisons compare addresses.
   The functions are written as programs over these three instructions, so that
   one definition can be run alone (run, below) or interleaved with other
   threads instruction by instruction (Conc.v).

   The recursion of the Go code follows pointers, so it needs fuel here; running
   out of it is the outcome OutOfFuel, excluded by the theorems of HeapProof.v. *)
From Verif Require Export SetNode.

Section Heap.
Variable W : N.
Context {T : Type}.

(* a *trieNode: nil or an address *)
Definition ptr := option nat.
(* ipv4/node.go:8-15 *)
Record hnode := mkH {
  hPrefix : prefix; hData : option T; hsize : N; hh : N; hactive : bool; hc0 : ptr; hc1 : ptr }.
(* address i holds the i-th node; allocation appends *)
Definition heap := list hnode.

(* programs: Alloc n is &trieNode{...}; Load l reads the node at l; Store l n
   overwrites it.  Storing one field of a node that only this thread can reach
   is modelled as loading and storing the whole node. *)
Inductive prog (A : Type) : Type :=
| Done (r : res A)
| Alloc (n : hnode) (k : nat -> prog A)
| Load (l : nat) (k : hnode -> prog A)
| Store (l : nat) (n : hnode) (k : prog A).
Arguments Done {A}. Arguments Alloc {A}. Arguments Load {A}. Arguments Store {A}.

Fixpoint pbind {A B} (m : prog A) (f : A -> prog B) : prog B :=
  match m with
  | Done (Ok a) => f a
  | Done Panic => Done Panic
  | Done OutOfFuel => Done OutOfFuel
  | Alloc n k => Alloc n (fun l => pbind (k l) f)
  | Load l k => Load l (fun n => pbind (k n) f)
  | Store l n k => Store l n (pbind k f)
  end.
Definition ret {A} (a : A) : prog A := Done (Ok a).
Definition lift {A} (r : res A) : prog A := Done r.
Definition alloc (n : hnode) : prog nat := Alloc n (fun l => ret l).
(* dereferencing: nil panics *)
Definition load (p : ptr) : prog hnode :=
  match p with None => Done Panic | Some l => Load l (fun n => ret n) end.
Definition store (l : nat) (n : hnode) : prog unit := Store l n (ret tt).

(* running a program alone *)
Fixpoint upd (h : heap) (l : nat) (n : hnode) : heap :=
  match h, l with
  | [], _ => []
  | _ :: h', O => n :: h'
  | x :: h', S l' => x :: upd h' l' n
  end.
Fixpoint run {A} (m : prog A) (h : heap) : heap * res A :=
  match m with
  | Done r => (h, r)
  | Alloc n k => run (k (length h)) (h ++ [n])
  | Load l k => match nth_error h l with Some n => run (k n) h | None => (h, Panic) end
  | Store l n k => run k (upd h l n)
  end.
End Heap.
Arguments hnode : clear implicits.
Arguments heap : clear implicits.
Arguments prog : clear implicits.
Arguments Done {T A}. Arguments Alloc {T A}. Arguments Load {T A}. Arguments Store {T A}.

Declare Scope prog_scope.
Delimit Scope prog_scope with prog.
Notation "x <- m ;; k" := (pbind m (fun x => k))
  (at level 61, m at next level, right associativity) : prog_scope.
Notation "' p <- m ;; k" := (pbind m (fun p => k))
  (at level 61, p pattern, m at next level, right associativity) : prog_scope.
Notation "m ;;; k" := (pbind m (fun _ : unit => k))
  (at level 61, right associativity) : prog_scope.

Section Ops.
Variable W : N.
Context {T : Type}.
(* Go's == on two interface{} values: may panic on uncomparable dynamic types *)
Variable ieq : option T -> option T -> res bool.
Local Open Scope prog_scope.
Notation node := (hnode T).
Notation M := (prog T).

(* pointer comparison p == q *)
Definition ptr_eqb (p q : ptr) : bool :=
  match p, q with
  | None, None => true
  | Some a, Some b => Nat.eqb a b
  | _, _ => false
  end.
Definition nilp (p : ptr) : bool := match p with None => true | Some _ => false end.

(* field updates of a node *)
Definition w_active (b : bool) (n : node) : node := mkH (hPrefix n) (hData n) (hsize n) (hh n) b (hc0 n) (hc1 n).
Definition w_data (d : option T) (n : node) : node := mkH (hPrefix n) d (hsize n) (hh n) (hactive n) (hc0 n) (hc1 n).
Definition w_kids (l r : ptr) (n : node) : node := mkH (hPrefix n) (hData n) (hsize n) (hh n) (hactive n) l r.
Definition w_sizes (s h : N) (n : node) : node := mkH (hPrefix n) (hData n) s h (hactive n) (hc0 n) (hc1 n).
(* n.children[child], n.children[child] = x *)
Definition kidp (c : bool) (n : node) : ptr := if c then hc1 n else hc0 n.
Definition w_kid (c : bool) (x : ptr) (n : node) : node :=
  if c then w_kids (hc0 n) x n else w_kids x (hc1 n) n.
(* *l = f( *l ) *)
Definition modify (l : nat) (f : node -> node) : M unit := n <- load (Some l) ;; store l (f n).

(* &trieNode{Prefix: p, Data: d}; &trieNode{Prefix: p, children: {l, r}} *)
Definition fresh (p : prefix) (d : option T) : node := mkH p d 0 0 false None None.
Definition fresh_kids (p : prefix) (l r : ptr) : node := mkH p None 0 0 false l r.

(* ipv4/node.go:258-263 NumNodes, 266-271 height, 560-565 active *)
Definition h_NumNodes (p : ptr) : M N :=
  match p with None => ret 0 | Some _ => n <- load p ;; ret (hsize n) end.
Definition h_height (p : ptr) : M N :=
  match p with None => ret 0 | Some _ => n <- load p ;; ret (hh n) end.
Definition h_active (p : ptr) : M bool :=
  match p with None => ret false | Some _ => n <- load p ;; ret (hactive n) end.

(* ipv4/node.go:101-117 mutate.  The stores to size and h (and size++) are one
   store; the node is not yet reachable by anyone else. *)
Definition h_mutate (me : ptr) (mutator : nat -> M unit) : M ptr :=
  match me with
  | None => ret None
  | Some l =>
    mutator l ;;;
    n <- load me ;;
    s0 <- h_NumNodes (hc0 n) ;; s1 <- h_NumNodes (hc1 n) ;;
    h0 <- h_height (hc0 n) ;; h1 <- h_height (hc1 n) ;;
    let sz := (s0 + s1) mod 2 ^ 32 in
    store l (w_sizes (if hactive n then (sz + 1) mod 2 ^ 32 else sz) ((1 + N.max h0 h1) mod 2 ^ 16) n) ;;;
    ret me
  end.

(* *mutated == *me: field by field in source order, stopping at the first
   difference (Go specification, comparison of struct values) *)
Definition node_eq (a b : node) : res bool :=
  if negb (prefix_eqb (hPrefix a) (hPrefix b)) then Ok false
  else
    bind (ieq (hData a) (hData b)) (fun e =>
    if negb e then Ok false
    else Ok ((hsize a =? hsize b) && (hh a =? hh b) && Bool.eqb (hactive a) (hactive b)
             && ptr_eqb (hc0 a) (hc0 b) && ptr_eqb (hc1 a) (hc1 b))).

(* ipv4/node.go:119-130 copyMutate *)
Definition h_copyMutate (me : ptr) (mutator : nat -> M unit) : M ptr :=
  match me with
  | None => ret None
  | Some _ =>
    n <- load me ;;
    doppelganger <- alloc n ;;
    mutated <- h_mutate (Some doppelganger) mutator ;;
    a <- load mutated ;;
    b <- load me ;;
    e <- lift (node_eq a b) ;;
    if e then ret me else ret mutated
  end.

(* ipv4/node.go:334-362 flatten, on the node at l *)
Definition h_flatten (l : nat) : M unit :=
  n <- load (Some l) ;;
  if hactive n then store l (w_kids None None n)
  else if nilp (hc0 n) || nilp (hc1 n) then lift Panic
  else
    lft <- load (hc0 n) ;; rgt <- load (hc1 n) ;;
    if negb (plen (hPrefix lft) =? plen (hPrefix rgt)) then ret tt
    else if negb (plen (hPrefix lft) =? plen (hPrefix n) + 1) then ret tt
    else if negb (hactive lft) || negb (hactive rgt) then ret tt
    else store l (w_active true (w_kids None None n)).

(* ipv4/node.go:367-376: insert on a nil receiver *)
Definition h_insert_nil (node : nat) (o : @insertOpts T) : M (ptr * option terr) :=
  if negb (o_insert o) then ret (None, Some ErrNoKeyToUpdate)
  else
    n <- h_mutate (Some node) (fun n => modify n (w_active true)) ;;
    ret (n, None).

(* ipv4/node.go:367-469 insert; [node] is the address of the new node *)
Fixpoint h_insert (fuel : nat) (me : ptr) (node : nat) (o : @insertOpts T) : M (ptr * option terr) :=
  match fuel with
  | O => lift OutOfFuel
  | S fuel' =>
    match me with
    | None => h_insert_nil node o
    | Some _ =>
      m <- load me ;;
      nn <- load (Some node) ;;
      let '(result, reversed, common, child) := compare W (hPrefix m) (hPrefix nn) in
      match result with
      | compareSame =>
        if hactive m && negb (o_update o) then ret (me, Some ErrExists)
        else if negb (hactive m) && negb (o_insert o) then ret (me, Some ErrNoKeyToUpdate)
        else if o_flatten o then ret (me, None)
        else
          r <- h_mutate (Some node) (fun n =>
                 keep <- (if hactive m
                          then x <- load (Some node) ;; lift (o_eq o (hData m) (hData x))
                          else ret false) ;;
                 (if keep then modify node (w_data (hData m)) else ret tt) ;;;
                 modify n (w_kids (hc0 m) (hc1 m)) ;;;
                 modify n (w_active true) ;;;
                 (if o_flatten o then h_flatten n else ret tt)) ;;
          ret (r, None)
      | compareContains =>
        if o_flatten o && hactive m then ret (me, None)
        else
          '(newChild, err) <- h_insert fuel' (kidp child m) node o ;;
          match err with
          | Some e => ret (me, Some e)
          | None =>
            newNode <- h_copyMutate me (fun n =>
                         modify n (w_kid child newChild) ;;;
                         (if o_flatten o then h_flatten n else ret tt)) ;;
            ret (newNode, None)
          end
      | compareIsContained =>
        if negb (o_insert o) then ret (me, Some ErrNoKeyToUpdate)
        else
          r <- h_mutate (Some node) (fun n =>
                 modify n (w_kid child me) ;;;
                 modify n (w_active true) ;;;
                 (if o_flatten o then h_flatten n else ret tt)) ;;
          ret (r, None)
      | compareDisjoint =>
        '(newChild, err) <- h_insert_nil node o ;;
        match err with
        | Some e => ret (me, Some e)
        | None =>
          let '(x, y) := if xorb child reversed then (me, newChild) else (newChild, me) in
          newNode <- alloc (fresh_kids (join_prefix W (hPrefix m) common) x y) ;;
          _ <- h_mutate (Some newNode) (fun n => if o_flatten o then h_flatten n else ret tt) ;;
          ret (Some newNode, None)
        end
      end
    end
  end.

(* fuel for the recursion along one path of a trie: at most W + 1 nodes *)
Definition pathW : nat := S (S (N.to_nat W)).

(* ipv4/node.go:323-325 Insert, 306-308 Update, 312-320 InsertOrUpdate *)
Definition h_Insert (me : ptr) (k : prefix) (v : option T) : M (ptr * option terr) :=
  node <- alloc (fresh k v) ;;
  h_insert pathW me node {| o_insert := true; o_update := false; o_flatten := false; o_eq := nil_eq |}.
Definition h_Update (me : ptr) (k : prefix) (v : option T) (eq : comparator T) : M (ptr * option terr) :=
  node <- alloc (fresh k v) ;;
  h_insert pathW me node {| o_insert := false; o_update := true; o_flatten := false; o_eq := eq |}.
Definition h_InsertOrUpdate (me : ptr) (k : prefix) (v : option T) (eq : comparator T) : M ptr :=
  node <- alloc (fresh k v) ;;
  '(n, err) <- h_insert pathW me node {| o_insert := true; o_update := true; o_flatten := false; o_eq := eq |} ;;
  match err with None => ret n | Some _ => lift Panic end.

(* ipv4/node.go:162-173: the deferred function of GetOrInsert *)
Definition h_goi_insert (me : ptr) (k : prefix) (v : option T) : M (ptr * ptr) :=
  result <- alloc (fresh k v) ;;
  '(head, err) <- h_insert pathW me result {| o_insert := true; o_update := false; o_flatten := false; o_eq := nil_eq |} ;;
  match err with None => ret (head, Some result) | Some _ => lift Panic end.
(* ipv4/node.go:161-199 GetOrInsert *)
Fixpoint h_GetOrInsert (fuel : nat) (me : ptr) (k : prefix) (v : option T) : M (ptr * ptr) :=
  match fuel with
  | O => lift OutOfFuel
  | S fuel' =>
    match me with
    | None => h_goi_insert me k v
    | Some _ =>
      m <- load me ;;
      if plen k <? plen (hPrefix m) then h_goi_insert me k v
      else
        let '(matches, exact, _, child) := contains W (hPrefix m) k in
        if negb matches then h_goi_insert me k v
        else if negb exact then
          '(newChild, result) <- h_GetOrInsert fuel' (kidp child m) k v ;;
          head <- h_copyMutate me (fun n => modify n (w_kid child newChild)) ;;
          ret (head, result)
        else if negb (hactive m) then h_goi_insert me k v
        else ret (me, me)
    end
  end.

(* ipv4/node.go:215-241 Match *)
Fixpoint h_Match (fuel : nat) (me : ptr) (k : prefix) : M ptr :=
  match fuel with
  | O => lift OutOfFuel
  | S fuel' =>
    match me with
    | None => ret None
    | Some _ =>
      m <- load me ;;
      if plen k <? plen (hPrefix m) then ret None
      else
        let '(matches, exact, _, child) := contains W (hPrefix m) k in
        if negb matches then ret None
        else
          better <- (if negb exact then h_Match fuel' (kidp child m) k else ret None) ;;
          if negb (nilp better) then ret better
          else if negb (hactive m) then ret None
          else ret me
    end
  end.

(* ipv4/node.go:485-556 del with opts.flatten = false (Delete, 477-479) *)
Fixpoint h_del (fuel : nat) (me : ptr) (k : prefix) : M (ptr * option terr) :=
  match fuel with
  | O => lift OutOfFuel
  | S fuel' =>
    match me with
    | None => ret (me, Some ErrDeleteNil)
    | Some _ =>
      m <- load me ;;
      let '(result, _, _, child) := compare W (hPrefix m) k in
      match result with
      | compareSame =>
        if nilp (hc0 m) then ret (hc1 m, None)
        else if nilp (hc1 m) then ret (hc0 m, None)
        else
          newNode <- h_copyMutate me (fun n => modify n (w_active false) ;;; modify n (w_data None)) ;;
          ret (newNode, None)
      | compareContains =>
        '(newChild, err) <- h_del fuel' (kidp child m) k ;;
        match err with
        | Some e => ret (me, Some e)
        | None =>
          if nilp newChild && negb (hactive m) then ret (kidp (negb child) m, None)
          else
            newNode <- h_copyMutate me (fun n => modify n (w_kid child newChild)) ;;
            ret (newNode, None)
        end
      | compareIsContained => ret (me, Some ErrKeyNotFound)
      | compareDisjoint => ret (me, Some ErrKeyNotFound)
      end
    end
  end.

(* ipv4/node.go:759-774 createReturnValue *)
Definition h_createReturnValue (me : ptr) (isActive : bool) (data : option T) (l r : ptr)
           (eq : comparator T) : M ptr :=
  m <- load me ;;
  same <- (if Bool.eqb isActive (hactive m) && (ptr_eqb l (hc0 m) && ptr_eqb r (hc1 m))
           then lift (eq data (hData m)) else ret false) ;;
  if same then ret me
  else
    h_copyMutate me (fun n =>
      modify n (w_active isActive) ;;;
      (if isActive then
         x <- load (Some n) ;;
         replace <- match hData x with
                    | None => ret true
                    | Some _ => e <- lift (eq (hData x) data) ;; ret (negb e)
                    end ;;
         (if replace then modify n (w_data data) else ret tt)
       else modify n (w_data None)) ;;;
      modify n (w_kids l r)).

(* ipv4/node.go:751-822 aggregate.  The *umbrella is an option; it is never
   compared or changed. *)
Fixpoint h_aggregate (fuel : nat) (me : ptr) (umbrella : option (option T)) (eq : comparator T) : M ptr :=
  match fuel with
  | O => lift OutOfFuel
  | S fuel' =>
    match me with
    | None => ret None
    | Some _ =>
      m <- load me ;;
      '(u, isActive, data) <-
        (if hactive m then
           match umbrella with
           | None => ret (Some (hData m), true, hData m)
           | Some ud => e <- lift (eq ud (hData m)) ;;
                        if negb e then ret (Some (hData m), true, hData m) else ret (umbrella, false, None)
           end
         else ret (umbrella, false, hData m)) ;;
      l1 <- h_aggregate fuel' (hc0 m) u eq ;;
      r1 <- h_aggregate fuel' (hc1 m) u eq ;;
      al <- h_active l1 ;; ar <- h_active r1 ;;
      childrenAggregate <-
        (if al && ar then
           a <- load l1 ;; b <- load r1 ;;
           if (plen (hPrefix a) =? plen (hPrefix m) + 1) && (plen (hPrefix a) =? plen (hPrefix b))
           then lift (eq (hData a) (hData b)) else ret false
         else ret false) ;;
      '(isActive, data, l2, r2) <-
        (if childrenAggregate : bool
         then a <- load l1 ;; ret (true, hData a, None, None)
         else ret (isActive, data, l1, r1)) ;;
      if isActive : bool then h_createReturnValue me isActive data l2 r2 eq
      else if nilp l2 then ret r2
      else if nilp r2 then ret l2
      else h_createReturnValue me isActive data l2 r2 eq
    end
  end.
Definition h_Aggregate (me : ptr) (eq : comparator T) : M ptr := h_aggregate pathW me None eq.

(* ipv4/node.go:831-842 Map.  The mapper's side effects are a state S of its own:
   a mapper that uses the library is modelled in HeapCb.v. *)
Fixpoint h_Map {S} (fuel : nat) (me : ptr) (mapper : prefix -> option T -> S -> S * option T)
         (eq : comparator T) (st : S) : M (S * ptr) :=
  match fuel with
  | O => lift OutOfFuel
  | Datatypes.S fuel' =>
    match me with
    | None => ret (st, None)
    | Some _ =>
      m <- load me ;;
      doppelganger <- alloc m ;;
      (* the mutator of copyMutate; it also yields the mapper's state *)
      let '(st1, nd) := mapper (hPrefix m) (hData m) st in
      modify doppelganger (w_data nd) ;;;
      e <- lift (eq (hData m) nd) ;;
      (if e then modify doppelganger (w_data (hData m)) else ret tt) ;;;
      '(st2, l') <- h_Map fuel' (hc0 m) mapper eq st1 ;;
      '(st3, r') <- h_Map fuel' (hc1 m) mapper eq st2 ;;
      mutated <- h_mutate (Some doppelganger) (fun n => modify n (w_kids l' r')) ;;
      a <- load mutated ;;
      b <- load me ;;
      e' <- lift (node_eq a b) ;;
      if e' then ret (st3, me) else ret (st3, mutated)
    end
  end.

(* ipv4/node.go:135-158 Equal *)
Fixpoint h_Equal (fuel : nat) (me other : ptr) (eq : comparator T) : M bool :=
  match fuel with
  | O => lift OutOfFuel
  | S fuel' =>
    if ptr_eqb me other then ret true
    else if nilp me then ret false
    else if nilp other then ret false
    else
      m <- load me ;; o <- load other ;;
      if negb (Bool.eqb (hactive m) (hactive o)) then ret false
      else if negb (prefix_eqb (hPrefix m) (hPrefix o)) then ret false
      else
        same <- (if hactive m then lift (eq (hData m) (hData o)) else ret true) ;;
        if negb same then ret false
        else
          e0 <- h_Equal fuel' (hc0 m) (hc0 o) eq ;;
          if negb e0 then ret false
          else
            e1 <- h_Equal fuel' (hc1 m) (hc1 o) eq ;;
            if negb e1 then ret false else ret true
  end.

(* ipv4/node.go:599-688 diff with the handler that Diff (692-745) builds.  The
   callbacks get the Prefix and Data of the nodes, as all handlers of the package
   only use those.  [same] is None when handler.Same is nil. *)
Record hHandler (S : Type) := {
  hRemoved : prefix -> option T -> S -> S * bool;
  hAdded : prefix -> option T -> S -> S * bool;
  hModified : prefix -> option T -> option T -> S -> S * bool;
  hSame : option (prefix -> option T -> S -> S * bool) }.
Arguments hRemoved {S}. Arguments hAdded {S}. Arguments hModified {S}. Arguments hSame {S}.

Definition hi_Removed {S} (H : hHandler S) (n : node) (st : S) : M (S * bool) :=
  if hactive n then ret (hRemoved H (hPrefix n) (hData n) st) else ret (st, true).
Definition hi_Added {S} (H : hHandler S) (n : node) (st : S) : M (S * bool) :=
  if hactive n then ret (hAdded H (hPrefix n) (hData n) st) else ret (st, true).
Definition hi_Modified {S} (H : hHandler S) (eq : comparator T) (l r : node) (st : S) : M (S * bool) :=
  if hactive l && hactive r then
    e <- lift (eq (hData l) (hData r)) ;;
    if negb e then ret (hModified H (hPrefix l) (hData l) (hData r) st)
    else match hSame H with
         | Some f => ret (f (hPrefix l) (hData l) st)
         | None => ret (st, true)
         end
  else if hactive l then ret (hRemoved H (hPrefix l) (hData l) st)
  else if hactive r then ret (hAdded H (hPrefix r) (hData r) st)
  else ret (st, true).

Fixpoint h_diff {S} (fuel : nat) (left right : ptr) (H : hHandler S) (eq : comparator T) (st : S) : M (S * bool) :=
  match fuel with
  | O => lift OutOfFuel
  | Datatypes.S fuel' =>
    if ptr_eqb left right && match hSame H with None => true | Some _ => false end then ret (st, true)
    else
      match left, right with
      | None, None => ret (st, true)
      | Some _, None =>
        l <- load left ;;
        '(st1, go) <- hi_Removed H l st ;;
        if negb go then ret (st1, false)
        else
          '(st2, go2) <- h_diff fuel' (hc0 l) None H eq st1 ;;
          if negb go2 then ret (st2, false)
          else
            '(st3, go3) <- h_diff fuel' (hc1 l) None H eq st2 ;;
            if negb go3 then ret (st3, false) else ret (st3, true)
      | None, Some _ =>
        r <- load right ;;
        '(st1, go) <- hi_Added H r st ;;
        if negb go then ret (st1, false)
        else
          '(st2, go2) <- h_diff fuel' None (hc0 r) H eq st1 ;;
          if negb go2 then ret (st2, false)
          else
            '(st3, go3) <- h_diff fuel' None (hc1 r) H eq st2 ;;
            if negb go3 then ret (st3, false) else ret (st3, true)
      | Some _, Some _ =>
        l <- load left ;; r <- load right ;;
        let '(result, _, _, child) := compare W (hPrefix l) (hPrefix r) in
        '(st1, go) <-
          match result with
          | compareSame => hi_Modified H eq l r st
          | compareContains => hi_Removed H l st
          | compareIsContained => hi_Added H r st
          | compareDisjoint => ret (st, true)
          end ;;
        if negb go then ret (st1, false)
        else
          let '(nl0, nl1, nr0, nr1) :=
            match result with
            | compareSame => (hc0 l, hc1 l, hc0 r, hc1 r)
            | compareIsContained =>
              if child then (None, left, hc0 r, hc1 r) else (left, None, hc0 r, hc1 r)
            | compareContains =>
              if child then (hc0 l, hc1 l, None, right) else (hc0 l, hc1 l, right, None)
            | compareDisjoint =>
              if child then (left, None, None, right) else (None, left, right, None)
            end in
          '(st2, go2) <- h_diff fuel' nl0 nr0 H eq st1 ;;
          if negb go2 then ret (st2, false)
          else
            '(st3, go3) <- h_diff fuel' nl1 nr1 H eq st2 ;;
            if negb go3 then ret (st3, false) else ret (st3, true)
      end
  end.
(* ipv4/node.go:692-745 Diff, 574-590 Walk *)
Definition h_Diff {S} (left right : ptr) (H : hHandler S) (eq : comparator T) (st : S) : M (S * bool) :=
  h_diff (fuelW W) left right H eq st.
Definition h_Walk {S} (me : ptr) (cb : prefix -> option T -> S -> S * bool) (st : S) : M (S * bool) :=
  h_Diff None me {| hRemoved := fun _ _ s => (s, true); hAdded := cb;
                    hModified := fun _ _ _ s => (s, true); hSame := None |} (fun _ _ => Ok false) st.
End Ops.
Arguments hRemoved {T S}. Arguments hAdded {T S}. Arguments hModified {T S}. Arguments hSame {T S}.

(* ---- setnode.go ---- *)
Section SetOps.
Variable W : N.
Local Open Scope prog_scope.
Notation M := (prog unit).

(* ipv4/setnode.go:15-22 setNodeFromPrefix *)
Definition h_setNodeFromPrefix (p : prefix) : M ptr :=
  l <- alloc (mkH p None 1 1 true None None) ;; ret (Some l).

(* ipv4/setnode.go:114-128, 146-160, 171-185: newHead and its mutate *)
Definition h_newHead (p : prefix) (l r : ptr) : M ptr :=
  n <- alloc (fresh_kids p l r) ;;
  h_mutate (Some n) (fun n => h_flatten n).

(* ipv4/setnode.go:89-187 Union *)
Fixpoint h_union (fuel : nat) (me other : ptr) : M ptr :=
  match fuel with
  | O => lift OutOfFuel
  | S fuel' =>
    if ptr_eqb me other then ret me
    else if nilp other then ret me
    else if nilp me then ret other
    else
      m <- load me ;; o <- load other ;;
      let '(result, reversed, common, child) := compare W (hPrefix m) (hPrefix o) in
      match result with
      | compareSame =>
        if hactive m then ret me
        else if hactive o then ret other
        else
          lft <- h_union fuel' (hc0 m) (hc0 o) ;;
          rgt <- h_union fuel' (hc1 m) (hc1 o) ;;
          if ptr_eqb lft (hc0 m) && ptr_eqb rgt (hc1 m) then ret me
          else h_newHead (mkPrefix (paddr (hPrefix m)) (plen (hPrefix m))) lft rgt
      | compareContains | compareIsContained =>
        let '(super, sub) := if reversed then (other, me) else (me, other) in
        s <- load super ;;
        if hactive s then ret super
        else
          '(lft, rgt) <-
            (if child
             then (x <- h_union fuel' (hc1 s) sub ;; ret (hc0 s, x))
             else (x <- h_union fuel' (hc0 s) sub ;; ret (x, hc1 s))) ;;
          h_newHead (mkPrefix (paddr (hPrefix s)) (plen (hPrefix s))) lft rgt
      | compareDisjoint =>
        let '(lft, rgt) := if xorb child reversed then (me, other) else (other, me) in
        h_newHead (join_prefix W (hPrefix m) common) lft rgt
      end
  end.
Definition h_Union (me other : ptr) : M ptr := h_union (fuelW W) me other.

(* ipv4/setnode.go:24-47 setNodeFromRange *)
Fixpoint h_from_range (fuel : nat) (r : range) : M ptr :=
  match fuel with
  | O => lift OutOfFuel
  | S fuel' =>
    let xor := N.lxor (rfirst r) (rlast r) in
    let numCommonBits := clz W xor in
    if numCommonBits =? popcount (wnot W xor)
    then h_setNodeFromPrefix (mkPrefix (rfirst r) numCommonBits)
    else
      let pivot0 := N.land (rfirst r) (wshl W (N.ones W) (W - numCommonBits)) in
      let pivot := N.lor pivot0 (wshr W (2 ^ (W - 1)) numCommonBits) in
      a <- h_from_range fuel' (mkRange (rfirst r) (wsub W pivot 1)) ;;
      b <- h_from_range fuel' (mkRange pivot (rlast r)) ;;
      h_Union a b
  end.
Definition h_setNodeFromRange (r : range) : M ptr := h_from_range (S (S (N.to_nat W))) r.

(* ipv4/setnode.go:225-228 halves *)
Definition h_halves (p : prefix) : M (ptr * ptr) :=
  let '(a, b) := Halves W p in
  x <- h_setNodeFromPrefix a ;; y <- h_setNodeFromPrefix b ;; ret (x, y).

(* ipv4/setnode.go:198-248 Difference *)
Fixpoint h_difference (fuel : nat) (me other : ptr) : M ptr :=
  match fuel with
  | O => lift OutOfFuel
  | S fuel' =>
    if nilp me || nilp other then ret me
    else
      m <- load me ;; o <- load other ;;
      let '(result, _, _, child) := compare W (hPrefix m) (hPrefix o) in
      match result with
      | compareIsContained =>
        if hactive o then ret None else h_difference fuel' me (kidp child o)
      | compareDisjoint => ret me
      | _ =>
        if negb (hactive m) then
          lft <- h_difference fuel' (hc0 m) other ;;
          rgt <- h_difference fuel' (hc1 m) other ;;
          if ptr_eqb lft (hc0 m) && ptr_eqb rgt (hc1 m) then ret me else h_Union lft rgt
        else
          match result with
          | compareSame =>
            if hactive o then ret None
            else
              '(a, b) <- h_halves (hPrefix m) ;;
              x <- h_difference fuel' a (hc0 o) ;;
              y <- h_difference fuel' b (hc1 o) ;;
              h_Union x y
          | _ (* compareContains *) =>
            '(a, b) <- h_halves (hPrefix m) ;;
            partial <- h_difference fuel' (if child then b else a) other ;;
            h_Union (if child then a else b) partial
          end
      end
  end.
Definition h_Difference (me other : ptr) : M ptr := h_difference (fuelW W) me other.

(* ipv4/setnode.go:251-275 Intersect *)
Fixpoint h_intersect (fuel : nat) (me other : ptr) : M ptr :=
  match fuel with
  | O => lift OutOfFuel
  | S fuel' =>
    if nilp me || nilp other then ret None
    else
      m <- load me ;; o <- load other ;;
      let '(result, reversed, _, _) := compare W (hPrefix m) (hPrefix o) in
      match result with
      | compareDisjoint => ret None
      | _ =>
        if negb (hactive m) then
          x <- h_intersect fuel' other (hc0 m) ;;
          y <- h_intersect fuel' other (hc1 m) ;;
          h_Union x y
        else if negb (hactive o) then
          x <- h_intersect fuel' me (hc0 o) ;;
          y <- h_intersect fuel' me (hc1 o) ;;
          h_Union x y
        else if reversed then ret me
        else ret other
      end
  end.
Definition h_Intersect (me other : ptr) : M ptr := h_intersect (fuelW W) me other.
End SetOps.
