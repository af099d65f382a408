(* ConcTable.v - the machines of Conc.v for tables: the calls of Table_ and
   Table as heap programs, and as functions on values.  (Table.Aggregate is not
   among them: what it returns depends on which nodes are shared, see C15-C18
   and PropsHeap.v.) *)
From Verif Require Export Conc Hist.
Local Open Scope prog_scope.

Section ConcTable.
Variable W : N.
Context {T : Type}.
Variable zeroT : T.
Variable box : T -> option T.
Variable goeq : T -> T -> res bool.
Notation value := (ptr * option (comparator T))%type.
Notation unbox := (unbox zeroT).
(* *mutated == *me compares Data with == *)
Notation ieq := (defaultComparator goeq).

(* the results of the calls *)
Inductive tout :=
| OWrite (x : outcome T)
| ONum (n : N)
| OGet (v : T) (ok : bool)
| OMatch (v : T) (found : bool) (p : prefix)
| OWalk (visited : list (prefix * T)) (finished : bool)
| ODiff (reported : list (report T)) (finished : bool).
(* the calls that return an ordinary value.  A callback is given by what it
   answers after what it has seen so far (the last element is the current one);
   the flags of RDiff say which callbacks are not nil. *)
Inductive t_rop :=
| RNumEntries
| RGet (p : option prefix)
| RLongestMatch (p : option prefix)
| RWalk (go : list (prefix * T) -> bool)
| RDiff (changed left right unchanged : bool) (go : list (report T) -> bool).
(* Map with a mapper that may depend on a state of its own *)
Inductive t_bop :=
| BMap (St : Type) (mapper : option (prefix -> T -> St -> St * T)) (st : St).

(* ---- as heap programs ---- *)
(* the mutators of ipv4/tablex.go:88-95 Insert, 110-117 Update, 130-132
   InsertOrUpdate, 156-161 GetOrInsert, 187-192 Remove, with the load of the
   result's Data in GetOrInsert (162; done before the compare-and-swap here: the
   node is no longer written to by anyone) *)
Definition t_wprog (o : op T) (x : value) (_ : list value) : prog T (option ptr * tout) :=
  let '(p, e) := x in
  match o with
  | OpInsert q v =>
    '(n, err) <- h_Insert W ieq p (prefixI q) (box v) ;;
    match err with None => ret (Some n, OWrite (OutBool true)) | Some _ => ret (None, OWrite (OutBool false)) end
  | OpUpdate q v =>
    '(n, err) <- h_Update W ieq p (prefixI q) (box v) (ceq e) ;;
    match err with None => ret (Some n, OWrite (OutBool true)) | Some _ => ret (None, OWrite (OutBool false)) end
  | OpInsertOrUpdate q v =>
    n <- h_InsertOrUpdate W ieq p (prefixI q) (box v) (ceq e) ;; ret (Some n, OWrite OutNone)
  | OpGetOrInsert q v =>
    '(n, r) <- h_GetOrInsert W ieq (pathW W) p (prefixI q) (box v) ;;
    x <- load r ;; ret (Some n, OWrite (OutVal (unbox (hData x))))
  | OpRemove q =>
    '(n, err) <- h_del W ieq (pathW W) p (prefixI q) ;;
    ret (Some n, OWrite (OutBool (match err with None => true | Some _ => false end)))
  end.

(* ipv4/tablex.go:281-295 longestMatch: nil, or the node found *)
Definition t_find (p : ptr) (q : option prefix) : prog T (option (prefix * option T)) :=
  n <- h_Match W (pathW W) p (prefixI q) ;;
  match n with
  | None => ret None
  | Some _ => x <- load n ;; ret (Some (hPrefix x, hData x))
  end.
Definition seen {X} (go : list X -> bool) (x : X) (st : list X) : list X * bool := (st ++ [x], go (st ++ [x])).
Definition seen_if {X} (on : bool) (go : list X -> bool) (x : X) (st : list X) : list X * bool :=
  if on then seen go x st else (st, true).
(* ipv4/table.go:38-43, 165-167 NumEntries; 69-77, 173-180 Get; 93-101, 186-193
   LongestMatch; 233-239 Walk; 257-289 Diff *)
Definition t_rprog (r : t_rop) (x : option value) (xs : list value) : prog T tout :=
  match x with
  | None =>
    match r with
    | RNumEntries => ret (ONum 0)
    | RGet _ => ret (OGet zeroT false)
    | RLongestMatch _ => ret (OMatch zeroT false zero_prefix)
    | _ => lift Panic (* not methods of Table_ *)
    end
  | Some (p, e) =>
    match r with
    | RNumEntries => n <- h_NumNodes p ;; ret (ONum n)
    | RGet q =>
      m <- t_find p q ;;
      match m with
      | Some (np, d) => if plen np =? plen (prefixI q) then ret (OGet (unbox d) true) else ret (OGet zeroT false)
      | None => ret (OGet zeroT false)
      end
    | RLongestMatch q =>
      m <- t_find p q ;;
      match m with
      | Some (np, d) => ret (OMatch (unbox d) true np)
      | None => ret (OMatch zeroT false zero_prefix)
      end
    | RWalk go =>
      '(l, b) <- h_Walk W p (fun pr d st => seen go (pr, unbox d) st) [] ;; ret (OWalk l b)
    | RDiff hc hl hr hu go =>
      match xs with
      | [(q, _)] =>
        '(l, b) <- h_Diff W p q
          {| hRemoved := fun pr d => seen_if hl go (RRemoved pr (unbox d));
             hAdded := fun pr d => seen_if hr go (RAdded pr (unbox d));
             hModified := fun pr d d' => seen_if hc go (RChanged pr (unbox d) (unbox d'));
             hSame := if hu then Some (fun pr d => seen go (RUnchanged pr (unbox d))) else None |} (ceq e) [] ;;
        ret (ODiff l b)
      | _ => lift Panic
      end
    end
  end.
(* ipv4/table.go:309-322 Map *)
Definition t_bprog (b : t_bop) (xs : list value) : prog T ptr :=
  match b, xs with
  | BMap St mapper st, [(p, e)] =>
    match mapper with
    | None => ret p
    | Some g => '(_, n) <- h_Map ieq (pathW W) p (fun pr d s => let (s', v) := g pr (unbox d) s in (s', box v)) (ceq e) st ;; ret n
    end
  | _, _ => lift Panic
  end.
Definition t_bext (b : t_bop) (xs : list value) : option (comparator T) :=
  match xs with [(_, e)] => e | _ => None end.
(* ipv4/tablex.go:227-232 Table_: a nil eq becomes the default *)
Definition t_thaw (e : option (comparator T)) : option (comparator T) :=
  match e with None => Some (defaultComparator goeq) | Some c => Some c end.

(* which calls a client may make: valid prefixes, the right number of arguments,
   Walk and Diff on immutable tables (they are not methods of Table_), and
   comparators that are reflexive; a custom one only when no value of T is a nil
   interface (see C09 and the notes in DESIGN.md on comparators that panic) *)
Definition wf_prefixI (p : option prefix) : Prop := wf_prefix W (the_prefix p).
Definition t_call_ok (k : call (option (comparator T)) (op T) t_rop t_bop) : Prop :=
  match k with
  | KNew e => e = Some (defaultComparator goeq) \/
              exists g, e = Some (customComparator g) /\ (forall v, g v v = true) /\ (forall v, exists x, box v = Some x)
  | KWrite _ o a => wf_prefix W (op_prefix o) /\ a = []
  | KRead _ RNumEntries a => a = []
  | KRead _ (RGet p) a => wf_prefixI p /\ a = []
  | KRead _ (RLongestMatch p) a => wf_prefixI p /\ a = []
  | KRead x (RWalk _) a => (exists s, x = Snap s) /\ a = []
  | KRead x (RDiff _ _ _ _ _) a => (exists s, x = Snap s) /\ (exists s, a = [s])
  | KBuild (BMap _ _ _) a => exists s, a = [s]
  | KFreeze _ => True
  | KThaw _ => True
  end.

(* ---- as functions on values ---- *)
Notation nopeq := (fun _ _ : trie T => false).
(* Insert and Update that fail do not store anything *)
Definition t_wfun (o : op T) (t : tableX T) (_ : list (tableX T)) : res (option (tableX T) * tout) :=
  match exec W zeroT box (Some t) o with
  | Ok (Some t', x) =>
    match o, x with
    | OpInsert _ _, OutBool false | OpUpdate _ _, OutBool false => Ok (None, OWrite x)
    | _, _ => Ok (Some t', OWrite x)
    end
  | Ok (None, _) => Panic
  | Panic => Panic
  | OutOfFuel => OutOfFuel
  end.
Definition t_rfun (r : t_rop) (t : option (tableX T)) (ts : list (tableX T)) : res tout :=
  match r with
  | RNumEntries => Ok (ONum (tbl_NumEntries t))
  | RGet p => let (v, ok) := tbl_Get W zeroT t p in Ok (OGet v ok)
  | RLongestMatch p => let '(v, found, q) := tbl_LongestMatch W zeroT t p in Ok (OMatch v found q)
  | RWalk go =>
    match t with
    | Some t => bind (tbl_Walk W zeroT nopeq t (fun p v => seen go (p, v)) []) (fun x => Ok (OWalk (fst x) (snd x)))
    | None => Panic
    end
  | RDiff hc hl hr hu go =>
    match t, ts with
    | Some l, [r] =>
      bind (tbl_Diff W zeroT nopeq l r
        (if hc then Some (fun p v v' => seen go (RChanged p v v')) else None)
        (if hl then Some (fun p v => seen go (RRemoved p v)) else None)
        (if hr then Some (fun p v => seen go (RAdded p v)) else None)
        (if hu then Some (fun p v => seen go (RUnchanged p v)) else None) []) (fun x => Ok (ODiff (fst x) (snd x)))
    | _, _ => Panic
    end
  end.
Definition t_bfun (b : t_bop) (ts : list (tableX T)) (R : res (tableX T)) : Prop :=
  match b, ts with
  | BMap St mapper st, [t] => R = bind (tbl_Map zeroT box t mapper st) (fun x => Ok (snd x))
  | _, _ => R = Panic
  end.
Definition t_new (e : option (comparator T)) : tableX T := {| tx_trie := Nil; tx_eq := e |}.
Definition t_thawed (t : tableX T) : tableX T := {| tx_trie := tx_trie t; tx_eq := t_thaw (tx_eq t) |}.
End ConcTable.
Arguments tout : clear implicits. Arguments t_rop : clear implicits. Arguments t_bop : clear implicits.
