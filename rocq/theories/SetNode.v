(* SetNode.v - model of ipv4/setnode.go (and, at W = 128, ipv6/setnode.go).
   A *setNode is a *trieNode whose Data is never set, so it is a [trie unit]
   with Data = None everywhere. *)
From Verif Require Export Trie.

Definition snode := trie unit.

(* ipv4/setnode.go:15-22 *)
Definition setNodeFromPrefix (p : prefix) : snode := Node p None 1 1 true Nil Nil.

Section SetNode.
Variable W : N.
(* pointer equality oracle, see Trie.v *)
Variable peq : snode -> snode -> bool.

(* a fresh &setNode{Prefix: p, children: {l, r}} followed by mutate(flatten):
   ipv4/setnode.go:114-128, 146-160, 171-185 *)
Definition newHead (p : prefix) (l r : snode) : res snode :=
  mk_opt true p None false l r.

(* ipv4/setnode.go:89-187 Union *)
Fixpoint union (fuel : nat) (me other : snode) : res snode :=
  match fuel with
  | O => OutOfFuel
  | S fuel' =>
    if peq me other then Ok me
    else
      match me, other with
      | _, Nil => Ok me
      | Nil, _ => Ok other
      | Node mp _ _ _ ma ml mr, Node op _ _ _ oa ol or =>
        let '(result, reversed, common, child) := compare W mp op in
        match result with
        | compareSame =>
          if ma then Ok me
          else if oa then Ok other
          else
            lft <- union fuel' ml ol ;;
            rgt <- union fuel' mr or ;;
            if peq lft ml && peq rgt mr then Ok me
            else newHead (mkPrefix (paddr mp) (plen mp)) lft rgt
        | compareContains | compareIsContained =>
          let '(super, sub) := if reversed then (other, me) else (me, other) in
          if active super then Ok super
          else
            '(lft, rgt) <-
              (if child
               then (x <- union fuel' (child1 super) sub ;; Ok (child0 super, x))
               else (x <- union fuel' (child0 super) sub ;; Ok (x, child1 super))) ;;
            newHead (mkPrefix (paddr (prefix_of super)) (plen (prefix_of super))) lft rgt
        | compareDisjoint =>
          let '(lft, rgt) := if xorb child reversed then (me, other) else (other, me) in
          newHead (join_prefix W mp common) lft rgt
        end
      end
  end.

Definition Union (me other : snode) : res snode := union (fuelW W) me other.

(* ipv4/setnode.go:24-47 setNodeFromRange *)
Fixpoint from_range (fuel : nat) (r : range) : res snode :=
  match fuel with
  | O => OutOfFuel
  | S fuel' =>
    let xor := N.lxor (rfirst r) (rlast r) in
    let numCommonBits := clz W xor in
    if numCommonBits =? popcount (wnot W xor)
    then Ok (setNodeFromPrefix (mkPrefix (rfirst r) numCommonBits))
    else
      let pivot0 := N.land (rfirst r) (wshl W (N.ones W) (W - numCommonBits)) in
      let pivot := N.lor pivot0 (wshr W (2 ^ (W - 1)) numCommonBits) in
      a <- from_range fuel' (mkRange (rfirst r) (wsub W pivot 1)) ;;
      b <- from_range fuel' (mkRange pivot (rlast r)) ;;
      Union a b
  end.

Definition setNodeFromRange (r : range) : res snode := from_range (S (S (N.to_nat W))) r.

(* ipv4/setnode.go:225-228 (and 378-381) the closure [halves] *)
Definition halves (p : prefix) : snode * snode :=
  let '(a, b) := Halves W p in (setNodeFromPrefix a, setNodeFromPrefix b).

(* ipv4/setnode.go:198-248 Difference *)
Fixpoint difference (fuel : nat) (me other : snode) : res snode :=
  match fuel with
  | O => OutOfFuel
  | S fuel' =>
    match me, other with
    | Nil, _ => Ok me
    | _, Nil => Ok me
    | Node mp _ _ _ ma ml mr, Node op _ _ _ oa ol or =>
      let '(result, _, _, child) := compare W mp op in
      match result with
      | compareIsContained =>
        if oa then Ok Nil else difference fuel' me (kid child ol or)
      | compareDisjoint => Ok me
      | _ =>
        if negb ma then
          lft <- difference fuel' ml other ;;
          rgt <- difference fuel' mr other ;;
          if peq lft ml && peq rgt mr then Ok me else Union lft rgt
        else
          match result with
          | compareSame =>
            if oa then Ok Nil
            else
              let '(a, b) := halves mp in
              x <- difference fuel' a ol ;;
              y <- difference fuel' b or ;;
              Union x y
          | _ (* compareContains *) =>
            let '(a, b) := halves mp in
            let whole := if child then a else b in
            partial <- difference fuel' (if child then b else a) other ;;
            Union whole partial
          end
      end
    end
  end.

Definition Difference (me other : snode) : res snode := difference (fuelW W) me other.

(* ipv4/setnode.go:251-275 Intersect *)
Fixpoint intersect (fuel : nat) (me other : snode) : res snode :=
  match fuel with
  | O => OutOfFuel
  | S fuel' =>
    match me, other with
    | Nil, _ => Ok Nil
    | _, Nil => Ok Nil
    | Node mp _ _ _ ma ml mr, Node op _ _ _ oa ol or =>
      let '(result, reversed, _, _) := compare W mp op in
      match result with
      | compareDisjoint => Ok Nil
      | _ =>
        if negb ma then
          x <- intersect fuel' other ml ;;
          y <- intersect fuel' other mr ;;
          Union x y
        else if negb oa then
          x <- intersect fuel' me ol ;;
          y <- intersect fuel' me or ;;
          Union x y
        else if reversed then Ok me
        else Ok other
      end
    end
  end.

Definition Intersect (me other : snode) : res snode := intersect (fuelW W) me other.

(* ipv4/setnode.go:277-281 Equal: the comparator is constantly true *)
Definition snode_Equal (me other : snode) : res bool := Equal peq me other (fun _ _ => Ok true).

(* ipv4/setnode.go:301-323 best: (left, right) are closures; None = error.
   They have no effects, and right is only run when the code runs it. *)
Definition best (lft : res (option prefix)) (rgt : unit -> res (option prefix)) (length : N)
  : res (option prefix) :=
  l <- lft ;;
  match l with
  | Some lPrefix =>
    if plen lPrefix =? length then Ok (Some lPrefix)
    else
      r <- rgt tt ;;
      match r with
      | Some rPrefix => if plen lPrefix <? plen rPrefix then Ok (Some rPrefix) else Ok (Some lPrefix)
      | None => Ok (Some lPrefix)
      end
  | None =>
    r <- rgt tt ;;
    match r with
    | Some rPrefix => Ok (Some rPrefix)
    | None => Ok None
    end
  end.

(* ipv4/setnode.go:325-348 findSmallestContainingPrefix *)
Fixpoint findSmallest (me : snode) (length : N) : res (option prefix) :=
  match me with
  | Nil => Ok None
  | Node p _ _ _ a l r =>
    if length <? plen p then Ok None
    else if (length =? plen p) && a then Ok (Some p)
    else
      b <- best (findSmallest l length) (fun _ => findSmallest r length) length ;;
      match b with
      | Some bestPrefix => Ok (Some bestPrefix)
      | None => if negb a then Ok None else Ok (Some p)
      end
  end.

(* ipv4/setnode.go:350-406 FindSmallestContainingPrefix *)
Fixpoint findSmallestR (fuel : nat) (me reserved : snode) (length : N) : res (option prefix) :=
  match fuel with
  | O => OutOfFuel
  | S fuel' =>
    match me with
    | Nil => Ok None
    | Node mp _ _ _ ma ml mr =>
      if length <? plen mp then Ok None
      else
        match reserved with
        | Nil => findSmallest me length
        | Node rp _ _ _ ra rl rr =>
          let '(result, _, _, child) := compare W mp rp in
          match result with
          | compareIsContained =>
            if ra then Ok None else findSmallestR fuel' me (kid child rl rr) length
          | compareDisjoint => findSmallest me length
          | _ =>
            if negb ma then
              best (findSmallestR fuel' ml reserved length)
                   (fun _ => findSmallestR fuel' mr reserved length) length
            else
              match result with
              | compareSame =>
                if ra then Ok None
                else
                  let '(lft, rgt) := halves mp in
                  best (findSmallestR fuel' lft rl length)
                       (fun _ => findSmallestR fuel' rgt rr length) length
              | _ (* compareContains *) =>
                let '(lft, rgt) := halves mp in
                let whole := if child then lft else rgt in
                let partial := if child then rgt else lft in
                best (findSmallest whole length)
                     (fun _ => findSmallestR fuel' partial reserved length) length
              end
          end
        end
    end
  end.

Definition FindSmallestContainingPrefix (me reserved : snode) (length : N) : res (option prefix) :=
  findSmallestR (fuelW W) me reserved length.

(* ipv4/setnode.go:52-55 Insert: insert with insert, update, flatten set and a nil eq.
   (Used by the package's own tests only.) *)
Definition snode_insert (me : snode) (key : prefix) : res snode :=
  '(n, _) <- insert W me key None
     {| o_insert := true; o_update := true; o_flatten := true; o_eq := nil_eq |} ;;
  Ok n.

(* ipv4/node.go:485-556 del with opts.flatten = true, as called by
   ipv4/setnode.go:62-65 Remove.  (Used by the package's own tests only.) *)
Fixpoint sdel (me : snode) (k : prefix) : res (snode * option terr) :=
  match me with
  | Nil => Ok (Nil, None)
  | Node p d s h a l r =>
    let '(result, _, _, child) := compare W p k in
    match result with
    | compareSame => Ok (Nil, None)
    | compareContains =>
      if a then
        let remaining := range_minus W (prefix_range W p) (prefix_range W k) in
        match remaining with
        | [r0] => s <- setNodeFromRange r0 ;; Ok (s, None)
        | r0 :: r1 :: _ =>
          a <- setNodeFromRange r0 ;;
          b <- setNodeFromRange r1 ;;
          s <- Union a b ;; Ok (s, None)
        | [] => Panic (* index out of range *)
        end
      else
        '(newChild, err) <- sdel (kid child l r) k ;;
        match err with
        | Some e => Ok (me, Some e)
        | None =>
          if is_nil newChild && negb a then Ok (kid (negb child) l r, None)
          else Ok (mk p d a (setl child newChild l) (setr child newChild r), None)
        end
    | compareIsContained => Ok (Nil, None)
    | compareDisjoint => Ok (me, Some ErrKeyNotFound)
    end
  end.
Definition snode_remove (me : snode) (key : prefix) : res snode :=
  '(n, _) <- sdel me key ;; Ok n.

End SetNode.
