(* SetNode6.v - model of ipv6/setnode.go at the level of its own types; see
   Trie6.v and SetNode.v. *)
From Verif Require Export Trie6.

Definition snode6 := trie6 unit.

(* ipv6/setnode.go:14-21 *)
Definition setNodeFromPrefix6 (p : prefix6) : snode6 := Node6 p None 1 1 true Nil6 Nil6.

Section SetNode6.
(* pointer equality oracle, see Trie.v *)
Variable peq : snode6 -> snode6 -> bool.

(* a fresh &setNode{Prefix: p, children: {l, r}} followed by mutate(flatten):
   ipv6/setnode.go:113-127, 145-159, 169-183 *)
Definition newHead6 (p : prefix6) (l r : snode6) : res snode6 :=
  mk_opt6 true p None false l r.

(* ipv6/setnode.go:88-185 Union *)
Fixpoint union6 (fuel : nat) (me other : snode6) : res snode6 :=
  match fuel with
  | O => OutOfFuel
  | S fuel' =>
    if peq me other then Ok me
    else
      match me, other with
      | _, Nil6 => Ok me
      | Nil6, _ => Ok other
      | Node6 mp _ _ _ ma ml mr, Node6 op _ _ _ oa ol or =>
        let '(result, reversed, common, child) := compare6 mp op in
        match result with
        | compareSame =>
          if ma then Ok me
          else if oa then Ok other
          else
            lft <- union6 fuel' ml ol ;;
            rgt <- union6 fuel' mr or ;;
            if peq lft ml && peq rgt mr then Ok me
            else newHead6 (mkPrefix6 (paddr6 mp) (plen6 mp)) lft rgt
        | compareContains | compareIsContained =>
          let '(super, sub) := if reversed then (other, me) else (me, other) in
          if active6 super then Ok super
          else
            '(lft, rgt) <-
              (if child
               then (x <- union6 fuel' (child16 super) sub ;; Ok (child06 super, x))
               else (x <- union6 fuel' (child06 super) sub ;; Ok (x, child16 super))) ;;
            newHead6 (mkPrefix6 (paddr6 (prefix_of6 super)) (plen6 (prefix_of6 super))) lft rgt
        | compareDisjoint =>
          let '(lft, rgt) := if xorb child reversed then (me, other) else (other, me) in
          newHead6 (join_prefix6 mp common) lft rgt
        end
      end
  end.

Definition Union6 (me other : snode6) : res snode6 := union6 (fuelW 128) me other.

(* ipv6/setnode.go:23-46 setNodeFromRange *)
Fixpoint from_range6 (fuel : nat) (r : range6) : res snode6 :=
  match fuel with
  | O => OutOfFuel
  | S fuel' =>
    match range_split6 r with
    | inl p => Ok (setNodeFromPrefix6 p)
    | inr (r0, r1) =>
      a <- from_range6 fuel' r0 ;;
      b <- from_range6 fuel' r1 ;;
      Union6 a b
    end
  end.

Definition setNodeFromRange6 (r : range6) : res snode6 := from_range6 (S (S (N.to_nat 128))) r.

(* ipv6/setnode.go:223-226 (and 376-379) the closure [halves] *)
Definition halves6 (p : prefix6) : snode6 * snode6 :=
  let '(a, b) := Halves6 p in (setNodeFromPrefix6 a, setNodeFromPrefix6 b).

(* ipv6/setnode.go:196-246 Difference *)
Fixpoint difference6 (fuel : nat) (me other : snode6) : res snode6 :=
  match fuel with
  | O => OutOfFuel
  | S fuel' =>
    match me, other with
    | Nil6, _ => Ok me
    | _, Nil6 => Ok me
    | Node6 mp _ _ _ ma ml mr, Node6 op _ _ _ oa ol or =>
      let '(result, _, _, child) := compare6 mp op in
      match result with
      | compareIsContained =>
        if oa then Ok Nil6 else difference6 fuel' me (kid6 child ol or)
      | compareDisjoint => Ok me
      | _ =>
        if negb ma then
          lft <- difference6 fuel' ml other ;;
          rgt <- difference6 fuel' mr other ;;
          if peq lft ml && peq rgt mr then Ok me else Union6 lft rgt
        else
          match result with
          | compareSame =>
            if oa then Ok Nil6
            else
              let '(a, b) := halves6 mp in
              x <- difference6 fuel' a ol ;;
              y <- difference6 fuel' b or ;;
              Union6 x y
          | _ (* compareContains *) =>
            let '(a, b) := halves6 mp in
            let whole := if child then a else b in
            partial <- difference6 fuel' (if child then b else a) other ;;
            Union6 whole partial
          end
      end
    end
  end.

Definition Difference6 (me other : snode6) : res snode6 := difference6 (fuelW 128) me other.

(* ipv6/setnode.go:249-273 Intersect *)
Fixpoint intersect6 (fuel : nat) (me other : snode6) : res snode6 :=
  match fuel with
  | O => OutOfFuel
  | S fuel' =>
    match me, other with
    | Nil6, _ => Ok Nil6
    | _, Nil6 => Ok Nil6
    | Node6 mp _ _ _ ma ml mr, Node6 op _ _ _ oa ol or =>
      let '(result, reversed, _, _) := compare6 mp op in
      match result with
      | compareDisjoint => Ok Nil6
      | _ =>
        if negb ma then
          x <- intersect6 fuel' other ml ;;
          y <- intersect6 fuel' other mr ;;
          Union6 x y
        else if negb oa then
          x <- intersect6 fuel' me ol ;;
          y <- intersect6 fuel' me or ;;
          Union6 x y
        else if reversed then Ok me
        else Ok other
      end
    end
  end.

Definition Intersect6 (me other : snode6) : res snode6 := intersect6 (fuelW 128) me other.

(* ipv6/setnode.go:275-279 Equal: the comparator is constantly true *)
Definition snode_Equal6 (me other : snode6) : res bool := Equal6 peq me other (fun _ _ => Ok true).

(* ipv6/setnode.go:299-321 best: (left, right) are closures; None = error.
   They have no effects, and right is only run when the code runs it. *)
Definition best6 (lft : res (option prefix6)) (rgt : unit -> res (option prefix6)) (length : N)
  : res (option prefix6) :=
  l <- lft ;;
  match l with
  | Some lPrefix =>
    if plen6 lPrefix =? length then Ok (Some lPrefix)
    else
      r <- rgt tt ;;
      match r with
      | Some rPrefix => if plen6 lPrefix <? plen6 rPrefix then Ok (Some rPrefix) else Ok (Some lPrefix)
      | None => Ok (Some lPrefix)
      end
  | None =>
    r <- rgt tt ;;
    match r with
    | Some rPrefix => Ok (Some rPrefix)
    | None => Ok None
    end
  end.

(* ipv6/setnode.go:323-346 findSmallestContainingPrefix *)
Fixpoint findSmallest6 (me : snode6) (length : N) : res (option prefix6) :=
  match me with
  | Nil6 => Ok None
  | Node6 p _ _ _ a l r =>
    if length <? plen6 p then Ok None
    else if (length =? plen6 p) && a then Ok (Some p)
    else
      b <- best6 (findSmallest6 l length) (fun _ => findSmallest6 r length) length ;;
      match b with
      | Some bestPrefix => Ok (Some bestPrefix)
      | None => if negb a then Ok None else Ok (Some p)
      end
  end.

(* ipv6/setnode.go:348-404 FindSmallestContainingPrefix *)
Fixpoint findSmallestR6 (fuel : nat) (me reserved : snode6) (length : N) : res (option prefix6) :=
  match fuel with
  | O => OutOfFuel
  | S fuel' =>
    match me with
    | Nil6 => Ok None
    | Node6 mp _ _ _ ma ml mr =>
      if length <? plen6 mp then Ok None
      else
        match reserved with
        | Nil6 => findSmallest6 me length
        | Node6 rp _ _ _ ra rl rr =>
          let '(result, _, _, child) := compare6 mp rp in
          match result with
          | compareIsContained =>
            if ra then Ok None else findSmallestR6 fuel' me (kid6 child rl rr) length
          | compareDisjoint => findSmallest6 me length
          | _ =>
            if negb ma then
              best6 (findSmallestR6 fuel' ml reserved length)
                   (fun _ => findSmallestR6 fuel' mr reserved length) length
            else
              match result with
              | compareSame =>
                if ra then Ok None
                else
                  let '(lft, rgt) := halves6 mp in
                  best6 (findSmallestR6 fuel' lft rl length)
                       (fun _ => findSmallestR6 fuel' rgt rr length) length
              | _ (* compareContains *) =>
                let '(lft, rgt) := halves6 mp in
                let whole := if child then lft else rgt in
                let partial := if child then rgt else lft in
                best6 (findSmallest6 whole length)
                     (fun _ => findSmallestR6 fuel' partial reserved length) length
              end
          end
        end
    end
  end.

Definition FindSmallestContainingPrefix6 (me reserved : snode6) (length : N) : res (option prefix6) :=
  findSmallestR6 (fuelW 128) me reserved length.

(* ipv6/setnode.go:51-54 Insert: insert with insert, update, flatten set and a nil eq.
   (Used by the package's own tests only.) *)
Definition snode_insert6 (me : snode6) (key : prefix6) : res snode6 :=
  '(n, _) <- insert6 me key None
     {| o_insert := true; o_update := true; o_flatten := true; o_eq := nil_eq |} ;;
  Ok n.

(* ipv6/node.go:481-552 del with opts.flatten = true, as called by
   ipv6/setnode.go:61-64 Remove.  (Used by the package's own tests only.) *)
Fixpoint sdel6 (me : snode6) (k : prefix6) : res (snode6 * option terr) :=
  match me with
  | Nil6 => Ok (Nil6, None)
  | Node6 p d s h a l r =>
    let '(result, _, _, child) := compare6 p k in
    match result with
    | compareSame => Ok (Nil6, None)
    | compareContains =>
      if a then
        let remaining := range_minus6 (prefix_range6 p) (prefix_range6 k) in
        match remaining with
        | [r0] => s <- setNodeFromRange6 r0 ;; Ok (s, None)
        | r0 :: r1 :: _ =>
          a <- setNodeFromRange6 r0 ;;
          b <- setNodeFromRange6 r1 ;;
          s <- Union6 a b ;; Ok (s, None)
        | [] => Panic (* index out of range *)
        end
      else
        '(newChild, err) <- sdel6 (kid6 child l r) k ;;
        match err with
        | Some e => Ok (me, Some e)
        | None =>
          if is_nil6 newChild && negb a then Ok (kid6 (negb child) l r, None)
          else Ok (mk6 p d a (setl6 child newChild l) (setr6 child newChild r), None)
        end
    | compareIsContained => Ok (Nil6, None)
    | compareDisjoint => Ok (me, Some ErrKeyNotFound)
    end
  end.
Definition snode_remove6 (me : snode6) (key : prefix6) : res snode6 :=
  '(n, _) <- sdel6 me key ;; Ok n.

End SetNode6.
