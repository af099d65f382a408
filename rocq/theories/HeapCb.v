(* HeapCb.v - Walk, Diff and Map once more at the level of nodes, now with
   callbacks that are programs themselves: they may read and allocate nodes and
   call the library, for instance modify the very handle whose snapshot is being
   walked (its root is then part of the callbacks' state).  Nodes are read again
   after a callback, where the code does so. *)
From Verif Require Export PropsHeap.
Local Open Scope prog_scope.

Section Cb.
Variable W : N.
Context {T : Type}.
Variable ieq : option T -> option T -> res bool.
Notation node := (hnode T).
Notation M := (prog T).

(* ipv4/node.go:592-597 trieDiffHandler; eSame is None when handler.Same is nil *)
Record eHandler (S : Type) := {
  eRemoved : prefix -> option T -> S -> M (S * bool);
  eAdded : prefix -> option T -> S -> M (S * bool);
  eModified : prefix -> option T -> option T -> S -> M (S * bool);
  eSame : option (prefix -> option T -> S -> M (S * bool)) }.
Arguments eRemoved {S}. Arguments eAdded {S}. Arguments eModified {S}. Arguments eSame {S}.

(* ipv4/node.go:715-743 the handler that Diff passes to diff *)
Definition ei_Removed {S} (H : eHandler S) (n : node) (st : S) : M (S * bool) :=
  if hactive n then eRemoved H (hPrefix n) (hData n) st else ret (st, true).
Definition ei_Added {S} (H : eHandler S) (n : node) (st : S) : M (S * bool) :=
  if hactive n then eAdded H (hPrefix n) (hData n) st else ret (st, true).
Definition ei_Modified {S} (H : eHandler S) (eq : comparator T) (l r : node) (st : S) : M (S * bool) :=
  if hactive l && hactive r then
    e <- lift (eq (hData l) (hData r)) ;;
    if negb e then eModified H (hPrefix l) (hData l) (hData r) st
    else match eSame H with
         | Some f => f (hPrefix l) (hData l) st
         | None => ret (st, true)
         end
  else if hactive l then eRemoved H (hPrefix l) (hData l) st
  else if hactive r then eAdded H (hPrefix r) (hData r) st
  else ret (st, true).

(* n.children, read after the callback; of a nil node it is not asked for *)
Definition h_children (p : ptr) : M (ptr * ptr) := n <- load p ;; ret (hc0 n, hc1 n).
Definition at_child (child : bool) (p : ptr) : ptr * ptr := if child then (None, p) else (p, None).

(* ipv4/node.go:599-688 diff *)
Fixpoint h_diffE {S} (fuel : nat) (left right : ptr) (H : eHandler S) (eq : comparator T) (st : S) : M (S * bool) :=
  match fuel with
  | O => lift OutOfFuel
  | Datatypes.S fuel' =>
    if ptr_eqb left right && match eSame H with None => true | Some _ => false end then ret (st, true)
    else
      let finish (result : cmpres) (child : bool) (head : M (S * bool)) : M (S * bool) :=
        '(st1, go) <- head ;;
        if negb go then ret (st1, false)
        else
          '(nl, nr) <-
            match result with
            | compareSame => a <- h_children left ;; b <- h_children right ;; ret (a, b)
            | compareIsContained => b <- h_children right ;; ret (at_child child left, b)
            | compareContains => a <- h_children left ;; ret (a, at_child child right)
            | compareDisjoint => ret (at_child (negb child) left, at_child child right)
            end ;;
          '(st2, go2) <- h_diffE fuel' (fst nl) (fst nr) H eq st1 ;;
          if negb go2 then ret (st2, false)
          else
            '(st3, go3) <- h_diffE fuel' (snd nl) (snd nr) H eq st2 ;;
            if negb go3 then ret (st3, false) else ret (st3, true) in
      match left, right with
      | None, None => ret (st, true)
      | Some _, None => l <- load left ;; finish compareContains false (ei_Removed H l st)
      | None, Some _ => r <- load right ;; finish compareIsContained false (ei_Added H r st)
      | Some _, Some _ =>
        l <- load left ;; r <- load right ;;
        let '(result, _, _, child) := compare W (hPrefix l) (hPrefix r) in
        finish result child
          match result with
          | compareSame => ei_Modified H eq l r st
          | compareContains => ei_Removed H l st
          | compareIsContained => ei_Added H r st
          | compareDisjoint => ret (st, true)
          end
      end
  end.
(* ipv4/node.go:692-745 Diff, 574-590 Walk *)
Definition h_DiffE {S} (left right : ptr) (H : eHandler S) (eq : comparator T) (st : S) : M (S * bool) :=
  h_diffE (fuelW W) left right H eq st.
Definition h_WalkE {S} (me : ptr) (cb : prefix -> option T -> S -> M (S * bool)) (st : S) : M (S * bool) :=
  h_DiffE None me {| eRemoved := fun _ _ s => ret (s, true); eAdded := cb;
                     eModified := fun _ _ _ s => ret (s, true); eSame := None |} (fun _ _ => Ok false) st.

(* ipv4/node.go:831-842 Map: me.Data and me.children are read again after the
   mapper, me.children[1] after the first recursive call *)
Fixpoint h_MapE {S} (fuel : nat) (me : ptr) (mapper : prefix -> option T -> S -> M (S * option T))
         (eq : comparator T) (st : S) : M (S * ptr) :=
  match fuel with
  | O => lift OutOfFuel
  | Datatypes.S fuel' =>
    match me with
    | None => ret (st, None)
    | Some _ =>
      m <- load me ;;
      doppelganger <- alloc m ;;
      '(st1, nd) <- mapper (hPrefix m) (hData m) st ;;
      modify doppelganger (w_data nd) ;;;
      m1 <- load me ;;
      e <- lift (eq (hData m1) nd) ;;
      (if e then m2 <- load me ;; modify doppelganger (w_data (hData m2)) else ret tt) ;;;
      m3 <- load me ;;
      '(st2, l') <- h_MapE fuel' (hc0 m3) mapper eq st1 ;;
      m4 <- load me ;;
      '(st3, r') <- h_MapE fuel' (hc1 m4) mapper eq st2 ;;
      mutated <- h_mutate (Some doppelganger) (fun n => modify n (w_kids l' r')) ;;
      a <- load mutated ;;
      b <- load me ;;
      e' <- lift (node_eq ieq a b) ;;
      if e' then ret (st3, me) else ret (st3, mutated)
    end
  end.

(* what a callback may do: nothing but return or panic, read a node, call one of
   the functions in [base], one thing after another, and walk, compare and map
   tables with callbacks that are restricted in the same way *)
Inductive client (base : forall A, M A -> Prop) : forall A, M A -> Prop :=
| cl_result A (r : res A) : client base A (Done r)
| cl_seq A B (m : M A) (k : A -> M B) : client base A m -> (forall a, client base B (k a)) -> client base B (pbind m k)
| cl_read p : client base node (load p)
| cl_call A m : base A m -> client base A m
| cl_Walk S me (cb : prefix -> option T -> S -> M (S * bool)) st :
    (forall p d s, client base _ (cb p d s)) -> client base _ (h_WalkE me cb st)
| cl_Diff S l r (H : eHandler S) eq st :
    (forall p d s, client base _ (eRemoved H p d s)) -> (forall p d s, client base _ (eAdded H p d s)) ->
    (forall p d d' s, client base _ (eModified H p d d' s)) ->
    (forall f, eSame H = Some f -> forall p d s, client base _ (f p d s)) -> client base _ (h_DiffE l r H eq st)
| cl_Map S me (mapper : prefix -> option T -> S -> M (S * option T)) eq st :
    (forall p d s, client base _ (mapper p d s)) -> client base _ (h_MapE (pathW W) me mapper eq st).

(* the functions of node.go *)
Inductive table_calls : forall A, M A -> Prop :=
| tc_Insert me k v : table_calls _ (h_Insert W ieq me k v)
| tc_Update me k v eq : table_calls _ (h_Update W ieq me k v eq)
| tc_InsertOrUpdate me k v eq : table_calls _ (h_InsertOrUpdate W ieq me k v eq)
| tc_GetOrInsert me k v : table_calls _ (h_GetOrInsert W ieq (pathW W) me k v)
| tc_Delete me k : table_calls _ (h_del W ieq (pathW W) me k)
| tc_Match me k : table_calls _ (h_Match W (pathW W) me k)
| tc_Aggregate me eq : table_calls _ (h_Aggregate W ieq me eq)
| tc_Equal me other eq : table_calls _ (h_Equal (pathW W) me other eq).
End Cb.
Arguments eRemoved {T S}. Arguments eAdded {T S}. Arguments eModified {T S}. Arguments eSame {T S}.

(* the functions of setnode.go *)
Inductive set_calls (W : N) : forall A, prog unit A -> Prop :=
| sc_FromPrefix p : set_calls W _ (h_setNodeFromPrefix p)
| sc_FromRange r : set_calls W _ (h_setNodeFromRange W r)
| sc_Union me other : set_calls W _ (h_Union W me other)
| sc_Difference me other : set_calls W _ (h_Difference W me other)
| sc_Intersect me other : set_calls W _ (h_Intersect W me other)
| sc_Match me k : set_calls W _ (h_Match W (pathW W) me k)
| sc_Equal me other eq : set_calls W _ (h_Equal (pathW W) me other eq).
