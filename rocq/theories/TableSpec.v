(* TableSpec.v - specification of tables: a history of calls, and what a plain
   map from (network address, length) to the stored prefix and value does with
   it.  Nothing here refers to tries. *)
From Verif Require Export Values Spec.

(* the modifying calls of a Table_; a PrefixI argument may be nil (None) *)
Inductive op (T : Type) :=
| OpInsert (p : option prefix) (v : T)
| OpUpdate (p : option prefix) (v : T)
| OpInsertOrUpdate (p : option prefix) (v : T)
| OpGetOrInsert (p : option prefix) (v : T)
| OpRemove (p : option prefix).
Arguments OpInsert {T}. Arguments OpUpdate {T}. Arguments OpInsertOrUpdate {T}.
Arguments OpGetOrInsert {T}. Arguments OpRemove {T}.

(* what a call returns *)
Inductive outcome (T : Type) := OutBool (b : bool) | OutVal (v : T) | OutNone.
Arguments OutBool {T}. Arguments OutVal {T}. Arguments OutNone {T}.

(* the prefix meant by a PrefixI argument *)
Definition the_prefix (p : option prefix) : prefix := match p with Some q => q | None => mkPrefix 0 0 end.
Definition op_prefix {T} (o : op T) : prefix :=
  match o with
  | OpInsert p _ | OpUpdate p _ | OpInsertOrUpdate p _ | OpGetOrInsert p _ | OpRemove p => the_prefix p
  end.

(* the plain map *)
Definition smap (T : Type) := N * N -> option (prefix * T).
Definition sempty {T} : smap T := fun _ => None.
Definition eqk (a b : N * N) : bool := (fst a =? fst b) && (snd a =? snd b).
Definition sset {T} (m : smap T) (k : N * N) (x : option (prefix * T)) : smap T :=
  fun k' => if eqk k' k then x else m k'.

(* One call on the map; g says when the table's comparator takes an old and a
   new value to be equal, in which case the old value stays. *)
Definition sstep {T} (W : N) (g : T -> T -> bool) (m : smap T) (o : op T) : smap T * outcome T :=
  let k := pkey W (op_prefix o) in
  match o with
  | OpInsert p v =>
    match m k with
    | Some _ => (m, OutBool false)
    | None => (sset m k (Some (the_prefix p, v)), OutBool true)
    end
  | OpUpdate p v =>
    match m k with
    | Some (_, v0) => (sset m k (Some (the_prefix p, if g v0 v then v0 else v)), OutBool true)
    | None => (m, OutBool false)
    end
  | OpInsertOrUpdate p v =>
    match m k with
    | Some (_, v0) => (sset m k (Some (the_prefix p, if g v0 v then v0 else v)), OutNone)
    | None => (sset m k (Some (the_prefix p, v)), OutNone)
    end
  | OpGetOrInsert p v =>
    match m k with
    | Some (_, v0) => (m, OutVal v0)
    | None => (sset m k (Some (the_prefix p, v)), OutVal v)
    end
  | OpRemove p => (sset m k None, OutBool (match m k with Some _ => true | None => false end))
  end.

Fixpoint sruns {T} (W : N) (g : T -> T -> bool) (m : smap T) (os : list (op T)) : smap T * list (outcome T) :=
  match os with
  | [] => (m, [])
  | o :: os' => let (m1, r) := sstep W g m o in let (m2, rs) := sruns W g m1 os' in (m2, r :: rs)
  end.

Lemma eqk_spec a b : eqk a b = true <-> a = b.
Proof.
  unfold eqk. rewrite Bool.andb_true_iff, !N.eqb_eq. destruct a, b; cbn. split; [intros [-> ->]; auto | intros [= -> ->]; auto].
Qed.

(* what a Diff says about one prefix: with the prefix stored on the left (or,
   for an added entry, on the right) and the value(s) *)
Inductive report (T : Type) :=
| RRemoved (p : prefix) (v : T)
| RAdded (p : prefix) (v : T)
| RChanged (p : prefix) (v v' : T)
| RUnchanged (p : prefix) (v : T).
Arguments RRemoved {T}. Arguments RAdded {T}. Arguments RChanged {T}. Arguments RUnchanged {T}.

Definition rprefix {T} (x : report T) : prefix :=
  match x with RRemoved p _ | RAdded p _ | RChanged p _ _ | RUnchanged p _ => p end.

(* the one report required for a key, from what is stored for it on either side *)
Definition wanted {T} (g : T -> T -> bool) (l r : option (prefix * T)) : list (report T) :=
  match l, r with
  | None, None => []
  | Some (p, v), None => [RRemoved p v]
  | None, Some (p, v) => [RAdded p v]
  | Some (p, v), Some (_, v') => if g v v' then [RUnchanged p v] else [RChanged p v v']
  end.

(* calling the user's callbacks; a nil callback does nothing and goes on *)
Definition notify {T S} (changed : option (prefix -> T -> T -> S -> S * bool))
           (left right unchanged : option (prefix -> T -> S -> S * bool)) (x : report T) (st : S) : S * bool :=
  match x with
  | RRemoved p v => match left with Some g => g p v st | None => (st, true) end
  | RAdded p v => match right with Some g => g p v st | None => (st, true) end
  | RChanged p v v' => match changed with Some g => g p v v' st | None => (st, true) end
  | RUnchanged p v => match unchanged with Some g => g p v st | None => (st, true) end
  end.

(* run a callback over a list until it first returns false; the boolean says
   whether it never did *)
Fixpoint until_false {A S} (f : A -> S -> S * bool) (l : list A) (st : S) : S * bool :=
  match l with
  | [] => (st, true)
  | x :: l' => let (st', go) := f x st in if go then until_false f l' st' else (st', false)
  end.

(* reports restricted to the entries of one side *)
Definition on_left {T} (x : report T) : bool := match x with RAdded _ _ => false | _ => true end.
Definition on_right {T} (x : report T) : bool := match x with RRemoved _ _ => false | _ => true end.

(* the mapper run over a list of calls, collecting its results *)
Fixpoint calls_run {T S} (f : prefix -> T -> S -> S * T) (L : list (prefix * T)) (st : S) : S * list T :=
  match L with
  | [] => (st, [])
  | (p, v) :: L' => let (st1, x) := f p v st in let (st2, xs) := calls_run f L' st1 in (st2, x :: xs)
  end.
