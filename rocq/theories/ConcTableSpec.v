(* ConcTableSpec.v - what the calls on tables mean to a user: the specification
   for the machines of Conc.v, in which a table is a plain map (TableSpec.v).
   Nothing here refers to tries or nodes. *)
From Verif Require Export Conc ConcTable TableSpec.
From Coq Require Import Sorted.

Section Spec.
Variable W : N.
Context {T : Type}.
Variable zeroT : T.
Variable goeq : T -> T -> res bool.
(* the map, when old and new value are taken to be equal (None for the zero
   Table, which has no comparator and is empty), and whether that is a custom
   comparator *)
Record stbl := mkST { st_map : smap T; st_eq : option (T -> T -> bool); st_custom : bool }.
Definition st_zero : stbl := mkST sempty None false.
Definition same (v : stbl) : T -> T -> bool := match st_eq v with Some g => g | None => fun _ _ => true end.
Definition is_equality (g : T -> T -> bool) : Prop := forall x y, g x y = true <-> x = y.

(* NewTable_ compares with ==, NewTableCustomCompare_ with the given function *)
Definition st_new (e : option (comparator T)) (v : stbl) : Prop :=
  st_map v = sempty /\ exists g, st_eq v = Some g /\
  (e = Some (defaultComparator goeq) /\ is_equality g /\ st_custom v = false \/ e = Some (customComparator g) /\ st_custom v = true).
(* Table.Table_ *)
Definition st_thaw (v v' : stbl) : Prop :=
  st_map v' = st_map v /\ st_custom v' = st_custom v /\
  match st_eq v with
  | Some g => st_eq v' = Some g
  | None => exists g, st_eq v' = Some g /\ is_equality g
  end.

Definition has (m : smap T) (p : prefix) : Prop := m (pkey W p) <> None.
(* both halves of p contain an entry *)
Definition both_halves (m : smap T) (p : prefix) : Prop :=
  plen p < W /\ exists q0 q1, wf_prefix W q0 /\ wf_prefix W q1 /\ has m q0 /\ has m q1 /\
  covers W (half W false p) q0 /\ covers W (half W true p) q1.

(* the modifying calls, as in TableSpec.v.  Insert and Update that return false
   store nothing; Remove may also return true when both halves hold entries (C09). *)
Definition t_wspec (o : op T) (v : stbl) (_ : list stbl) (v' : option stbl) (out : tout T) : Prop :=
  exists g, st_eq v = Some g /\
  let (m', x) := sstep W g (st_map v) o in
  match o with
  | OpRemove p =>
    v' = Some (mkST m' (Some g) (st_custom v)) /\
    exists b, out = OWrite (OutBool b) /\ (b = true <-> has (st_map v) (the_prefix p) \/ both_halves (st_map v) (the_prefix p))
  | _ => out = OWrite x /\ v' = match x with OutBool false => None | _ => Some (mkST m' (Some g) (st_custom v)) end
  end.

(* the entries in lexicographic order *)
Definition listing (m : smap T) (L : list (prefix * T)) : Prop :=
  (forall p v, In (p, v) L <-> wf_prefix W p /\ m (pkey W p) = Some (p, v)) /\
  StronglySorted (fun e f => lex_lt W (fst e) (fst f)) L.
(* the reading calls; a call on the uninitialised handle reads an empty map *)
Definition t_rspec (r : t_rop T) (x : option stbl) (ys : list stbl) (rep : reply (tout T)) : Prop :=
  let m := match x with Some v => st_map v | None => sempty end in
  match r with
  | RNumEntries => exists L, listing m L /\ rep = ROut (ONum (N.of_nat (length L) mod 2 ^ 32))
  | RGet p => rep = ROut (match m (pkey W (the_prefix p)) with Some (_, v) => OGet v true | None => OGet zeroT false end)
  | RLongestMatch p =>
    let q := the_prefix p in
    exists v found p', rep = ROut (OMatch v found p') /\
    if (found : bool)
    then wf_prefix W p' /\ covers W p' q /\ m (pkey W p') = Some (p', v) /\
         forall p2, wf_prefix W p2 -> has m p2 -> covers W p2 q -> covers W p2 p'
    else v = zeroT /\ p' = mkPrefix 0 0 /\ forall p2, wf_prefix W p2 -> covers W p2 q -> ~ has m p2
  | RWalk go => exists L, listing m L /\
    rep = ROut (let (l, b) := until_false (fun e st => (st ++ [e], go (st ++ [e]))) L [] in OWalk l b)
  | RDiff hc hl hr hu go =>
    exists v v', x = Some v /\ ys = [v'] /\
    exists R, (forall q, wf_prefix W q ->
       filter (fun x => eqk (pkey W (rprefix x)) (pkey W q)) R = wanted (same v) (st_map v (pkey W q)) (st_map v' (pkey W q))) /\
    Forall (fun x => wf_prefix W (rprefix x)) R /\
    StronglySorted (fun x y => lex_lt W (rprefix x) (rprefix y)) (filter on_left R) /\
    StronglySorted (fun x y => lex_lt W (rprefix x) (rprefix y)) (filter on_right R) /\
    StronglySorted (fun x y => ~ covers W (rprefix y) (rprefix x)) R /\
    rep = ROut (let (l, b) := until_false (fun x st =>
                  if match x with RRemoved _ _ => hl | RAdded _ _ => hr | RChanged _ _ _ => hc | RUnchanged _ _ => hu end
                  then (st ++ [x], go (st ++ [x])) else (st, true)) R [] in ODiff l b)
  end.
(* Map; it panics when it compares the missing value of a prefix that is no
   entry with a custom comparator *)
Definition t_bspec (b : t_bop T) (xs : list stbl) (R : option stbl) : Prop :=
  match b with
  | BMap St mapper st =>
    exists v, xs = [v] /\
    match mapper, R with
    | None, _ => R = Some v
    | Some f, Some v' =>
      st_eq v' = st_eq v /\ st_custom v' = st_custom v /\
      exists calls, StronglySorted (fun x y => lex_lt W (fst x) (fst y)) calls /\
      (forall p x, wf_prefix W p /\ st_map v (pkey W p) = Some (p, x) <-> In (p, x) calls /\ has (st_map v) p) /\
      (forall p x y, In ((p, x), y) (combine calls (snd (calls_run f calls st))) -> has (st_map v) p ->
         st_map v' (pkey W p) = Some (p, if same v x y then x else y)) /\
      (forall q, wf_prefix W q -> has (st_map v') q <-> has (st_map v) q)
    | Some f, None => st_custom v = true /\ exists p, wf_prefix W p /\ ~ has (st_map v) p /\ both_halves (st_map v) p
    end
  end.
Definition t_spec := spec_effect t_wspec t_rspec t_bspec st_zero st_new st_thaw.
End Spec.
Arguments stbl : clear implicits.
