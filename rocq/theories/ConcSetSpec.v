(* ConcSetSpec.v - what the calls on sets mean to a user: the specification for
   the machines of Conc.v, in which a set is a mathematical set of addresses.
   Nothing here refers to tries or nodes. *)
From Verif Require Export Conc ConcSet SetSpec.
From Coq Require Import Sorted.

Section Spec.
Variable W : N.
(* the addresses; and whether all prefixes put in were without host bits, which
   matters to Equal only (C25) *)
Record mset := mkSS { ss_mem : N -> Prop; ss_plain : bool }.
Definition ss_zero : mset := mkSS (fun _ => False) true.
Definition ss_new (_ : unit) (v : mset) : Prop := v = ss_zero.
Definition ss_thaw (v v' : mset) : Prop := v' = v.

(* the set an argument stands for; the conversion of a centred range yields the
   surrounding block instead (C29) *)
Definition ss_arg (x : s_arg) (vs : list mset) (v : mset) : Prop :=
  match x with
  | ANil => v = ss_zero
  | AAddress b => v = mkSS (fun a => a = b) true
  | APrefix p => v = mkSS (in_prefix W p) (paddr p =? net W p)
  | ARange r =>
    ~ centred W r /\ v = mkSS (in_range r) true \/
    exists k b y, 0 < y /\ y < 2 ^ (k - 1) /\ 0 < k /\ k <= W /\
      rfirst r = b * 2 ^ k + y /\ rlast r + y + 1 = (b + 1) * 2 ^ k /\
      v = mkSS (fun a => b * 2 ^ k <= a /\ a < (b + 1) * 2 ^ k) false
  | ASet => vs = [v]
  end.
Definition ss_union (u v : mset) : mset := mkSS (fun a => ss_mem u a \/ ss_mem v a) (ss_plain u && ss_plain v).
Definition ss_inter (u v : mset) : mset := mkSS (fun a => ss_mem u a /\ ss_mem v a) (ss_plain u && ss_plain v).
Definition ss_diff (u v : mset) : mset := mkSS (fun a => ss_mem u a /\ ~ ss_mem v a) (ss_plain u).

Definition s_wspec (o : s_wop) (v : mset) (vs : list mset) (v' : option mset) (out : sout) : Prop :=
  out = SUnit /\
  match o with
  | WInsert x => exists w, ss_arg x vs w /\ v' = Some (ss_union v w)
  | WRemove x => exists w, ss_arg x vs w /\ v' = Some (ss_diff v w)
  end.
(* the reading calls; the uninitialised handle reads as an empty set.  The
   number of addresses is that of any duplicate-free listing. *)
Definition s_rspec (r : s_rop) (x : option mset) (vs : list mset) (rep : reply sout) : Prop :=
  let v := match x with Some v => v | None => ss_zero end in
  match r with
  | RNumAddresses => exists l, NoDup l /\ (forall a, In a l <-> ss_mem v a) /\ rep = ROut (SNum (N.of_nat (length l)))
  | RIsEmpty => exists b, rep = ROut (SBool b) /\ (b = true <-> forall a, ~ ss_mem v a)
  | RContains y => exists w b, ss_arg y vs w /\ rep = ROut (SBool b) /\ (b = true <-> forall a, ss_mem w a -> ss_mem v a)
  | REqual => exists w b, vs = [w] /\ rep = ROut (SBool b) /\ (b = true -> forall a, ss_mem v a <-> ss_mem w a) /\
      (ss_plain v = true -> ss_plain w = true -> (forall a, ss_mem v a <-> ss_mem w a) -> b = true)
  | RWalkPrefixes go => exists l, Forall (wf_prefix W) l /\ exactly W l (ss_mem v) /\
      StronglySorted (fun p q => forall a b, in_prefix W p a -> in_prefix W q b -> a < b) l /\
      (forall l', Forall (wf_prefix W) l' -> exactly W l' (ss_mem v) -> (length l <= length l')%nat) /\
      (ss_plain v = true -> Forall (canonical W) l) /\
      rep = ROut (let (xs, b) := until_false (fun p st => (st ++ [p], go (st ++ [p]))) l [] in SPrefixes xs b)
  | RWalkRanges go => exists l, Forall (wf_range W) l /\ separated l /\ (forall a, in_ranges l a <-> ss_mem v a) /\
      rep = ROut (let (xs, b) := until_false (fun p st => (st ++ [p], go (st ++ [p]))) l [] in SRanges xs b)
  | RFindAvailablePrefix ANil n => rep = RPanic
  | RFindAvailablePrefix y n => exists w, ss_arg y vs w /\
      let free := fun a => ss_mem v a /\ ~ ss_mem w a in
      exists res, rep = ROut (SFound res) /\
      (n <= W ->
       match res with
       | Some q => plen q = n /\ wf_prefix W q /\ canonical W q /\ prefix_in W free q /\
           exists p, wf_prefix W p /\ maximal W free p /\ plen p <= n /\ paddr q = net W p /\
             forall p', wf_prefix W p' -> maximal W free p' -> plen p' <= n ->
               plen p' < plen p \/ plen p' = plen p /\ net W p <= net W p'
       | None => ~ exists q, wf_prefix W q /\ plen q = n /\ prefix_in W free q
       end)
  end.
Definition s_bspec (b : s_bop) (vs : list mset) (R : option mset) : Prop :=
  match b, vs with
  | BSet x, _ => exists w, ss_arg x vs w /\ R = Some w
  | BUnion x, v :: vs' => exists w, ss_arg x vs' w /\ R = Some (ss_union v w)
  | BIntersection x, v :: vs' => exists w, ss_arg x vs' w /\ R = Some (ss_inter v w)
  | BDifference x, v :: vs' => exists w, ss_arg x vs' w /\ R = Some (ss_diff v w)
  | _, _ => False
  end.
Definition s_spec := spec_effect s_wspec s_rspec s_bspec ss_zero ss_new ss_thaw.
End Spec.
