(* Conc.v - programs that share tables (or sets) between goroutines.

   The concrete machine runs any number of threads, instruction by instruction,
   over one heap of trie nodes, the cells behind the mutable handles (a Table_ is
   a pointer to a tableX, a Set_ a pointer to a Set) and the immutable values
   (Table, Set) obtained so far.  A thread may call anything at any time, so the
   machine covers every client program; a sequential client is the case of one
   thread.  Memory is sequentially consistent; the load of the root pointer, the
   compare-and-swap, and the load or store of one node are single steps.

   The atomic machine is the specification: values instead of pointers, each call
   taking effect in one step between its invocation and its return.

   Both are generic in the calls; ConcTable.v and ConcSet.v instantiate them. *)
From Verif Require Export Heap.

(* what a reply carries *)
Inductive reply (Out : Type) := RPanic | RStuck | ROut (o : Out) | RHandle (c : nat) | RSnap (s : nat).
Arguments RPanic {Out}. Arguments RStuck {Out}. Arguments ROut {Out}. Arguments RHandle {Out}. Arguments RSnap {Out}.

(* where a reading call takes its receiver from: a mutable handle (None = the
   uninitialised one) or an immutable value *)
Inductive src := Cell (h : option nat) | Snap (s : nat).

(* the calls: WOp the modifying methods of the mutable type, ROp the methods that
   return an ordinary value, BOp those that return a new immutable value; args
   are immutable values passed as further arguments *)
Inductive call (E WOp ROp BOp : Type) :=
| KNew (e : E)                                          (* NewTable_, NewTableCustomCompare_, NewSet_ *)
| KWrite (h : option nat) (o : WOp) (args : list nat)
| KRead (x : src) (r : ROp) (args : list nat)
| KBuild (b : BOp) (args : list nat)
| KFreeze (h : option nat)                              (* Table_.Table, Set_.Set *)
| KThaw (s : nat).                                      (* Table.Table_, Set.Set_ *)
Arguments KNew {E WOp ROp BOp}. Arguments KWrite {E WOp ROp BOp}. Arguments KRead {E WOp ROp BOp}.
Arguments KBuild {E WOp ROp BOp}. Arguments KFreeze {E WOp ROp BOp}. Arguments KThaw {E WOp ROp BOp}.

Inductive label (C Out : Type) := Inv (i : nat) (c : C) | Ret (i : nat) (r : reply Out) | Tau.
Arguments Inv {C Out}. Arguments Ret {C Out}. Arguments Tau {C Out}.

(* updating one position *)
Definition put {X} (f : nat -> X) (i : nat) (x : X) : nat -> X := fun j => if Nat.eqb j i then x else f j.
Fixpoint set_nth {X} (l : list X) (i : nat) (x : X) : list X :=
  match l, i with
  | [], _ => []
  | _ :: l', O => x :: l'
  | y :: l', S i' => y :: set_nth l' i' x
  end.
(* the receiver and the arguments of a call *)
Definition receiver {X} (cells snaps : list X) (x : src) : option (option X) :=
  match x with
  | Cell None => Some None
  | Cell (Some c) => option_map Some (nth_error cells c)
  | Snap s => option_map Some (nth_error snaps s)
  end.
Fixpoint arguments {X} (snaps : list X) (a : list nat) : option (list X) :=
  match a with
  | [] => Some []
  | s :: a' =>
    match nth_error snaps s, arguments snaps a' with
    | Some x, Some xs => Some (x :: xs)
    | _, _ => None
    end
  end.
Definition reply_of {Out} (r : res Out) : reply Out :=
  match r with Ok o => ROut o | Panic => RPanic | OutOfFuel => RStuck end.

(* the visible part of an execution *)
Fixpoint visible {C Out} (ls : list (label C Out)) : list (label C Out) :=
  match ls with
  | [] => []
  | Tau :: ls' => visible ls'
  | l :: ls' => l :: visible ls'
  end.

(* the calls that have returned, each with its reply *)
Fixpoint completed {C Out} (pending : nat -> option C) (ls : list (label C Out)) : list (C * reply Out) :=
  match ls with
  | [] => []
  | Inv i k :: ls' => completed (put pending i (Some k)) ls'
  | Ret i r :: ls' =>
    match pending i with
    | Some k => (k, r) :: completed (put pending i None) ls'
    | None => completed pending ls'
    end
  | Tau :: ls' => completed pending ls'
  end.

(* ---------------- the concrete machine ---------------- *)
Section Concrete.
Context {T E WOp ROp BOp Out : Type}.
Notation call := (call E WOp ROp BOp).
Notation value := (ptr * E)%type.   (* a tableX: root pointer and eq; a Set: root pointer *)

(* the heap programs of the calls.  A write yields None (the mutator's ok is
   false) or the new root, and its result. *)
Variable wprog : WOp -> value -> list value -> prog T (option ptr * Out).
Variable rprog : ROp -> option value -> list value -> prog T Out.
Variable bprog : BOp -> list value -> prog T ptr.
(* the eq field: of the zero value, of a built value, of a thawed value *)
Variable zeroE : E.
Variable bext : BOp -> list value -> E.
Variable thawE : E -> E.
(* which calls a client may make (arguments in the domain of the model) *)
Variable call_ok : call -> Prop.

Inductive phase :=
| Called
| Loaded (old : ptr)                                              (* mutate: oldNode := me.m.trie done *)
| Mutating (old : ptr) (m : prog T (option ptr * Out))            (* inside the mutator *)
| Reading (m : prog T Out)
| Building (e : E) (m : prog T ptr)
| Replying (r : reply Out).
Record cstate := mkC {
  c_heap : heap T; c_cells : list value; c_snaps : list value; c_threads : nat -> option (call * phase) }.
Definition c_init : cstate := mkC [] [] [(None, zeroE)] (fun _ => None).

(* one instruction of a heap program *)
Inductive pstep {A} : heap T -> prog T A -> heap T -> prog T A -> Prop :=
| p_alloc h n k : pstep h (Alloc n k) (h ++ [n]) (k (length h))
| p_load h l k n : nth_error h l = Some n -> pstep h (Load l k) h (k n)
| p_fault h l k : nth_error h l = None -> pstep h (Load l k) h (Done Panic)
| p_store h l n k : pstep h (Store l n k) (upd h l n) k.

(* ipv4/tablex.go:67-75 and set.go:37-45 mutate, in three parts: load oldNode
   (c_old), call the mutator, whose first action is to load the root again
   (c_mutator) and which then runs (c_mutate), and finally compare and swap
   (c_keep, c_swap, c_conflict).
   With reread = true, c_mutator may find a root other than oldNode, as in the
   code; with reread = false only executions in which nobody changed the root
   between these two loads are allowed. *)
Inductive cstep (reread : bool) : cstate -> label call Out -> cstate -> Prop :=
| c_invoke h cs ss th i k : th i = None -> call_ok k ->
    cstep reread (mkC h cs ss th) (Inv i k) (mkC h cs ss (put th i (Some (k, Called))))
| c_return h cs ss th i k r : th i = Some (k, Replying r) ->
    cstep reread (mkC h cs ss th) (Ret i r) (mkC h cs ss (put th i None))
| c_new h cs ss th i e : th i = Some (KNew e, Called) ->
    cstep reread (mkC h cs ss th) Tau
      (mkC h (cs ++ [(None, e)]) ss (put th i (Some (KNew e, Replying (RHandle (length cs))))))
| c_freeze h cs ss th i c v : th i = Some (KFreeze (Some c), Called) -> nth_error cs c = Some v ->
    cstep reread (mkC h cs ss th) Tau
      (mkC h cs (ss ++ [v]) (put th i (Some (KFreeze (Some c), Replying (RSnap (length ss))))))
| c_freeze_nil h cs ss th i : th i = Some (KFreeze None, Called) ->
    cstep reread (mkC h cs ss th) Tau
      (mkC h cs (ss ++ [(None, zeroE)]) (put th i (Some (KFreeze None, Replying (RSnap (length ss))))))
| c_thaw h cs ss th i s p e : th i = Some (KThaw s, Called) -> nth_error ss s = Some (p, e) ->
    cstep reread (mkC h cs ss th) Tau
      (mkC h (cs ++ [(p, thawE e)]) ss (put th i (Some (KThaw s, Replying (RHandle (length cs))))))
(* reading calls: load the root once, then traverse *)
| c_read h cs ss th i x r a v vs : th i = Some (KRead x r a, Called) ->
    receiver cs ss x = Some v -> arguments ss a = Some vs ->
    cstep reread (mkC h cs ss th) Tau (mkC h cs ss (put th i (Some (KRead x r a, Reading (rprog r v vs)))))
| c_reading h cs ss th i k m h' m' : th i = Some (k, Reading m) -> pstep h m h' m' ->
    cstep reread (mkC h cs ss th) Tau (mkC h' cs ss (put th i (Some (k, Reading m'))))
| c_read_done h cs ss th i k r : th i = Some (k, Reading (Done r)) ->
    cstep reread (mkC h cs ss th) Tau (mkC h cs ss (put th i (Some (k, Replying (reply_of r)))))
| c_build h cs ss th i b a vs : th i = Some (KBuild b a, Called) -> arguments ss a = Some vs ->
    cstep reread (mkC h cs ss th) Tau
      (mkC h cs ss (put th i (Some (KBuild b a, Building (bext b vs) (bprog b vs)))))
| c_building h cs ss th i k e m h' m' : th i = Some (k, Building e m) -> pstep h m h' m' ->
    cstep reread (mkC h cs ss th) Tau (mkC h' cs ss (put th i (Some (k, Building e m'))))
| c_build_done h cs ss th i k e p : th i = Some (k, Building e (Done (Ok p))) ->
    cstep reread (mkC h cs ss th) Tau
      (mkC h cs (ss ++ [(p, e)]) (put th i (Some (k, Replying (RSnap (length ss))))))
| c_build_panic h cs ss th i k e : th i = Some (k, Building e (Done Panic)) ->
    cstep reread (mkC h cs ss th) Tau (mkC h cs ss (put th i (Some (k, Replying RPanic))))
| c_build_stuck h cs ss th i k e : th i = Some (k, Building e (Done OutOfFuel)) ->
    cstep reread (mkC h cs ss th) Tau (mkC h cs ss (put th i (Some (k, Replying RStuck))))
(* modifying calls *)
| c_write_nil h cs ss th i o a : th i = Some (KWrite None o a, Called) ->
    cstep reread (mkC h cs ss th) Tau (mkC h cs ss (put th i (Some (KWrite None o a, Replying RPanic))))
| c_old h cs ss th i c o a p e : th i = Some (KWrite (Some c) o a, Called) -> nth_error cs c = Some (p, e) ->
    cstep reread (mkC h cs ss th) Tau (mkC h cs ss (put th i (Some (KWrite (Some c) o a, Loaded p))))
| c_mutator h cs ss th i c o a old p e vs : th i = Some (KWrite (Some c) o a, Loaded old) ->
    nth_error cs c = Some (p, e) -> arguments ss a = Some vs -> (reread = false -> p = old) ->
    cstep reread (mkC h cs ss th) Tau
      (mkC h cs ss (put th i (Some (KWrite (Some c) o a, Mutating old (wprog o (p, e) vs)))))
| c_mutate h cs ss th i k old m h' m' : th i = Some (k, Mutating old m) -> pstep h m h' m' ->
    cstep reread (mkC h cs ss th) Tau (mkC h' cs ss (put th i (Some (k, Mutating old m'))))
| c_write_panic h cs ss th i k old : th i = Some (k, Mutating old (Done Panic)) ->
    cstep reread (mkC h cs ss th) Tau (mkC h cs ss (put th i (Some (k, Replying RPanic))))
| c_write_stuck h cs ss th i k old : th i = Some (k, Mutating old (Done OutOfFuel)) ->
    cstep reread (mkC h cs ss th) Tau (mkC h cs ss (put th i (Some (k, Replying RStuck))))
| c_keep_fail h cs ss th i k old out : th i = Some (k, Mutating old (Done (Ok (None, out)))) ->
    cstep reread (mkC h cs ss th) Tau (mkC h cs ss (put th i (Some (k, Replying (ROut out)))))
| c_keep h cs ss th i k old out : th i = Some (k, Mutating old (Done (Ok (Some old, out)))) ->
    cstep reread (mkC h cs ss th) Tau (mkC h cs ss (put th i (Some (k, Replying (ROut out)))))
| c_swap h cs ss th i c o a old new out e :
    th i = Some (KWrite (Some c) o a, Mutating old (Done (Ok (Some new, out)))) -> old <> new ->
    nth_error cs c = Some (old, e) ->
    cstep reread (mkC h cs ss th) Tau
      (mkC h (set_nth cs c (new, e)) ss (put th i (Some (KWrite (Some c) o a, Replying (ROut out)))))
| c_conflict h cs ss th i c o a old new out p e :
    th i = Some (KWrite (Some c) o a, Mutating old (Done (Ok (Some new, out)))) -> old <> new ->
    nth_error cs c = Some (p, e) -> p <> old ->
    cstep reread (mkC h cs ss th) Tau (mkC h cs ss (put th i (Some (KWrite (Some c) o a, Replying RPanic)))).

Inductive cexec (reread : bool) : list (label call Out) -> cstate -> Prop :=
| ce_init : cexec reread [] c_init
| ce_step ls l st st' : cexec reread ls st -> cstep reread st l st' -> cexec reread (ls ++ [l]) st'.

(* thread i is inside the call k *)
Definition inside (st : cstate) (i : nat) (k : call) : Prop := exists ph, c_threads st i = Some (k, ph).
(* no two modifying calls on the same handle overlap *)
Definition one_writer (st : cstate) : Prop :=
  forall i j c o a o' a', inside st i (KWrite (Some c) o a) -> inside st j (KWrite (Some c) o' a') -> i = j.
Inductive cexec1 : list (label call Out) -> cstate -> Prop :=
| ce1_init : cexec1 [] c_init
| ce1_step ls l st st' : cexec1 ls st -> cstep true st l st' -> one_writer st' -> cexec1 (ls ++ [l]) st'.
End Concrete.

(* ---------------- the atomic machine ---------------- *)
(* the effects of the calls, when a value is what a trie denotes *)
Section Effects.
Context {V E WOp ROp BOp Out : Type}.
Notation call := (call E WOp ROp BOp).
(* the calls on values *)
Variable wfun : WOp -> V -> list V -> res (option V * Out).
Variable rfun : ROp -> option V -> list V -> res Out.
Variable bfun : BOp -> list V -> res V -> Prop.
Variable vzero : V.
Variable vnew : E -> V.
Variable vthaw : V -> V.

(* the effect of a call on the contents of all handles and all values so far;
   the last index says whether it stored new contents into a handle *)
Inductive effect (cs ss : list V) : call -> list V -> list V -> reply Out -> bool -> Prop :=
| e_new e : effect cs ss (KNew e) (cs ++ [vnew e]) ss (RHandle (length cs)) false
| e_freeze c v : nth_error cs c = Some v -> effect cs ss (KFreeze (Some c)) cs (ss ++ [v]) (RSnap (length ss)) false
| e_freeze_nil : effect cs ss (KFreeze None) cs (ss ++ [vzero]) (RSnap (length ss)) false
| e_thaw s v : nth_error ss s = Some v -> effect cs ss (KThaw s) (cs ++ [vthaw v]) ss (RHandle (length cs)) false
| e_read x r a v vs : receiver cs ss x = Some v -> arguments ss a = Some vs ->
    effect cs ss (KRead x r a) cs ss (reply_of (rfun r v vs)) false
| e_build b a vs v' : arguments ss a = Some vs -> bfun b vs (Ok v') ->
    effect cs ss (KBuild b a) cs (ss ++ [v']) (RSnap (length ss)) false
| e_build_panic b a vs : arguments ss a = Some vs -> bfun b vs Panic -> effect cs ss (KBuild b a) cs ss RPanic false
| e_build_stuck b a vs : arguments ss a = Some vs -> bfun b vs OutOfFuel -> effect cs ss (KBuild b a) cs ss RStuck false
| e_write_nil o a : effect cs ss (KWrite None o a) cs ss RPanic false
| e_write_same c o a v vs out : nth_error cs c = Some v -> arguments ss a = Some vs -> wfun o v vs = Ok (None, out) ->
    effect cs ss (KWrite (Some c) o a) cs ss (ROut out) false
| e_write c o a v vs v' out : nth_error cs c = Some v -> arguments ss a = Some vs -> wfun o v vs = Ok (Some v', out) ->
    effect cs ss (KWrite (Some c) o a) (set_nth cs c v') ss (ROut out) true
| e_write_panic c o a v vs : nth_error cs c = Some v -> arguments ss a = Some vs -> wfun o v vs = Panic ->
    effect cs ss (KWrite (Some c) o a) cs ss RPanic false
| e_write_stuck c o a v vs : nth_error cs c = Some v -> arguments ss a = Some vs -> wfun o v vs = OutOfFuel ->
    effect cs ss (KWrite (Some c) o a) cs ss RStuck false.

End Effects.

(* the machine, given the effects of the calls *)
Section Atomic.
Context {V E WOp ROp BOp Out : Type}.
Notation call := (call E WOp ROp BOp).
Variable effect : list V -> list V -> call -> list V -> list V -> reply Out -> bool -> Prop.
Variable vzero : V.
Variable call_ok : call -> Prop.

(* a call in progress has not taken effect yet (with a mark whether another
   modifying call on the same handle has taken effect since it was invoked) or it
   has, and its reply is known *)
Inductive status := Waiting (disturbed : bool) | Answered (r : reply Out).
Record astate := mkA { a_cells : list V; a_snaps : list V; a_threads : nat -> option (call * status) }.
Definition a_init : astate := mkA [] [vzero] (fun _ => None).

Definition writes (k : call) (c : nat) : bool :=
  match k with KWrite (Some c') _ _ => Nat.eqb c' c | _ => false end.
(* mark the waiting calls of the threads other than i that modify the handle k modifies *)
Definition disturb (i : nat) (k : call) (th : nat -> option (call * status)) : nat -> option (call * status) :=
  match k with
  | KWrite (Some c) _ _ => fun j =>
    match th j with
    | Some (k', Waiting d) => if negb (Nat.eqb j i) && writes k' c then Some (k', Waiting true) else Some (k', Waiting d)
    | x => x
    end
  | _ => th
  end.

Inductive astep : astate -> label call Out -> astate -> Prop :=
| a_invoke cs ss th i k : th i = None -> call_ok k ->
    astep (mkA cs ss th) (Inv i k) (mkA cs ss (put th i (Some (k, Waiting false))))
| a_perform cs ss th i k d cs' ss' r (stored : bool) : th i = Some (k, Waiting d) -> effect cs ss k cs' ss' r stored ->
    astep (mkA cs ss th) Tau (mkA cs' ss' (put (if stored then disturb i k th else th) i (Some (k, Answered r))))
(* a modifying call may panic, without any effect, but only when disturbed *)
| a_conflict cs ss th i c o a : th i = Some (KWrite (Some c) o a, Waiting true) ->
    astep (mkA cs ss th) Tau (mkA cs ss (put th i (Some (KWrite (Some c) o a, Answered RPanic))))
| a_return cs ss th i k r : th i = Some (k, Answered r) ->
    astep (mkA cs ss th) (Ret i r) (mkA cs ss (put th i None)).

Inductive aexec : list (label call Out) -> astate -> Prop :=
| ae_init : aexec [] a_init
| ae_step ls l st st' : aexec ls st -> astep st l st' -> aexec (ls ++ [l]) st'.
(* the same without conflicts: what a client sees is exactly a sequence of
   atomic calls *)
Inductive aexec1 : list (label call Out) -> astate -> Prop :=
| ae1_init : aexec1 [] a_init
| ae1_step ls l st st' : aexec1 ls st -> astep st l st' ->
    (forall i c o a, a_threads st' i <> Some (KWrite (Some c) o a, Waiting true)) -> aexec1 (ls ++ [l]) st'.
End Atomic.

(* the effects of the calls, given as relations: this is used for specifications,
   in which a value is what a user thinks a table or set is *)
Section SpecEffects.
Context {V E WOp ROp BOp Out : Type}.
Notation call := (call E WOp ROp BOp).
(* a modifying call: the new contents, or None when nothing is stored, and the result *)
Variable wspec : WOp -> V -> list V -> option V -> Out -> Prop.
Variable rspec : ROp -> option V -> list V -> reply Out -> Prop.
(* a building call: the new value, or None when it panics *)
Variable bspec : BOp -> list V -> option V -> Prop.
Variable vzero : V.
Variable vnew : E -> V -> Prop.
Variable vthaw : V -> V -> Prop.
Inductive spec_effect (cs ss : list V) : call -> list V -> list V -> reply Out -> bool -> Prop :=
| se_new e v : vnew e v -> spec_effect cs ss (KNew e) (cs ++ [v]) ss (RHandle (length cs)) false
| se_freeze c v : nth_error cs c = Some v -> spec_effect cs ss (KFreeze (Some c)) cs (ss ++ [v]) (RSnap (length ss)) false
| se_freeze_nil : spec_effect cs ss (KFreeze None) cs (ss ++ [vzero]) (RSnap (length ss)) false
| se_thaw s v v' : nth_error ss s = Some v -> vthaw v v' -> spec_effect cs ss (KThaw s) (cs ++ [v']) ss (RHandle (length cs)) false
| se_read x r a v vs reply : receiver cs ss x = Some v -> arguments ss a = Some vs -> rspec r v vs reply ->
    spec_effect cs ss (KRead x r a) cs ss reply false
| se_build b a vs v' : arguments ss a = Some vs -> bspec b vs (Some v') ->
    spec_effect cs ss (KBuild b a) cs (ss ++ [v']) (RSnap (length ss)) false
| se_build_panic b a vs : arguments ss a = Some vs -> bspec b vs None ->
    spec_effect cs ss (KBuild b a) cs ss RPanic false
| se_write_nil o a : spec_effect cs ss (KWrite None o a) cs ss RPanic false
| se_write_same c o a v vs out : nth_error cs c = Some v -> arguments ss a = Some vs -> wspec o v vs None out ->
    spec_effect cs ss (KWrite (Some c) o a) cs ss (ROut out) false
| se_write c o a v vs v' out : nth_error cs c = Some v -> arguments ss a = Some vs -> wspec o v vs (Some v') out ->
    spec_effect cs ss (KWrite (Some c) o a) (set_nth cs c v') ss (ROut out) true.
End SpecEffects.
