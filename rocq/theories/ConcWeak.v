(* ConcWeak.v - what overlapping modifying calls on one handle may do at most:
   the specification for C38 on every schedule.

   A modifying call looks at the contents of its handle twice.  Its result and
   the contents it may store are those the specification of the call gives for
   the contents at the second look.  At the end it stores them, provided that the
   handle then holds what it held at the first look; or it leaves the handle
   alone, if it was to store just the contents of the first look or if the
   specification stores nothing; or it panics without any effect, but only if
   another modifying call has stored into the handle since the first look.

   All other calls take effect at one moment between invocation and return. *)
From Verif Require Export Conc.

Section Weak.
Context {V E WOp ROp BOp Out : Type}.
Notation call := (call E WOp ROp BOp).
Variable wspec : WOp -> V -> list V -> option V -> Out -> Prop.
Variable rspec : ROp -> option V -> list V -> reply Out -> Prop.
Variable bspec : BOp -> list V -> option V -> Prop.
Variable vzero : V.
Variable vnew : E -> V -> Prop.
Variable vthaw : V -> V -> Prop.
Variable call_ok : call -> Prop.
(* equal contents *)
Variable eqv : V -> V -> Prop.

Inductive wstatus :=
| Pending
| Looked (v0 : V) (moved : bool)                                    (* after the first look *)
| Ready (v0 : V) (moved : bool) (new : option V) (out : Out)        (* after the second look *)
| Settled (r : reply Out).
Record wstate := mkW { w_cells : list V; w_snaps : list V; w_threads : nat -> option (call * wstatus) }.
Definition w_init : wstate := mkW [] [vzero] (fun _ => None).

(* a call has stored into handle c: the calls in progress on c take note *)
Definition note_store (c : nat) (th : nat -> option (call * wstatus)) : nat -> option (call * wstatus) :=
  fun j =>
    match th j with
    | Some (k, Looked v0 _) => if writes k c then Some (k, Looked v0 true) else th j
    | Some (k, Ready v0 _ x out) => if writes k c then Some (k, Ready v0 true x out) else th j
    | _ => th j
    end.

Inductive wstep : wstate -> label call Out -> wstate -> Prop :=
| w_invoke cs ss th i k : th i = None -> call_ok k ->
    wstep (mkW cs ss th) (Inv i k) (mkW cs ss (put th i (Some (k, Pending))))
| w_return cs ss th i k r : th i = Some (k, Settled r) ->
    wstep (mkW cs ss th) (Ret i r) (mkW cs ss (put th i None))
| w_perform cs ss th i k cs' ss' r : th i = Some (k, Pending) -> (forall c, writes k c = false) ->
    spec_effect wspec rspec bspec vzero vnew vthaw cs ss k cs' ss' r false ->
    wstep (mkW cs ss th) Tau (mkW cs' ss' (put th i (Some (k, Settled r))))
| w_look cs ss th i c o a v : th i = Some (KWrite (Some c) o a, Pending) -> nth_error cs c = Some v ->
    wstep (mkW cs ss th) Tau (mkW cs ss (put th i (Some (KWrite (Some c) o a, Looked v false))))
| w_compute cs ss th i c o a v0 moved v vs x out : th i = Some (KWrite (Some c) o a, Looked v0 moved) ->
    nth_error cs c = Some v -> (moved = false -> v = v0) -> arguments ss a = Some vs -> wspec o v vs x out ->
    wstep (mkW cs ss th) Tau (mkW cs ss (put th i (Some (KWrite (Some c) o a, Ready v0 moved x out))))
| w_nothing cs ss th i k v0 moved out : th i = Some (k, Ready v0 moved None out) ->
    wstep (mkW cs ss th) Tau (mkW cs ss (put th i (Some (k, Settled (ROut out)))))
| w_keep cs ss th i k v0 moved v' out : th i = Some (k, Ready v0 moved (Some v') out) -> eqv v' v0 ->
    wstep (mkW cs ss th) Tau (mkW cs ss (put th i (Some (k, Settled (ROut out)))))
| w_store cs ss th i c o a v0 moved v' out v1 : th i = Some (KWrite (Some c) o a, Ready v0 moved (Some v') out) ->
    nth_error cs c = Some v1 -> eqv v1 v0 ->
    wstep (mkW cs ss th) Tau
      (mkW (set_nth cs c v') ss (put (note_store c th) i (Some (KWrite (Some c) o a, Settled (ROut out)))))
| w_panic cs ss th i k v0 v' out : th i = Some (k, Ready v0 true (Some v') out) ->
    wstep (mkW cs ss th) Tau (mkW cs ss (put th i (Some (k, Settled RPanic)))).
Inductive wexec : list (label call Out) -> wstate -> Prop :=
| we_init : wexec [] w_init
| we_step ls l st st' : wexec ls st -> wstep st l st' -> wexec (ls ++ [l]) st'.
End Weak.
