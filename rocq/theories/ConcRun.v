(* ConcRun.v - running the concrete machine of Conc.v along a given schedule, to
   exhibit executions. *)
From Verif Require Export Conc.

Section Run.
Context {T E WOp ROp BOp Out : Type}.
Notation call := (call E WOp ROp BOp).
Notation value := (ptr * E)%type.
Variable wprog : WOp -> value -> list value -> prog T (option ptr * Out).
Variable rprog : ROp -> option value -> list value -> prog T Out.
Variable bprog : BOp -> list value -> prog T ptr.
Variable zeroE : E.
Variable bext : BOp -> list value -> E.
Variable thawE : E -> E.
Variable call_ok : call -> Prop.
Variable rr : bool. (* reread of Conc.v *)
Notation cstep := (cstep wprog rprog bprog zeroE bext thawE call_ok).
Notation cexec := (cexec wprog rprog bprog zeroE bext thawE call_ok).
Notation cexec1 := (cexec1 wprog rprog bprog zeroE bext thawE call_ok).

Inductive act := Call (i : nat) (k : call) | Step (i : nat).
Definition ptr_eqb (p q : ptr) : bool :=
  match p, q with None, None => true | Some x, Some y => Nat.eqb x y | _, _ => false end.
Lemma ptr_eqb_ok p q : if ptr_eqb p q then p = q else p <> q.
Proof. destruct p as [x|], q as [y|]; cbn; try discriminate; auto. destruct (Nat.eqb_spec x y); congruence. Qed.

Definition do_prog {A} (h : heap T) (m : prog T A) : option (heap T * prog T A) :=
  match m with
  | Done _ => None
  | Alloc n k => Some (h ++ [n], k (length h))
  | Load l k => match nth_error h l with Some n => Some (h, k n) | None => Some (h, Done Panic) end
  | Store l n k => Some (upd h l n, k)
  end.
Lemma do_prog_ok {A} h (m : prog T A) h' m' : do_prog h m = Some (h', m') -> pstep h m h' m'.
Proof.
  destruct m; cbn; try discriminate.
  - intros [= <- <-]. constructor.
  - destruct (nth_error h l) eqn:N; intros [= <- <-]; constructor; auto.
  - intros [= <- <-]. constructor.
Qed.

(* one step of thread i; None when it is idle *)
Definition do_step (st : cstate) (i : nat) : option (label call Out * cstate) :=
  let '(mkC h cs ss th) := st in
  let go k ph := Some (Tau, mkC h cs ss (put th i (Some (k, ph)))) in
  match th i with
  | None => None
  | Some (_, Replying r) => Some (Ret i r, mkC h cs ss (put th i None))
  | Some (k, Reading (Done r)) => go k (Replying (reply_of r))
  | Some (k, Reading m) =>
    match do_prog h m with Some (h', m') => Some (Tau, mkC h' cs ss (put th i (Some (k, Reading m')))) | None => None end
  | Some (k, Building e (Done (Ok p))) => Some (Tau, mkC h cs (ss ++ [(p, e)]) (put th i (Some (k, Replying (RSnap (length ss))))))
  | Some (k, Building e (Done Panic)) => go k (Replying RPanic)
  | Some (k, Building e (Done OutOfFuel)) => go k (Replying RStuck)
  | Some (k, Building e m) =>
    match do_prog h m with Some (h', m') => Some (Tau, mkC h' cs ss (put th i (Some (k, Building e m')))) | None => None end
  | Some (KWrite (Some c) o a, Loaded old) =>
    match nth_error cs c, arguments ss a with
    | Some (p, e), Some vs => if rr || ptr_eqb p old then go (KWrite (Some c) o a) (Mutating old (wprog o (p, e) vs)) else None
    | _, _ => None
    end
  | Some (_, Loaded _) => None
  | Some (k, Mutating old (Done Panic)) => go k (Replying RPanic)
  | Some (k, Mutating old (Done OutOfFuel)) => go k (Replying RStuck)
  | Some (k, Mutating old (Done (Ok (None, out)))) => go k (Replying (ROut out))
  | Some (k, Mutating old (Done (Ok (Some new, out)))) =>
    if ptr_eqb old new then go k (Replying (ROut out))
    else
      match k with
      | KWrite (Some c) o a =>
        match nth_error cs c with
        | Some (p, e) =>
          if ptr_eqb p old then Some (Tau, mkC h (set_nth cs c (new, e)) ss (put th i (Some (k, Replying (ROut out)))))
          else go k (Replying RPanic)
        | None => None
        end
      | _ => None
      end
  | Some (k, Mutating old m) =>
    match do_prog h m with Some (h', m') => Some (Tau, mkC h' cs ss (put th i (Some (k, Mutating old m')))) | None => None end
  | Some (k, Called) =>
    match k with
    | KNew e => Some (Tau, mkC h (cs ++ [(None, e)]) ss (put th i (Some (k, Replying (RHandle (length cs))))))
    | KFreeze (Some c) =>
      match nth_error cs c with
      | Some v => Some (Tau, mkC h cs (ss ++ [v]) (put th i (Some (k, Replying (RSnap (length ss))))))
      | None => None
      end
    | KFreeze None => Some (Tau, mkC h cs (ss ++ [(None, zeroE)]) (put th i (Some (k, Replying (RSnap (length ss))))))
    | KThaw s =>
      match nth_error ss s with
      | Some (p, e) => Some (Tau, mkC h (cs ++ [(p, thawE e)]) ss (put th i (Some (k, Replying (RHandle (length cs))))))
      | None => None
      end
    | KRead x r a =>
      match receiver cs ss x, arguments ss a with
      | Some v, Some vs => go k (Reading (rprog r v vs))
      | _, _ => None
      end
    | KBuild b a => match arguments ss a with Some vs => go k (Building (bext b vs) (bprog b vs)) | None => None end
    | KWrite None o a => go k (Replying RPanic)
    | KWrite (Some c) o a => match nth_error cs c with Some (p, e) => go k (Loaded p) | None => None end
    end
  end.
Ltac crush :=
  repeat (match goal with
  | |- context [match ?x with _ => _ end] => destruct x eqn:?
  | |- context [if ?x then _ else _] => destruct x eqn:?
  end; try discriminate);
  try (intros [= <- <-]; subst; econstructor; eauto using do_prog_ok; try discriminate; fail).
Lemma do_step_ok st i l st' : do_step st i = Some (l, st') -> cstep rr st l st'.
Proof.
  destruct st as [h cs ss th]. unfold do_step. destruct (th i) as [[k ph]|] eqn:Ei; [|discriminate].
  destruct ph as [|old|old m|m|e m|r].
  - destruct k as [e|[c|] o a|x r a|b a|[c|]|s]; crush.
  - destruct k as [e|[c|] o a|x r a|b a|[c|]|s]; try discriminate. destruct (nth_error cs c) as [[p e]|] eqn:N; [|discriminate].
    destruct (arguments ss a) as [vs|] eqn:A; [|discriminate]. destruct (rr || ptr_eqb p old) eqn:R; [|discriminate]. intros [= <- <-].
    eapply c_mutator; eauto. intros Q. rewrite Q in R. cbn in R. pose proof (ptr_eqb_ok p old) as Q'. rewrite R in Q'. exact Q'.
  - destruct m as [[[[new|] out]| |]|n k'|x k'|x n k']; try (crush; fail).
    pose proof (ptr_eqb_ok old new) as Q. destruct (ptr_eqb old new).
    + subst new. destruct k as [e|[c|] o a|x r a|b a|[c|]|s]; intros [= <- <-]; eapply c_keep; eauto.
    + destruct k as [e|[c|] o a|x r a|b a|[c|]|s]; try discriminate. destruct (nth_error cs c) as [[p e]|] eqn:N; [|discriminate].
      pose proof (ptr_eqb_ok p old) as Q'. destruct (ptr_eqb p old); intros [= <- <-].
      * subst. eapply c_swap; eauto.
      * eapply c_conflict; eauto.
  - destruct m; crush.
  - destruct m as [[p| |]|n k'|x k'|x n k']; crush.
  - crush.
Qed.
Definition do_act (st : cstate) (x : act) : option (label call Out * cstate) :=
  match x with
  | Call i k =>
    match c_threads st i with
    | None => Some (Inv i k, mkC (c_heap st) (c_cells st) (c_snaps st) (put (c_threads st) i (Some (k, Called))))
    | Some _ => None
    end
  | Step i => do_step st i
  end.
(* steps of an idle thread are skipped *)
Fixpoint run (st : @cstate T E WOp ROp BOp Out) (ls : list (label call Out)) (xs : list act) : option (list (label call Out) * cstate) :=
  match xs with
  | [] => Some (ls, st)
  | x :: xs' => match do_act st x with Some (l, st') => run st' (ls ++ [l]) xs' | None => match x with Step _ => run st ls xs' | _ => None end end
  end.
Definition act_ok (x : act) : Prop := match x with Call i k => call_ok k | Step _ => True end.
Lemma do_act_ok st x l st' : act_ok x -> do_act st x = Some (l, st') -> cstep rr st l st'.
Proof.
  intros A. destruct x as [i k|i]; cbn; [|apply do_step_ok]. destruct (c_threads st i) eqn:Ei; [discriminate|].
  intros [= <- <-]. destruct st as [h cs ss th]. cbn in *. constructor; auto.
Qed.
Lemma run_ok xs : forall st ls ls' st', Forall act_ok xs -> cexec rr ls st -> run st ls xs = Some (ls', st') -> cexec rr ls' st'.
Proof.
  induction xs as [|x xs IH]; cbn; intros st ls ls' st' F X Q; [injection Q as <- <-; auto|].
  inversion F; subst. destruct (do_act st x) as [[l st1]|] eqn:D; [|destruct x; [discriminate|eauto]]. eapply IH; [auto| |exact Q]. econstructor; eauto. eapply do_act_ok; eauto.
Qed.
(* all threads that modify the same handle are the thread w *)
Definition only_writer (w : nat) (x : act) : Prop := match x with Call i (KWrite (Some _) _ _) => i = w | _ => True end.
Hypothesis Hrr : rr = true.
Lemma run_ok1 w xs : forall st ls ls' st', Forall act_ok xs -> Forall (only_writer w) xs ->
  (forall i c o a, inside st i (KWrite (Some c) o a) -> i = w) -> cexec1 ls st -> run st ls xs = Some (ls', st') -> cexec1 ls' st'.
Proof.
  induction xs as [|x xs IH]; cbn; intros st ls ls' st' F G OW X Q; [injection Q as <- <-; auto|].
  inversion F; subst. inversion G; subst. destruct (do_act st x) as [[l st1]|] eqn:D; [|destruct x; [discriminate|eauto]].
  assert (OW1 : forall i c o a, inside st1 i (KWrite (Some c) o a) -> i = w).
  { pose proof (do_act_ok _ _ _ _ H1 D) as S. intros j c o a [ph Hj].
    assert (K : forall i0 k0 (cs0 ss0 : list value) h0 (th : nat -> option (call * phase)) (p0 p1 : phase),
      st = mkC h0 cs0 ss0 th -> th i0 = Some (k0, p0) -> put th i0 (Some (k0, p1)) j = Some (KWrite (Some c) o a, ph) -> j = w).
    { intros i0 k0 cs0 ss0 h0 th p0 p1 -> T1 T2. unfold put in T2. destruct (Nat.eqb_spec j i0) as [->|].
      - injection T2 as -> ->. eapply OW. exists p0. exact T1.
      - eapply OW. exists ph. exact T2. }
    destruct S; cbn [c_threads] in Hj; try (eapply K; eauto; fail).
    - unfold put in Hj. destruct (Nat.eqb_spec j i) as [->|]; [|eapply OW; exists ph; exact Hj].
      injection Hj as -> <-. destruct x as [i' k'|i']; cbn in D.
      + destruct (th i'); [discriminate|]. injection D as -> -> _. exact H3.
      + destruct (th i') as [[k1 p1]|]; [|discriminate]. exfalso. revert D. clear.
        destruct p1 as [|old|old m|m|e m|r]; intros D;
          repeat (match type of D with
          | context [match ?x with _ => _ end] => destruct x
          | context [if ?x then _ else _] => destruct x
          end; try discriminate D).
    - unfold put in Hj. destruct (Nat.eqb_spec j i) as [->|]; [discriminate|]. eapply OW. exists ph. exact Hj. }
  eapply IH; [auto|auto|exact OW1| |exact Q]. econstructor; [exact X|rewrite <- Hrr; eapply do_act_ok; eauto|].
  intros i j c o a o' a' I1 I2. rewrite (OW1 _ _ _ _ I1), (OW1 _ _ _ _ I2). reflexivity.
Qed.
End Run.
Arguments Step {E WOp ROp BOp}. Arguments Call {E WOp ROp BOp}.
