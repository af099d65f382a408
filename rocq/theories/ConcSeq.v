(* ConcSeq.v - programs of one thread: every execution of the machine by a single
   thread is a sequence of calls, one after the other. *)
From Verif Require Export ConcProof.
From Coq Require Import Arith.

(* only thread i makes calls *)
Definition solo {C Out} (i : nat) (ls : list (label C Out)) : Prop :=
  Forall (fun l => match l with Inv j _ => j = i | Ret j _ => j = i | Tau => True end) ls.

Lemma solo_visible {C Out} i (l : list (label C Out)) : solo i (visible l) <-> solo i l.
Proof.
  unfold solo. induction l as [|[j k|j r|] l IH]; cbn [visible]; [reflexivity| | |]; rewrite ?Forall_cons_iff, IH; tauto.
Qed.

(* a sequence of calls with their replies, from no handles and one (zero) value *)
Inductive seq_run {V C Out} (eff : list V -> list V -> C -> list V -> list V -> reply Out -> bool -> Prop) (vzero : V) :
  list (C * reply Out) -> list V -> list V -> Prop :=
| sq_nil : seq_run eff vzero [] [] [vzero]
| sq_call l cs ss k cs' ss' r b : seq_run eff vzero l cs ss -> eff cs ss k cs' ss' r b -> seq_run eff vzero (l ++ [(k, r)]) cs' ss'.

Section Low.
Context {T E WOp ROp BOp Out : Type}.
Notation call := (call E WOp ROp BOp).
Variable wprog : WOp -> (ptr * E) -> list (ptr * E) -> prog T (option ptr * Out).
Variable rprog : ROp -> option (ptr * E) -> list (ptr * E) -> prog T Out.
Variable bprog : BOp -> list (ptr * E) -> prog T ptr.
Variable zeroE : E.
Variable bext : BOp -> list (ptr * E) -> E.
Variable thawE : E -> E.
Variable call_ok : call -> Prop.
Lemma solo_low i ls st : cexec wprog rprog bprog zeroE bext thawE call_ok true ls st -> solo i ls ->
  cexec1 wprog rprog bprog zeroE bext thawE call_ok ls st /\ forall j, j <> i -> c_threads st j = None.
Proof.
  induction 1 as [|ls l st st' Hx IH Hs]; intros F; [split; [constructor|reflexivity]|].
  apply Forall_app in F. destruct F as [F1 F2]. inversion F2; subst. destruct (IH F1) as [I1 I2].
  assert (Q : forall j, j <> i -> c_threads st' j = None).
  { intros j N. specialize (I2 j N). destruct Hs; cbn [c_threads] in *; unfold put; try (destruct (Nat.eqb_spec j i0); [subst; congruence|exact I2]). }
  split; auto. eapply ce1_step; eauto. intros j1 j2 c o a o' a' [p1 H1'] [p2 H2'].
  destruct (Nat.eq_dec j1 i) as [->|N1]; [|rewrite Q in H1' by auto; discriminate].
  destruct (Nat.eq_dec j2 i) as [->|N2]; [reflexivity|rewrite Q in H2' by auto; discriminate].
Qed.
End Low.

Section High.
Context {V E WOp ROp BOp Out : Type}.
Notation call := (call E WOp ROp BOp).
Variable eff : list V -> list V -> call -> list V -> list V -> reply Out -> bool -> Prop.
Variable vzero : V.
Variable call_ok : call -> Prop.
Lemma solo_high i ls a : aexec eff vzero call_ok ls a -> solo i ls ->
  (forall j, j <> i -> a_threads a j = None) /\
  (forall j, pend_after (fun _ => None) ls j = option_map fst (a_threads a j)) /\
  match a_threads a i with
  | None | Some (_, Waiting false) => seq_run eff vzero (completed (fun _ => None) ls) (a_cells a) (a_snaps a)
  | Some (k, Answered r) => seq_run eff vzero (completed (fun _ => None) ls ++ [(k, r)]) (a_cells a) (a_snaps a)
  | Some (_, Waiting true) => False
  end.
Proof.
  induction 1 as [|ls l st st' Hx IH Hs]; intros F; [split; [reflexivity|split; [reflexivity|constructor]]|].
  apply Forall_app in F. destruct F as [F1 F2]. inversion F2; subst. destruct (IH F1) as (I1 & I2 & I3).
  rewrite completed_app. split; [|split].
  - intros j N. specialize (I1 j N). destruct Hs; cbn [a_threads] in *; unfold put; destruct (Nat.eqb_spec j i0); subst; try congruence.
    destruct stored; auto. unfold disturb. destruct k as [|[c|] o x| | | |]; auto. rewrite I1. reflexivity.
  - intros j. rewrite pend_after_app. specialize (I2 j). destruct Hs; cbn [a_threads pend_after] in *; unfold put; destruct (Nat.eqb_spec j i0); subst; auto.
    + rewrite I2, H. reflexivity.
    + rewrite I2. destruct stored; auto. unfold disturb. destruct k as [|[c|] o x| | | |]; auto. destruct (th j) as [[k1 [d1|r1]]|]; auto.
      destruct (negb _ && _); reflexivity.
    + rewrite I2, H. reflexivity.
  - destruct Hs; cbn [a_threads a_cells a_snaps completed] in *.
    + subst i0. rewrite put_same, app_nil_r. rewrite H in I3. exact I3.
    + destruct (Nat.eq_dec i0 i) as [->|N]; [|rewrite I1 in H by auto; discriminate].
      rewrite put_same, app_nil_r. rewrite H in I3. destruct d; [contradiction|]. eapply sq_call; eauto.
    + destruct (Nat.eq_dec i0 i) as [->|N]; [|rewrite I1 in H by auto; discriminate].
      rewrite H in I3. contradiction.
    + subst i0. rewrite put_same. rewrite H in I3. rewrite I2, H. cbn [option_map fst]. exact I3.
Qed.
Lemma solo_seq i ls a : aexec eff vzero call_ok ls a -> solo i ls ->
  exists l cs ss, seq_run eff vzero l cs ss /\ (l = completed (fun _ => None) ls \/ exists x, l = completed (fun _ => None) ls ++ [x]).
Proof.
  intros H F. destruct (solo_high i ls a H F) as (_ & _ & X). destruct (a_threads a i) as [[k [[]|r]]|]; [contradiction|..]; (eexists _, _, _; split; [exact X|eauto]).
Qed.
Lemma seq_run_init l : forall x cs ss, seq_run eff vzero (l ++ [x]) cs ss -> exists cs' ss', seq_run eff vzero l cs' ss'.
Proof. intros x cs ss H. inversion H as [E0|l' cs0 ss0 k cs1 ss1 r b H1 H2 E0]; [destruct l; discriminate|]. apply app_inj_tail in E0. destruct E0 as [<- _]. eauto. Qed.
Lemma solo_calls i ls a : aexec eff vzero call_ok ls a -> solo i ls -> exists cs ss, seq_run eff vzero (completed (fun _ => None) ls) cs ss.
Proof.
  intros H F. destruct (solo_seq i ls a H F) as (l & cs & ss & X & [->|[x ->]]); [eauto|]. eapply seq_run_init; eauto.
Qed.
End High.
