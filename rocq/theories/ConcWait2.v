(* ConcWait2.v - the threads of Conc.v: how many steps of its own a call takes,
   and that it always can take one. *)
From Verif Require Export ConcWait ConcProof.
From Coq Require Import Arith Lia.
Local Open Scope nat_scope.

Section Machine.
Context {T E WOp ROp BOp Out : Type}.
Notation call := (call E WOp ROp BOp).
Notation value := (ptr * E)%type.
Variable wprog : WOp -> value -> list value -> prog T (option ptr * Out).
Variable rprog : ROp -> option value -> list value -> prog T Out.
Variable bprog : BOp -> list value -> prog T ptr.
Variable zeroE : E.
Variable bext : BOp -> list value -> E.
Variable thawE : E -> E.
Variable call_ok : call -> Prop.
Notation cstate := (@cstate T E WOp ROp BOp Out).
Notation phase := (@phase T E Out).
Notation cstep := (cstep wprog rprog bprog zeroE bext thawE call_ok).
Notation cexec := (cexec wprog rprog bprog zeroE bext thawE call_ok).
Notation label := (label call Out).

(* a step of thread i: it changes where thread i is *)
Definition moves (i : nat) (st st' : cstate) : Prop := c_threads st' i <> c_threads st i.
(* the number of steps thread i has taken since its last call began *)
Inductive taken (rr : bool) (i : nat) : list label -> cstate -> nat -> Prop :=
| tk_init : taken rr i [] (c_init zeroE) 0
| tk_call ls st k st' n : taken rr i ls st n -> cstep rr st (Inv i k) st' -> taken rr i (ls ++ [Inv i k]) st' 0
| tk_own ls st l st' n : taken rr i ls st n -> cstep rr st l st' -> (forall k, l <> Inv i k) -> moves i st st' ->
    taken rr i (ls ++ [l]) st' (S n)
| tk_other ls st l st' n : taken rr i ls st n -> cstep rr st l st' -> (forall k, l <> Inv i k) -> ~ moves i st st' ->
    taken rr i (ls ++ [l]) st' n.
(* the handles and immutable values a call refers to exist *)
Definition refers (st : cstate) (k : call) : Prop :=
  match k with
  | KNew _ => True
  | KWrite h o a => (forall c, h = Some c -> c < length (c_cells st)) /\ Forall (fun s => s < length (c_snaps st)) a
  | KRead x r a => match x with Cell (Some c) => c < length (c_cells st) | Cell None => True | Snap s => s < length (c_snaps st) end
      /\ Forall (fun s => s < length (c_snaps st)) a
  | KBuild b a => Forall (fun s => s < length (c_snaps st)) a
  | KFreeze h => forall c, h = Some c -> c < length (c_cells st)
  | KThaw s => s < length (c_snaps st)
  end.

(* an instruction never leaves a program as it was *)
Lemma prog_neq {A} (m : prog T A) : (forall n k l, m = Alloc n k -> k l <> m) /\ (forall l k n, m = Load l k -> k n <> m) /\ (forall l n k, m = Store l n k -> k <> m).
Proof.
  induction m as [r|n k IH|l k IH|l n k IH]; (split; [|split]); intros; try discriminate.
  - injection H as <- <-. intros X. destruct (IH l) as (H1 & _). exact (H1 _ _ l X eq_refl).
  - injection H as <- <-. intros X. destruct (IH n) as (_ & H1 & _). exact (H1 _ _ n X eq_refl).
  - injection H as <- <- <-. intros X. destruct IH as (_ & _ & H1). exact (H1 _ _ _ X eq_refl).
Qed.
Lemma pstep_neq {A} h (m : prog T A) h' m' : pstep h m h' m' -> m' <> m.
Proof.
  destruct 1.
  - apply (proj1 (prog_neq (Alloc n k)) _ _ _ eq_refl).
  - apply (proj1 (proj2 (prog_neq (Load l k))) _ _ _ eq_refl).
  - discriminate.
  - apply (proj2 (proj2 (prog_neq (Store l n k))) _ _ _ eq_refl).
Qed.
Lemma pstep_within {A} s a h (m : prog T A) h' m' : within s a m -> pstep h m h' m' -> exists s', s = S s' /\ within s' a m'.
Proof.
  intros H P. destruct P; inversion H; subst; eexists; (split; [reflexivity|]); auto.
  - eapply wi_mono; eauto.
  - constructor.
Qed.
Lemma pstep_exists {A} h (m : prog T A) : (exists r, m = Done r) \/ exists h' m', pstep h m h' m'.
Proof.
  destruct m as [r|n k|l k|l n k]; [left; eauto|right; do 2 eexists; constructor|right|right; do 2 eexists; constructor].
  destruct (nth_error h l) eqn:En; do 2 eexists; [eapply p_load; eauto|eapply p_fault; eauto].
Qed.

(* bounds for the programs *)
Variable wsteps : WOp -> nat.
Variable rsteps : ROp -> nat.
Variable bsteps : BOp -> nat.
Hypothesis Hw : forall o x vs, exists a, within (wsteps o) a (wprog o x vs).
Hypothesis Hr : forall r x vs, exists a, within (rsteps r) a (rprog r x vs).
Hypothesis Hb : forall b vs, exists a, within (bsteps b) a (bprog b vs).
Definition call_steps (k : call) : nat :=
  match k with
  | KWrite (Some _) o _ => wsteps o + 4
  | KRead _ r _ => rsteps r + 3
  | KBuild b _ => bsteps b + 3
  | _ => 2
  end.
(* what a call has left *)
Definition left (n : nat) (x : call * phase) : Prop :=
  let '(k, ph) := x in
  match ph with
  | Called => call_steps k <= n
  | Loaded _ => exists c o a, k = KWrite (Some c) o a /\ wsteps o + 3 <= n
  | Mutating _ m => exists c o a s al, k = KWrite (Some c) o a /\ within s al m /\ s + 2 <= n
  | Reading m => exists x r a s al, k = KRead x r a /\ within s al m /\ s + 2 <= n
  | Building _ m => exists b a s al, k = KBuild b a /\ within s al m /\ s + 2 <= n
  | Replying _ => 1 <= n
  end.

(* a step changes the place of one thread only *)
Lemma cstep_thread rr st l st' : cstep rr st l st' -> exists i,
  (forall j, j <> i -> c_threads st' j = c_threads st j) /\ moves i st st' /\
  match l with
  | Inv j k => j = i /\ c_threads st i = None /\ c_threads st' i = Some (k, Called)
  | Ret j r => j = i /\ (exists k, c_threads st i = Some (k, Replying r)) /\ c_threads st' i = None
  | Tau => exists k ph ph', c_threads st i = Some (k, ph) /\ c_threads st' i = Some (k, ph') /\
      forall n, left n (k, ph) -> exists n', n = S n' /\ left n' (k, ph')
  end.
Proof.
  intros H. unfold moves.
  destruct H; exists i; cbn [c_threads]; (split; [intros; apply put_other; auto|]); rewrite put_same;
    (split; [try (rewrite H; try discriminate; try (intros X; injection X as X; eapply pstep_neq; eauto; fail); congruence)|]).
  1: { auto. }
  1: { eauto. }
  all: do 3 eexists; (split; [exact H|]); (split; [reflexivity|]); intros n0 L; cbn [left] in L.
  all: try (cbn [left]; unfold call_steps in L; destruct n0 as [|n0]; [lia|]; exists n0; split; [reflexivity|]; lia).
  all: try (unfold call_steps in L; destruct n0 as [|n0]; [lia|]; exists n0; split; [reflexivity|]; cbn [left]; eauto 6; fail).
  - destruct n0 as [|n0]; [cbn in L; lia|]. exists n0. split; auto. cbn [left call_steps] in *. destruct (Hr r v vs) as [al Hal]. exists x, r, a, (rsteps r), al. repeat split; auto. lia.
  - destruct L as (x & r & a & s & al & Ek & Wi & Le). destruct (pstep_within _ _ _ _ _ _ Wi H0) as (s' & -> & Wi').
    destruct n0 as [|n0]; [lia|]. exists n0. split; auto. cbn [left]. exists x, r, a, s', al. repeat split; auto. lia.
  - destruct L as (x & r1 & a & s & al & Ek & Wi & Le). destruct n0 as [|n0]; [lia|]. exists n0. split; auto. cbn. lia.
  - destruct n0 as [|n0]; [cbn in L; lia|]. exists n0. split; auto. cbn [left call_steps] in *. destruct (Hb b vs) as [al Hal]. exists b, a, (bsteps b), al. repeat split; auto. lia.
  - destruct L as (b & a & s & al & Ek & Wi & Le). destruct (pstep_within _ _ _ _ _ _ Wi H0) as (s' & -> & Wi').
    destruct n0 as [|n0]; [lia|]. exists n0. split; auto. cbn [left]. exists b, a, s', al. repeat split; auto. lia.
  - destruct L as (b & a & s & al & Ek & Wi & Le). destruct n0 as [|n0]; [lia|]. exists n0. split; auto. cbn. lia.
  - destruct L as (b & a & s & al & Ek & Wi & Le). destruct n0 as [|n0]; [lia|]. exists n0. split; auto. cbn. lia.
  - destruct L as (b & a & s & al & Ek & Wi & Le). destruct n0 as [|n0]; [lia|]. exists n0. split; auto. cbn. lia.
  - cbn [call_steps] in L. destruct n0 as [|n0]; [lia|]. exists n0. split; auto. cbn [left]. exists c, o, a. split; auto. lia.
  - destruct L as (c1 & o1 & a1 & Ek & Le). injection Ek as <- <- <-. destruct n0 as [|n0]; [lia|]. exists n0. split; auto. cbn [left].
    destruct (Hw o (p, e) vs) as [al Hal]. exists c, o, a, (wsteps o), al. repeat split; auto. lia.
  - destruct L as (c1 & o1 & a1 & s & al & Ek & Wi & Le). destruct (pstep_within _ _ _ _ _ _ Wi H0) as (s' & -> & Wi').
    destruct n0 as [|n0]; [lia|]. exists n0. split; auto. cbn [left]. exists c1, o1, a1, s', al. repeat split; auto. lia.
  - destruct L as (c1 & o1 & a1 & s & al & Ek & Wi & Le). destruct n0 as [|n0]; [lia|]. exists n0. split; auto. cbn. lia.
  - destruct L as (c1 & o1 & a1 & s & al & Ek & Wi & Le). destruct n0 as [|n0]; [lia|]. exists n0. split; auto. cbn. lia.
  - destruct L as (c1 & o1 & a1 & s & al & Ek & Wi & Le). destruct n0 as [|n0]; [lia|]. exists n0. split; auto. cbn. lia.
  - destruct L as (c1 & o1 & a1 & s & al & Ek & Wi & Le). destruct n0 as [|n0]; [lia|]. exists n0. split; auto. cbn. lia.
  - destruct L as (c1 & o1 & a1 & s & al & Ek & Wi & Le). destruct n0 as [|n0]; [lia|]. exists n0. split; auto. cbn. lia.
  - destruct L as (c1 & o1 & a1 & s & al & Ek & Wi & Le). destruct n0 as [|n0]; [lia|]. exists n0. split; auto. cbn. lia.
Qed.

Lemma left_pos n x : left n x -> 1 <= n.
Proof.
  destruct x as [k ph]. destruct ph; cbn [left]; auto.
  - unfold call_steps. destruct k as [|[c|] ? ?| | | |]; lia.
  - intros (c & o & a & _ & H). lia.
  - intros (c & o & a & s & al & _ & _ & H). lia.
  - intros (c & o & a & s & al & _ & _ & H). lia.
  - intros (c & o & a & s & _ & _ & H). lia.
Qed.
Lemma taken_exec rr i ls st n : taken rr i ls st n -> cexec rr ls st.
Proof. induction 1; econstructor; eauto. Qed.
Lemma moves_dec rr i st l st' : cstep rr st l st' -> moves i st st' \/ ~ moves i st st'.
Proof.
  intros H. destruct (cstep_thread _ _ _ _ H) as (j & A & B & _). destruct (Nat.eq_dec i j) as [->|N]; [left; exact B|].
  right. unfold moves. rewrite (A i N). auto.
Qed.
Lemma exec_taken rr i ls st : cexec rr ls st -> exists n, taken rr i ls st n.
Proof.
  induction 1 as [|ls l st st' _ (n & IH) Hs]; [exists 0; constructor|].
  destruct l as [j k|j r|]; [destruct (Nat.eq_dec j i) as [->|N]; [exists 0; econstructor; eauto|]| |];
    (destruct (moves_dec _ i _ _ _ Hs); [exists (S n); eapply tk_own|exists n; eapply tk_other]; eauto; congruence).
Qed.
Lemma taken_left rr i ls st n : taken rr i ls st n -> forall k ph, c_threads st i = Some (k, ph) -> exists m, n + m = call_steps k /\ left m (k, ph).
Proof.
  induction 1 as [|ls st k0 st' n Hx IH Hs|ls st l st' n Hx IH Hs Hl Hm|ls st l st' n Hx IH Hs Hl Hm]; intros k ph Hi.
  - discriminate.
  - destruct (cstep_thread _ _ _ _ Hs) as (j & A & _ & <- & _ & C). rewrite C in Hi. injection Hi as <- <-. exists (call_steps k0). split; auto. cbn. auto.
  - destruct (cstep_thread _ _ _ _ Hs) as (j & A & _ & C). destruct (Nat.eq_dec i j) as [<-|N]; [|exfalso; apply Hm; auto].
    destruct l as [j' k'|j' r'|].
    + destruct C as (-> & _). exfalso. eapply Hl. reflexivity.
    + destruct C as (_ & _ & C). congruence.
    + destruct C as (k1 & ph1 & ph1' & C1 & C2 & C3). rewrite C2 in Hi. injection Hi as -> ->. destruct (IH _ _ C1) as (m & E1 & L).
      destruct (C3 _ L) as (m' & -> & L'). exists m'. split; auto. lia.
  - destruct (cstep_thread _ _ _ _ Hs) as (j & A & B & C). destruct (Nat.eq_dec i j) as [<-|N]; [contradiction|]. rewrite (A i N) in Hi. eauto.
Qed.
(* the number of its own steps a call takes is bounded, on any schedule *)
Theorem bounded_steps rr i ls st n k : taken rr i ls st n -> inside st i k -> n < call_steps k.
Proof.
  intros H [ph Hi]. destruct (taken_left _ _ _ _ _ H _ _ Hi) as (m & E1 & L). apply left_pos in L. lia.
Qed.
Lemma args_exist {X} (ss : list X) a : Forall (fun s => s < length ss) a -> exists vs, arguments ss a = Some vs.
Proof.
  induction 1 as [|s a Hs _ (vs & IH)]; [exists []; auto|]. cbn. rewrite IH. destruct (nth_error ss s) eqn:E1; eauto.
  apply nth_error_None in E1. lia.
Qed.
Lemma nth_exists {X} (l : list X) c : c < length l -> exists x, nth_error l c = Some x.
Proof. intros H. destruct (nth_error l c) eqn:E1; eauto. apply nth_error_None in E1. lia. Qed.
(* and nothing can keep it from taking the next one *)
Lemma can_step n st i k ph : c_threads st i = Some (k, ph) -> left n (k, ph) -> refers st k -> exists l st', cstep true st l st' /\ moves i st st'.
Proof.
  intros Hi L R. destruct st as [h cs ss th]. cbn [c_threads c_cells c_snaps] in *.
  assert (DONE : forall l st', cstep true (mkC h cs ss th) l st' -> c_threads st' i <> Some (k, ph) -> exists l st', cstep true (mkC h cs ss th) l st' /\ moves i (mkC h cs ss th) st').
  { intros l st' H N. exists l, st'. split; auto. unfold moves. cbn [c_threads]. congruence. }
  assert (PN : forall {A} hh (m : prog T A) hh' m', pstep hh m hh' m' -> m' <> m) by (intros; eapply pstep_neq; eauto).
  destruct ph; cbn [left] in L.
  - destruct k as [e|[c|] o a|x r a|b a|[c|]|s]; cbn [refers c_cells c_snaps] in R.
    + eapply DONE; [eapply c_new; eauto|cbn; rewrite put_same; congruence].
    + destruct (nth_exists cs c (proj1 R c eq_refl)) as [[p e] En]. eapply DONE; [eapply c_old; eauto|cbn; rewrite put_same; congruence].
    + eapply DONE; [eapply c_write_nil; eauto|cbn; rewrite put_same; congruence].
    + destruct R as [Rx Ra]. destruct (args_exist ss a Ra) as [vs Ea].
      assert (X : exists v, receiver cs ss x = Some v).
      { destruct x as [[c|]|s]; cbn; eauto; [destruct (nth_exists cs c Rx) as [v ->]|destruct (nth_exists ss s Rx) as [v ->]]; cbn; eauto. }
      destruct X as [v Ev]. eapply DONE; [eapply c_read; eauto|cbn; rewrite put_same; congruence].
    + destruct (args_exist ss a R) as [vs Ea]. eapply DONE; [eapply c_build; eauto|cbn; rewrite put_same; congruence].
    + destruct (nth_exists cs c (R c eq_refl)) as [v Ev]. eapply DONE; [eapply c_freeze; eauto|cbn; rewrite put_same; congruence].
    + eapply DONE; [eapply c_freeze_nil; eauto|cbn; rewrite put_same; congruence].
    + destruct (nth_exists ss s R) as [[p e] Ev]. eapply DONE; [eapply c_thaw; eauto|cbn; rewrite put_same; congruence].
  - destruct L as (c & o & a & -> & _). destruct R as [Rc Ra]. destruct (nth_exists cs c (Rc c eq_refl)) as [[p e] En]. destruct (args_exist ss a Ra) as [vs Ea].
    eapply DONE; [eapply c_mutator; eauto; discriminate|cbn; rewrite put_same; congruence].
  - destruct L as (c & o & a & s & al & -> & _ & _). destruct R as [Rc Ra]. destruct (nth_exists cs c (Rc c eq_refl)) as [[p e] En].
    destruct (pstep_exists h m) as [[r ->]|(h' & m' & P)].
    + destruct r as [[[new|] out]| |].
      * destruct (ptr_dec old new) as [->|N].
        -- eapply DONE; [eapply c_keep; eauto|cbn; rewrite put_same; congruence].
        -- destruct (ptr_dec p old) as [->|N'].
           ++ eapply DONE; [eapply c_swap; eauto|cbn; rewrite put_same; congruence].
           ++ eapply DONE; [eapply c_conflict; eauto|cbn; rewrite put_same; congruence].
      * eapply DONE; [eapply c_keep_fail; eauto|cbn; rewrite put_same; congruence].
      * eapply DONE; [eapply c_write_panic; eauto|cbn; rewrite put_same; congruence].
      * eapply DONE; [eapply c_write_stuck; eauto|cbn; rewrite put_same; congruence].
    + eapply DONE; [eapply c_mutate; eauto|cbn; rewrite put_same]. intros X. injection X as X. exact (PN _ _ _ _ _ P X).
  - destruct (pstep_exists h m) as [[r ->]|(h' & m' & P)].
    + eapply DONE; [eapply c_read_done; eauto|cbn; rewrite put_same; congruence].
    + eapply DONE; [eapply c_reading; eauto|cbn; rewrite put_same]. intros X. injection X as X. exact (PN _ _ _ _ _ P X).
  - destruct (pstep_exists h m) as [[r ->]|(h' & m' & P)].
    + destruct r as [p| |].
      * eapply DONE; [eapply c_build_done; eauto|cbn; rewrite put_same; congruence].
      * eapply DONE; [eapply c_build_panic; eauto|cbn; rewrite put_same; congruence].
      * eapply DONE; [eapply c_build_stuck; eauto|cbn; rewrite put_same; congruence].
    + eapply DONE; [eapply c_building; eauto|cbn; rewrite put_same]. intros X. injection X as X. exact (PN _ _ _ _ _ P X).
  - eapply DONE; [eapply c_return; eauto|cbn; rewrite put_same; congruence].
Qed.
Theorem never_blocked ls st i k : cexec true ls st -> inside st i k -> refers st k -> exists l st', cstep true st l st' /\ moves i st st'.
Proof.
  intros H [ph Hi] R. destruct (exec_taken _ i _ _ H) as [n Tn]. destruct (taken_left _ _ _ _ _ Tn _ _ Hi) as (m & _ & L). eapply can_step; eauto.
Qed.
Lemma refers_step rr st l st' k : cstep rr st l st' -> refers st k -> refers st' k.
Proof.
  intros H. assert (G : length (c_cells st) <= length (c_cells st') /\ length (c_snaps st) <= length (c_snaps st')).
  { destruct H; cbn [c_cells c_snaps]; rewrite ?app_length; try lia.
    assert (X : forall (l : list value) c x, length (set_nth l c x) = length l) by (clear; induction l as [|y l IH]; intros [|c] x; cbn; auto). rewrite X. lia. }
  destruct G as [Gc Gs].
  assert (FA : forall a, Forall (fun s => s < length (c_snaps st)) a -> Forall (fun s => s < length (c_snaps st')) a).
  { intros a. apply Forall_impl. intros; lia. }
  destruct k as [e|h o a|[[c|]|s] r a|b a|h|s]; cbn; intros R; auto; try (intuition (eauto; lia)).
  - destruct R as [R1 R2]. split; auto. intros c Hc. specialize (R1 c Hc). lia.
  - intros c Hc. specialize (R c Hc). lia.
Qed.
(* steps of thread i only *)
Inductive alone (i : nat) : cstate -> list label -> cstate -> Prop :=
| al_nil st : alone i st [] st
| al_step st l st1 ls st2 : cstep true st l st1 -> moves i st st1 -> alone i st1 ls st2 -> alone i st (l :: ls) st2.
Lemma finish n : forall st i k ph, c_threads st i = Some (k, ph) -> left n (k, ph) -> refers st k ->
  exists m r st', alone i st (repeat Tau m ++ [Ret i r]) st' /\ m < n.
Proof.
  induction n as [|n IH]; intros st i k ph Hi L R; [apply left_pos in L; lia|].
  destruct (can_step _ _ _ _ _ Hi L R) as (l & st1 & Hs & Hm). destruct (cstep_thread _ _ _ _ Hs) as (j & A & _ & C).
  destruct (Nat.eq_dec i j) as [<-|N]; [|exfalso; apply Hm; auto]. destruct l as [j' k'|j' r'|].
  - destruct C as (_ & C & _). congruence.
  - destruct C as (-> & _ & C). exists 0, r', st1. split; [|lia]. cbn. econstructor; eauto. constructor.
  - destruct C as (k1 & ph1 & ph1' & C1 & C2 & C3). rewrite C1 in Hi. injection Hi as -> ->. destruct (C3 _ L) as (n' & En & L'). injection En as <-.
    destruct (IH st1 i k ph1' C2 L' (refers_step _ _ _ _ _ Hs R)) as (m & r & st' & Al & Lt). exists (S m), r, st'. split; [|lia]. cbn. econstructor; eauto.
Qed.
(* so that it can always finish on its own, within the bound *)
Theorem finishes_alone ls st i k n : taken true i ls st n -> inside st i k -> refers st k ->
  exists m r st', alone i st (repeat Tau m ++ [Ret i r]) st' /\ n + m < call_steps k.
Proof.
  intros H [ph Hi] R. destruct (taken_left _ _ _ _ _ H _ _ Hi) as (b & E1 & L). destruct (finish _ _ _ _ _ Hi L R) as (m & r & st' & Al & Lt).
  exists m, r, st'. split; auto. lia.
Qed.
End Machine.
