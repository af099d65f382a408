(* PropsWeak.v - C38 on every schedule, as far as it goes, and C49: whatever
   overlaps, no call gets stuck and a call panics only for a reason. *)
From Verif Require Export PropsConc ConcWeakProof.
From Coq Require Import Arith.

Section Overlap.
Context {E WOp ROp BOp Out : Type}.
Notation call := (call E WOp ROp BOp).
Notation trace := (list (label call Out)).
Notation nobody := (fun _ : nat => @None call).
(* the call that thread i is inside of after ls *)
Definition current (ls : trace) (i : nat) : option call := pend_after nobody ls i.
(* while thread i's present call was in progress, so was another thread's
   modifying call on handle c *)
Definition overlapped (ls : trace) (i c : nat) : Prop :=
  exists ls1 ls2 j k, ls = ls1 ++ ls2 /\ j <> i /\ current ls1 j = Some k /\ writes k c = true /\
  current ls1 i <> None /\ forall r, ~ In (Ret i r) ls2.

Lemma current_snoc ls l i : current (ls ++ [l]) i =
  match l with Inv j k => if Nat.eqb i j then Some k else current ls i | Ret j r => if Nat.eqb i j then None else current ls i | Tau => current ls i end.
Proof. unfold current. rewrite pend_after_app. destruct l; reflexivity. Qed.
Lemma overlapped_snoc ls i c l : overlapped ls i c -> (forall r, l <> Ret i r) -> overlapped (ls ++ [l]) i c.
Proof.
  intros (ls1 & ls2 & j & k & -> & N & A & B & C & D) H. exists ls1, (ls2 ++ [l]), j, k. rewrite app_assoc. repeat split; auto.
  intros r Hr. apply in_app_or in Hr. destruct Hr as [Hr|[Hr|[]]]; [eapply D; eauto|eapply H; eauto].
Qed.
Lemma overlapped_now ls i c j k k' : j <> i -> current ls j = Some k -> writes k c = true -> current ls i = Some k' -> overlapped ls i c.
Proof. intros. exists ls, [], j, k. rewrite app_nil_r. repeat split; auto. congruence. Qed.
Lemma overlapped_visible ls i c : overlapped ls i c -> overlapped (visible ls) i c.
Proof.
  assert (PV : forall (l : trace) j, current (visible l) j = current l j).
  { intros l j. unfold current. generalize nobody. induction l as [|x l IH]; intros f; auto. destruct x; cbn; auto. }
  intros (ls1 & ls2 & j & k & -> & N & A & B & C & D). exists (visible ls1), (visible ls2), j, k. rewrite visible_app, !PV. repeat split; auto.
  intros r Hr. apply (D r). clear -Hr. induction ls2 as [|x l IH]; auto. destruct x; cbn in *; intuition.
Qed.
End Overlap.

Section Weak.
Context {V E WOp ROp BOp Out : Type}.
Notation call := (call E WOp ROp BOp).
Variable wspec : WOp -> V -> list V -> option V -> Out -> Prop.
Variable rspec : ROp -> option V -> list V -> reply Out -> Prop.
Variable bspec : BOp -> list V -> option V -> Prop.
Variable vzero : V.
Variable vnew : E -> V -> Prop.
Variable vthaw : V -> V -> Prop.
Variable call_ok : call -> Prop.
Variable eqv : V -> V -> Prop.
Notation wexec := (wexec wspec rspec bspec vzero vnew vthaw call_ok eqv).
Notation wstatus := (@wstatus V Out).
Variable good : call -> reply Out -> Prop.
Hypothesis Hgood : forall cs ss k cs' ss' r b, call_ok k -> (forall c, writes k c = false) ->
  spec_effect wspec rspec bspec vzero vnew vthaw cs ss k cs' ss' r b -> good k r.

Definition reply_fine (ls : list (label call Out)) (i : nat) (k : call) (r : reply Out) : Prop :=
  match k with
  | KWrite (Some c) o a => (exists out, r = ROut out) \/ r = RPanic /\ overlapped ls i c
  | _ => good k r
  end.
Definition thread_fine (ls : list (label call Out)) (i : nat) (x : option (call * wstatus)) : Prop :=
  match x with
  | Some (k, s) => call_ok k /\
    match s with
    | Pending => True
    | Looked v0 mv => exists c o a, k = KWrite (Some c) o a /\ (mv = true -> overlapped ls i c)
    | Ready v0 mv y out => exists c o a, k = KWrite (Some c) o a /\ (mv = true -> overlapped ls i c)
    | Settled r => reply_fine ls i k r
    end
  | None => True
  end.
Lemma thread_fine_snoc ls l i x : thread_fine ls i x -> (forall r, l <> Ret i r) -> thread_fine (ls ++ [l]) i x.
Proof.
  intros H N. unfold thread_fine in *. destruct x as [[k s]|]; auto. destruct H as [Hk H]. split; auto. destruct s; auto.
  - destruct H as (c & o & a & -> & H). exists c, o, a. split; auto. intros X. apply overlapped_snoc; auto.
  - destruct H as (c & o & a & -> & H). exists c, o, a. split; auto. intros X. apply overlapped_snoc; auto.
  - unfold reply_fine in *. destruct k as [|[c|] o a| | | |]; auto. destruct H as [H|[H Ho]]; auto. right. split; auto. apply overlapped_snoc; auto.
Qed.
Lemma weak_replies ls w : wexec ls w ->
  (forall i, current ls i = option_map fst (w_threads w i)) /\
  (forall i, thread_fine ls i (w_threads w i)) /\
  forall l1 i r l2 k, ls = l1 ++ Ret i r :: l2 -> current l1 i = Some k -> reply_fine l1 i k r.
Proof.
  induction 1 as [|ls l st st' Hx (P1 & P2 & P3) Hs].
  { split; [auto|]. split; [intros i; exact I|]. intros [|] ? ? ? ? ?; discriminate. }
  assert (C1 : forall i, current (ls ++ [l]) i = option_map fst (w_threads st' i)).
  { intros j. rewrite current_snoc. specialize (P1 j). destruct Hs; cbn [w_threads] in *; unfold put; destruct (Nat.eqb_spec j i) as [->|]; auto;
      try (rewrite P1, H; reflexivity).
    rewrite P1. unfold note_store. destruct (th j) as [[k1 [| | |]]|]; auto; cbn; destruct (writes k1 c); auto. }
  split; [exact C1|]. split.
  - assert (KEEP : forall j, (forall r, l <> Ret j r) -> thread_fine (ls ++ [l]) j (w_threads st j)) by (intros j Hj; apply thread_fine_snoc; auto).
    assert (NI : l = Tau -> forall j r, l <> Ret j r) by (intros -> j r; discriminate).
    intros j. destruct Hs; cbn [w_threads] in *; unfold put; destruct (Nat.eqb_spec j i) as [->|Nj];
      try (apply KEEP; try (apply NI; reflexivity); try discriminate; congruence); try exact I.
    + cbn. auto.
    + specialize (P2 i). rewrite H in P2. cbn in *. destruct P2 as [Hk _]. split; auto. unfold reply_fine. pose proof (Hgood _ _ _ _ _ _ _ Hk H0 H1) as G.
      destruct k as [|[c|] o a| | | |]; auto. specialize (H0 c). cbn in H0. rewrite Nat.eqb_refl in H0. discriminate.
    + specialize (P2 i). rewrite H in P2. cbn in *. destruct P2 as [Hk _]. split; auto. exists c, o, a. split; auto. discriminate.
    + specialize (KEEP i). rewrite H in KEEP. cbn in KEEP. destruct KEEP as [Hk (c' & o' & a' & Ek & Ho)]; [discriminate|]. cbn. eauto 8.
    + specialize (KEEP i). rewrite H in KEEP. cbn in KEEP. destruct KEEP as [Hk (c' & o' & a' & -> & Ho)]; [discriminate|]. cbn. eauto 8.
    + specialize (KEEP i). rewrite H in KEEP. cbn in KEEP. destruct KEEP as [Hk (c' & o' & a' & -> & Ho)]; [discriminate|]. cbn. eauto 8.
    + specialize (KEEP i). rewrite H in KEEP. cbn in KEEP. destruct KEEP as [Hk (c' & o' & a' & Ek & Ho)]; [discriminate|]. cbn. eauto 8.
    + (* somebody else stored *)
      specialize (KEEP j). unfold note_store.
      assert (OV : forall k', option_map fst (th j) = Some k' -> overlapped (ls ++ [Tau]) j c).
      { intros k' Ek. apply (overlapped_now _ j c i (KWrite (Some c) o a) k'); auto.
        - rewrite current_snoc, (P1 i), H. reflexivity.
        - cbn. apply Nat.eqb_refl.
        - rewrite current_snoc, (P1 j). exact Ek. }
      destruct (th j) as [[k1 [|v2 mv1|v2 mv1 x1 out1|r1]]|] eqn:Ej; try (apply KEEP; discriminate); try exact I.
      * destruct (writes k1 c) eqn:Ew; [|apply KEEP; discriminate]. destruct KEEP as [Hk (c' & o' & a' & -> & Ho)]; [discriminate|].
        cbn. split; auto. exists c', o', a'. split; auto. intros _. cbn in Ew. apply Nat.eqb_eq in Ew. subst c'. eapply OV. reflexivity.
      * destruct (writes k1 c) eqn:Ew; [|apply KEEP; discriminate]. destruct KEEP as [Hk (c' & o' & a' & -> & Ho)]; [discriminate|].
        cbn. split; auto. exists c', o', a'. split; auto. intros _. cbn in Ew. apply Nat.eqb_eq in Ew. subst c'. eapply OV. reflexivity.
    + specialize (KEEP i). rewrite H in KEEP. cbn in KEEP. destruct KEEP as [Hk (c' & o' & a' & -> & Ho)]; [discriminate|]. cbn. split; auto.
  - intros l1 i r l2 k El Hk. destruct l2 as [|y l2'] using rev_ind.
    + apply app_inj_tail in El. destruct El as [<- ->]. inversion Hs; subst. specialize (P2 i). cbn in P2. rewrite H3 in P2. cbn in P2.
      pose proof (P1 i) as Q. cbn in Q. rewrite H3 in Q. cbn in Q. rewrite Q in Hk. injection Hk as ->. apply P2.
    + rewrite app_comm_cons, app_assoc in El. apply app_inj_tail in El. destruct El as [-> _]. eapply P3; eauto.
Qed.
(* the same, seen from outside *)
Lemma weak_replies_visible als w (ls : list (label call Out)) : wexec als w -> visible als = visible ls ->
  forall l1 i r l2 k, ls = l1 ++ Ret i r :: l2 -> current l1 i = Some k -> 
  match k with
  | KWrite (Some c) o a => (exists out, r = ROut out) \/ r = RPanic /\ overlapped (visible l1) i c
  | _ => good k r
  end.
Proof.
  intros Hw Ev l1 i r l2 k -> Hk. destruct (weak_replies als w Hw) as (_ & _ & P).
  rewrite visible_app in Ev. cbn in Ev.
  assert (SP : forall (v1 v2 : list (label call Out)) x, visible als = v1 ++ x :: v2 -> exists a1 a2, als = a1 ++ x :: a2 /\ visible a1 = v1).
  { clear. induction als as [|y l IH]; intros v1 v2 x Hv; [destruct v1; discriminate|]. destruct y as [j c|j c|]; cbn in Hv.
    1,2: destruct v1 as [|z v1]; injection Hv as E1 E2; [subst x; eexists [], l; split; reflexivity|];
      subst z; destruct (IH _ _ _ E2) as (a1 & a2 & -> & <-); eexists (_ :: a1), a2; split; reflexivity.
    destruct (IH _ _ _ Hv) as (a1 & a2 & -> & <-). exists (Tau :: a1), a2. split; reflexivity. }
  destruct (SP _ _ _ Ev) as (a1 & a2 & Ea & Eb).
  assert (PV : forall (l : list (label call Out)) j, current (visible l) j = current l j).
  { intros l j. unfold current. generalize (fun _ : nat => @None call). induction l as [|x l IH]; intros f; auto. destruct x; cbn; auto. }
  assert (Hk' : current a1 i = Some k) by (rewrite <- PV, Eb, PV; exact Hk).
  pose proof (P _ _ _ _ _ Ea Hk') as Q. unfold reply_fine in Q. destruct k as [|[c|] o a| | | |]; auto.
  destruct Q as [Q|[Q Ho]]; auto. right. split; auto. apply overlapped_visible in Ho. rewrite Eb in Ho. exact Ho.
Qed.
End Weak.

(* ---------------- tables ---------------- *)
Section Tables.
Variable W : N.
Hypothesis IPW : ip_width W.
Context {T : Type}.
Variable zeroT : T.
Variable box : T -> option T.
Hypothesis Hbox : forall v, unbox zeroT (box v) = v.
Variable goeq : T -> T -> res bool.
Hypothesis Hgoeq : forall x y, exists b, goeq x y = Ok b /\ (b = true <-> x = y).
Notation t_call_ok := (t_call_ok W box goeq).
Notation tcall := (call (option (comparator T)) (op T) (t_rop T) (t_bop T)).
Notation trace := (list (label tcall (tout T))).
Notation table_exec := (table_exec W zeroT box goeq).

(* the same entries *)
Definition same_entries (v w : stbl T) : Prop := forall q, wf_prefix W q -> st_map v (pkey W q) = st_map w (pkey W q).
Definition table_weak := wexec (t_wspec W) (t_rspec W zeroT) (t_bspec W) st_zero (st_new goeq) st_thaw t_call_ok same_entries.

(* C38, what holds on every schedule *)
Theorem C38_tables_any_schedule : forall rr ls st, table_exec rr ls st -> exists als a, table_weak als a /\ visible als = visible ls.
Proof.
  intros rr ls st H. apply cexec_cex in H.
  pose proof (table_programs W IPW zeroT box Hbox goeq Hgoeq) as PT. pose proof (table_meets W IPW zeroT box Hbox goeq Hgoeq) as MT.
  destruct (low_all _ _ _ _ _ _ _ _ _ _ _ _ _ _ _ _ _ PT (fun _ _ => O) _ false _ _ _ (fun _ X => no_true X) H) as (ms & m & F & O & Hm & Ev & _).
  assert (HE : forall v w w', TRc W zeroT box goeq v w -> TRc W zeroT box goeq v w' -> same_entries w w').
  { intros v w w' [(_ & R & _) _] [(_ & R' & _) _] q Hq.
  rewrite <- (stored_rel W IPW zeroT box Hbox _ v q R Hq), <- (stored_rel W IPW zeroT box Hbox _ v q R' Hq). reflexivity. }
  destruct (weak_sim _ _ _ _ _ _ _ _ _ _ _ _ _ _ _ same_entries MT HE _ _ _ Hm) as (als & w & Hw & Ea & _). exists als, w. split; [exact Hw|congruence].
Qed.
(* C49: on every schedule, every call that returns gives an ordinary reply, except
   that a modifying call panics on the uninitialised handle and may panic when
   another modifying call on the same handle overlapped it, and that Map may
   panic (with a custom comparator) *)
Theorem C49_tables_replies : forall rr ls st l1 i r l2 k, table_exec rr ls st ->
  ls = l1 ++ Ret i r :: l2 -> current l1 i = Some k ->
  match k with
  | KNew _ | KThaw _ => exists h, r = RHandle h
  | KFreeze _ => exists s, r = RSnap s
  | KRead _ _ _ => exists out, r = ROut out
  | KBuild _ _ => (exists s, r = RSnap s) \/ r = RPanic
  | KWrite None _ _ => r = RPanic
  | KWrite (Some c) _ _ => (exists out, r = ROut out) \/ r = RPanic /\ overlapped (visible l1) i c
  end.
Proof.
  intros rr ls st l1 i r l2 k H El Hk. destruct (C38_tables_any_schedule _ _ _ H) as (als & a & Ha & Ev).
  set (good := fun (k : tcall) (r : reply (tout T)) => match k with
    | KNew _ | KThaw _ => exists h, r = RHandle h
    | KFreeze _ => exists s, r = RSnap s
    | KRead _ _ _ => exists out, r = ROut out
    | KBuild _ _ => (exists s, r = RSnap s) \/ r = RPanic
    | KWrite None _ _ => r = RPanic
    | KWrite (Some c) _ _ => True end).
  assert (HG : forall cs ss k cs' ss' r b, t_call_ok k -> (forall c, writes k c = false) ->
    spec_effect (t_wspec W) (t_rspec W zeroT) (t_bspec W) st_zero (st_new goeq) st_thaw cs ss k cs' ss' r b -> good k r).
  { clear. intros cs ss k cs' ss' r b Hk Hw He. destruct He; cbn; eauto.
    - cbn in H1. destruct r; cbn in H1; repeat match goal with X : exists _, _ |- _ => destruct X | X : _ /\ _ |- _ => destruct X end; subst; eauto. }
  pose proof (weak_replies_visible _ _ _ _ _ _ _ _ good HG als a ls Ha Ev l1 i r l2 k El Hk) as X.
  destruct k as [|[c|] o x| | | |]; exact X.
Qed.
End Tables.

(* ---------------- sets ---------------- *)
Section Sets.
Variable W : N.
Hypothesis IPW : ip_width W.
Notation scall := (call unit s_wop s_rop s_bop).
Notation set_exec := (set_exec W).
(* the same addresses *)
Definition same_addresses (v w : mset) : Prop := forall a, ss_mem v a <-> ss_mem w a.
Definition set_weak := wexec (s_wspec W) (s_rspec W) (s_bspec W) ss_zero ss_new ss_thaw (s_call_ok W) same_addresses.
Theorem C38_sets_any_schedule : forall rr ls st, set_exec rr ls st -> exists als a, set_weak als a /\ visible als = visible ls.
Proof.
  intros rr ls st H. apply cexec_cex in H.
  pose proof (set_programs W IPW) as PT. pose proof (set_meets W IPW) as MT.
  destruct (low_all _ _ _ _ _ _ _ _ _ _ _ _ _ _ _ _ _ PT (fun _ _ => O) _ false _ _ _ (fun _ X => no_true X) H) as (ms & m & F & O & Hm & Ev & _).
  assert (HE : forall v w w', SR W v w -> SR W v w' -> same_addresses w w').
  { intros v w w' (_ & R & _) (_ & R' & _) a. rewrite <- R, <- R'. tauto. }
  destruct (weak_sim _ _ _ _ _ _ _ _ _ _ _ _ _ _ _ same_addresses MT HE _ _ _ Hm) as (als & w & Hw & Ea & _). exists als, w. split; [exact Hw|congruence].
Qed.
(* FindAvailablePrefix panics when the reserved set is nil *)
Theorem C49_sets_replies : forall rr ls st l1 i r l2 k, set_exec rr ls st ->
  ls = l1 ++ Ret i r :: l2 -> current l1 i = Some k ->
  match k with
  | KNew _ | KThaw _ => exists h, r = RHandle h
  | KFreeze _ => exists s, r = RSnap s
  | KRead _ (RFindAvailablePrefix ANil _) _ => r = RPanic
  | KRead _ _ _ => exists out, r = ROut out
  | KBuild _ _ => exists s, r = RSnap s
  | KWrite None _ _ => r = RPanic
  | KWrite (Some c) _ _ => (exists out, r = ROut out) \/ r = RPanic /\ overlapped (visible l1) i c
  end.
Proof.
  intros rr ls st l1 i r l2 k H El Hk. destruct (C38_sets_any_schedule _ _ _ H) as (als & a & Ha & Ev).
  set (good := fun (k : scall) (r : reply sout) => match k with
    | KNew _ | KThaw _ => exists h, r = RHandle h
    | KFreeze _ => exists s, r = RSnap s
    | KRead _ (RFindAvailablePrefix ANil _) _ => r = RPanic
    | KRead _ _ _ => exists out, r = ROut out
    | KBuild _ _ => exists s, r = RSnap s
    | KWrite None _ _ => r = RPanic
    | KWrite (Some c) _ _ => True end).
  assert (HG : forall cs ss k cs' ss' r b, s_call_ok W k -> (forall c, writes k c = false) ->
    spec_effect (s_wspec W) (s_rspec W) (s_bspec W) ss_zero ss_new ss_thaw cs ss k cs' ss' r b -> good k r).
  { clear. intros cs ss k cs' ss' r b Hk Hw He. destruct He; cbn; eauto.
    - cbn in H1. destruct r; cbn in H1; try destruct x0; repeat match goal with X : exists _, _ |- _ => destruct X | X : _ /\ _ |- _ => destruct X end; subst; eauto.
    - cbn in H0. unfold s_bspec in H0. destruct b, vs; repeat match goal with X : exists _, _ |- _ => destruct X | X : _ /\ _ |- _ => destruct X end; try discriminate; contradiction. }
  pose proof (weak_replies_visible _ _ _ _ _ _ _ _ good HG als a ls Ha Ev l1 i r l2 k El Hk) as X.
  destruct k as [|[c|] o x| | | |]; exact X.
Qed.
End Sets.
