(* ExConc.v - C38 refuted, for tables and for sets, and a non-trivial execution
   for the hypotheses of C37 and C38. *)
From Verif Require Export PropsConc.
From Coq Require Import Arith ZifyBool ZifyNat ZifyN.

Notation goeqN := (fun x y : N => Ok (N.eqb x y)).
Lemma goeqN_ok : forall x y, exists b, goeqN x y = Ok b /\ (b = true <-> x = y).
Proof. intros x y. exists (x =? y). split; auto. apply N.eqb_eq. Qed.
Lemma box_ok : forall v : N, unbox 0 (Some v) = v. Proof. reflexivity. Qed.

(* ---- tables ---- *)
Definition tcall := call (option (comparator N)) (op N) (t_rop N) (t_bop N).
Notation trun := (run (t_wprog 32 0 (@Some N) goeqN) (t_rprog 32 0) (t_bprog 32 0 (@Some N) goeqN) None t_bext (t_thaw goeqN) true).
Definition nd : option (comparator N) := Some (defaultComparator goeqN).
Definition Y : option prefix := Some (mkPrefix 167772161 32).       (* 10.0.0.1/32 *)
Definition schedule : list (act (E := option (comparator N)) (WOp := op N) (ROp := t_rop N) (BOp := t_bop N)) :=
  Call 0 (KNew nd) :: repeat (Step 0) 2 ++
  (* thread 1 begins to remove Y and loads the root *)
  [Call 1 (KWrite (Some 0%nat) (OpRemove Y) []); Step 1] ++
  (* thread 2 inserts Y *)
  Call 2 (KWrite (Some 0%nat) (OpInsert Y 7) []) :: repeat (Step 2) 30 ++
  (* thread 1 goes on *)
  repeat (Step 1) 30 ++
  Call 0 (KRead (Cell (Some 0%nat)) (RGet Y) []) :: repeat (Step 0) 10.
Definition kNew : tcall := KNew nd.
Definition kRemove : tcall := KWrite (Some 0%nat) (OpRemove Y) [].
Definition kInsert : tcall := KWrite (Some 0%nat) (OpInsert Y 7) [].
Definition kGet : tcall := KRead (Cell (Some 0%nat)) (RGet Y) [].
Definition yes : reply (tout N) := ROut (OWrite (OutBool true)).
(* what the schedule shows: Insert and Remove of Y overlap, both succeed, and
   afterwards Y is still there *)
Definition lost : list (label tcall (tout N)) :=
  [Inv 0 kNew; Ret 0 (RHandle 0); Inv 1 kRemove; Inv 2 kInsert; Ret 2 yes; Ret 1 yes;
   Inv 0 kGet; Ret 0 (ROut (OGet 7 true))].
Lemma lost_exec : exists ls st, table_exec 32 0 (@Some N) goeqN true ls st /\ visible ls = lost.
Proof.
  assert (X : option_map (fun x => visible (fst x)) (trun (c_init None) [] schedule) = Some lost) by (vm_compute; reflexivity).
  destruct (trun (c_init None) [] schedule) as [[ls st]|] eqn:E; [|discriminate].
  exists ls, st. split.
  - eapply run_ok; [|apply ce_init|exact E].
    assert (WF : wf_prefix 32 (mkPrefix 167772161 32)) by (split; vm_compute; congruence).
    apply Forall_forall. intros x Hx. unfold schedule in Hx. cbn in Hx.
    repeat (destruct Hx as [<-|Hx]; [cbn; auto; fail|]). contradiction.
  - cbn in X. congruence.
Qed.

(* In the specification Remove can only have returned true after Insert took
   effect, and then Get finds nothing. *)
Definition hasY (v : stbl N) : Prop := has 32 (st_map v) (the_prefix Y).
Notation tsp := (t_spec 32 0 goeqN).
Lemma eff_new cs ss cs' ss' r b : tsp cs ss kNew cs' ss' r b -> exists v, cs' = cs ++ [v] /\ ~ hasY v.
Proof. intros H. inversion H; subst. exists v. split; auto. match goal with X : st_new _ _ _ |- _ => destruct X as (X & _); unfold hasY, has; rewrite X; auto end. Qed.
Ltac one_cell := cbn in *; repeat match goal with
  | X : nth_error [_] _ = Some _ |- _ => cbn in X; injection X as <-
  | X : Some _ = Some _ |- _ => injection X as <-
  end.
Lemma eff_remove v ss cs' ss' r b : tsp [v] ss kRemove cs' ss' r b -> exists v', cs' = [v'] /\ ~ hasY v' /\ (r = yes -> hasY v).
Proof.
  assert (NB : ~ both_halves 32 (st_map v) (the_prefix Y)) by (intros [X _]; cbn in X; lia).
  intros H. inversion H; subst; one_cell; match goal with X : t_wspec _ _ _ _ _ _ |- _ => destruct X as (g & _ & Q) end.
  - destruct Q as [[=] _].
  - destruct Q as ([= ->] & b0 & -> & B). eexists. split; [reflexivity|]. split.
    + unfold hasY, has. cbn [st_map]. unfold sset. rewrite (proj2 (eqk_spec _ _) eq_refl). auto.
    + intros [= ->]. destruct (proj1 B eq_refl); [auto|contradiction].
Qed.
Lemma eff_insert v ss cs' ss' r b : tsp [v] ss kInsert cs' ss' r b -> exists v', cs' = [v'].
Proof. intros H. inversion H; subst; cbn in *; eauto. Qed.
Lemma eff_get v ss cs' ss' r b : tsp [v] ss kGet cs' ss' r b -> cs' = [v] /\ (r = ROut (OGet 7 true) -> hasY v).
Proof.
  intros H. inversion H; subst. split; auto. one_cell. intros ->. unfold hasY, has. cbn.
  match goal with X : ROut _ = ROut _ |- _ => revert X end. destruct (st_map v _) as [[p x]|]; [congruence|discriminate].
Qed.
Section Marks.
Context {E WOp ROp BOp Out : Type}.
Notation call := (call E WOp ROp BOp).
Lemma dist_answered (s : bool) i (k : call) (th : nat -> option (call * @status Out)) j k' r :
  (if s then disturb i k th else th) j = Some (k', Answered r) <-> th j = Some (k', Answered r).
Proof.
  destruct s; [|reflexivity]. unfold disturb. destruct k as [|[c|] o x| | | |]; try reflexivity.
  destruct (th j) as [[k1 [d|r1]]|]; try reflexivity. destruct (negb _ && _); split; discriminate.
Qed.
Lemma dist_waiting (s : bool) i (k : call) (th : nat -> option (call * @status Out)) j k' :
  (exists d, (if s then disturb i k th else th) j = Some (k', Waiting d)) <-> exists d, th j = Some (k', Waiting d).
Proof.
  destruct s; [|reflexivity]. unfold disturb. destruct k as [|[c|] o x| | | |]; try reflexivity.
  destruct (th j) as [[k1 [d|r1]]|]; try reflexivity. destruct (negb _ && _); split; intros [d' [= -> _]]; eauto.
Qed.
End Marks.
Notation tstate := (@astate (stbl N) (option (comparator N)) (op N) (t_rop N) (t_bop N) (tout N)).
(* after the first n events of lost *)
Definition J (n : nat) (a : tstate) : Prop :=
  let cs := a_cells a in let th := a_threads a in
  let rem := th 1%nat = Some (kRemove, Answered yes) in
  match n with
  | 0%nat => cs = []
  | 1%nat => (exists d, th 0%nat = Some (kNew, Waiting d)) /\ cs = [] \/ (exists r v, th 0%nat = Some (kNew, Answered r) /\ cs = [v] /\ ~ hasY v)
  | 2%nat => exists v, cs = [v] /\ ~ hasY v
  | 3%nat => exists v, cs = [v] /\ ~ hasY v /\ ~ rem
  | 4%nat => exists v, cs = [v] /\ (rem -> ~ hasY v /\ exists r, th 2%nat = Some (kInsert, Answered r)) /\
                       ((exists d, th 2%nat = Some (kInsert, Waiting d)) -> ~ hasY v)
  | 5%nat => exists v, cs = [v] /\ (rem -> ~ hasY v)
  | 6%nat => exists v, cs = [v] /\ ~ hasY v
  | 7%nat => exists v, cs = [v] /\ ~ hasY v /\ th 0%nat <> Some (kGet, Answered (ROut (OGet 7 true)))
  | _ => False
  end.
(* the calls in progress after n events *)
Definition pend (n : nat) : nat -> option tcall := pend_after (fun _ => None) (firstn n lost).
Lemma J_tau n cs ss th cs' ss' th' : (forall i, option_map fst (th i) = pend n i) -> J n (mkA cs ss th) ->
  astep tsp (t_call_ok 32 (@Some N) goeqN) (mkA cs ss th) Tau (mkA cs' ss' th') -> J n (mkA cs' ss' th').
Proof.
  intros P H S. inversion S; subst.
  - match goal with X : th i = Some (k, _), X' : _ cs ss k cs' ss' r stored |- _ => rename X into Ti, X' into Ef end.
    assert (Pi := P i). rewrite Ti in Pi. cbn in Pi.
    assert (D1 := fun j k' r => dist_answered stored i k th j k' r). assert (D2 := fun j k' => dist_waiting stored i k th j k').
    destruct n as [|[|[|[|[|[|[|[|n]]]]]]]]; cbn in Pi.
    + discriminate.
    + unfold put in Pi. destruct (Nat.eqb_spec i 0) as [->|N]; [|discriminate]. injection Pi as ->.
      cbn [J a_cells a_threads] in *. right. destruct H as [(_ & ->)|(r0 & v & T & _)]; [|congruence].
      destruct (eff_new _ _ _ _ _ _ Ef) as (v & -> & Hv). exists r, v. rewrite put_same. auto.
    + unfold put in Pi. destruct (i =? 0)%nat; discriminate.
    + unfold put in Pi. destruct (Nat.eqb_spec i 1) as [->|N]; [|destruct (i =? 0)%nat; discriminate]. injection Pi as ->.
      cbn [J a_cells a_threads] in *. destruct H as (v & -> & Hv & Hn). destruct (eff_remove _ _ _ _ _ _ Ef) as (v' & -> & Hv' & Hr).
      exists v'. split; auto. split; auto. rewrite put_same. intros [= ->]. auto.
    + cbn [J a_cells a_threads] in *. destruct H as (v & -> & H1 & H2).
      unfold put in Pi. destruct (Nat.eqb_spec i 2) as [->|N2]; [|destruct (Nat.eqb_spec i 1) as [->|N1]; [|destruct (i =? 0)%nat; discriminate]]; injection Pi as ->.
      * destruct (eff_insert _ _ _ _ _ _ Ef) as (v' & ->). exists v'. split; auto. rewrite put_same, put_other by lia. split.
        -- intros Q. apply D1 in Q. destruct (H1 Q) as (_ & r0 & T). congruence.
        -- intros [d0 [=]].
      * destruct (eff_remove _ _ _ _ _ _ Ef) as (v' & -> & Hv' & Hr). exists v'. split; auto. rewrite put_same, put_other by lia. split; [|auto].
        intros [= ->]. split; auto. specialize (Hr eq_refl). pose proof (P 2%nat) as P2. cbn in P2.
        destruct (th 2%nat) as [[k2 [d2|r2]]|] eqn:T2; try discriminate; cbn in P2; injection P2 as ->.
        -- exfalso. apply H2; eauto.
        -- exists r2. apply D1. exact T2.
    + cbn [J a_cells a_threads] in *. destruct H as (v & -> & H1).
      unfold put in Pi. destruct (Nat.eqb_spec i 2) as [->|N2]; [discriminate|destruct (Nat.eqb_spec i 1) as [->|N1]; [|destruct (i =? 0)%nat; discriminate]]; injection Pi as ->.
      destruct (eff_remove _ _ _ _ _ _ Ef) as (v' & -> & Hv' & Hr). exists v'. auto.
    + unfold put in Pi. destruct (i =? 2)%nat, (i =? 1)%nat, (i =? 0)%nat; discriminate.
    + cbn [J a_cells a_threads] in *. destruct H as (v & -> & H1 & H2).
      unfold put in Pi. destruct (Nat.eqb_spec i 0) as [->|N0]; [|destruct (i =? 2)%nat, (i =? 1)%nat; discriminate]. injection Pi as ->.
      destruct (eff_get _ _ _ _ _ _ Ef) as (-> & Hr). exists v. split; auto. split; auto. rewrite put_same. intros [= ->]. auto.
    + cbn [J] in H. contradiction.
  - match goal with X : th i = Some _ |- _ => rename X into Ti end. assert (Pi := P i). rewrite Ti in Pi. cbn in Pi.
    destruct n as [|[|[|[|[|[|[|[|n]]]]]]]]; cbn in Pi; try discriminate; cbn [J a_cells a_threads] in *.
    + unfold put in Pi. destruct (Nat.eqb_spec i 0); discriminate.
    + unfold put in Pi. destruct (Nat.eqb_spec i 0); discriminate.
    + destruct H as (v & -> & H1 & H2). exists v. split; auto. split; auto. unfold put. destruct (1 =? i)%nat; [discriminate|auto].
    + destruct H as (v & -> & H1 & H2). exists v. split; auto. unfold put. split.
      * destruct (Nat.eqb_spec 1 i) as [|N]; [discriminate|]. intros Q. destruct (H1 Q) as (A & r0 & B). split; auto. destruct (Nat.eqb_spec 2 i) as [<-|]; eauto. congruence.
      * destruct (2 =? i)%nat; [intros [? [=]]|auto].
    + destruct H as (v & -> & H1). exists v. split; auto. unfold put. destruct (1 =? i)%nat; [discriminate|auto].
    + unfold put in Pi. destruct (i =? 2)%nat, (i =? 1)%nat, (i =? 0)%nat; discriminate.
    + unfold put in Pi. destruct (i =? 2)%nat, (i =? 1)%nat, (i =? 0)%nat; discriminate.
    + contradiction.
Qed.
Lemma firstn_snoc {X} (l : list X) : forall n v x, (n <= length l)%nat -> v ++ [x] = firstn n l ->
  exists m, n = S m /\ v = firstn m l /\ nth_error l m = Some x.
Proof.
  induction l as [|y l IH]; intros [|n] v x L E; cbn in *; try (destruct v; discriminate).
  destruct v as [|z v]; cbn in E; injection E as -> E.
  - exists 0%nat. cbn. repeat split; auto. destruct n; auto. destruct l; cbn in *; [lia|discriminate].
  - destruct (IH n v x ltac:(lia) E) as (m & -> & -> & N). exists (S m). auto.
Qed.
Lemma pend_visible {C Out} (ls : list (label C Out)) : forall f i, pend_after f (visible ls) i = pend_after f ls i.
Proof. induction ls as [|[i k|i r|] ls IH]; intros f j; cbn; auto. Qed.
Lemma J_all als a : table_spec 32 0 (@Some N) goeqN als a -> forall n, (n <= 8)%nat -> visible als = firstn n lost -> J n a.
Proof.
  induction 1 as [|ls l st st' Hx IH Hs]; intros n Ln E.
  - destruct n; [reflexivity|discriminate].
  - assert (P := proj1 (replies_good tsp st_zero _ (fun _ _ => True) ltac:(intros; exact I) ltac:(intros; exact I) _ _ Hx)).
    destruct st as [cs ss th]. destruct st' as [cs' ss' th']. cbn [a_threads] in P. rewrite visible_app in E.
    assert (P' : forall m, visible ls = firstn m lost -> forall i, option_map fst (th i) = pend m i).
    { intros m Em i. unfold pend. rewrite <- Em, pend_visible. auto. }
    destruct l as [i k|i r|]; cbn [visible] in E.
    + destruct (firstn_snoc lost n _ _ Ln E) as (m & -> & Em & Nm). specialize (P' m Em). specialize (IH m ltac:(lia) Em).
      inversion Hs; subst.
      do 8 (try destruct m as [|m]); cbn in Nm; try discriminate; try lia; injection Nm as <- <-; cbn [J a_cells a_threads] in *; rewrite ?put_same, ?put_other by lia.
      * left. eauto.
      * destruct IH as (v & -> & Hv). exists v. split; auto. split; auto. discriminate.
      * destruct IH as (v & -> & Hv & Hr). exists v. split; auto. split; [tauto|auto].
      * destruct IH as (v & -> & Hv). exists v. split; auto. split; auto. discriminate.
    + destruct (firstn_snoc lost n _ _ Ln E) as (m & -> & Em & Nm). specialize (P' m Em). specialize (IH m ltac:(lia) Em).
      inversion Hs; subst. match goal with X : th i = Some _ |- _ => rename X into Ti end. assert (Pi := P' i). rewrite Ti in Pi. cbn in Pi.
      do 8 (try destruct m as [|m]); cbn in Nm; try discriminate; try lia; injection Nm as <- <-; cbn [J a_cells a_threads] in *; cbn in Pi; injection Pi as ->;
        rewrite ?put_same, ?put_other by lia.
      * destruct IH as [((d & X) & _)|(r & v & _ & IH)]; [congruence|eauto].
      * destruct IH as (v & -> & H1 & _). exists v. split; auto. intros Q. apply H1. exact Q.
      * destruct IH as (v & -> & H1). exists v. auto.
      * destruct IH as (v & -> & Hv & Hr). contradiction.
    + rewrite app_nil_r in E. eapply J_tau; [apply P'; exact E| |exact Hs]. apply IH; auto.
Qed.
(* C38 fails: an execution of the code that no interleaving of atomic calls,
   not even one with panics of overlapping writers, explains *)
Theorem C38_tables_refuted : exists ls st, table_exec 32 0 (@Some N) goeqN true ls st /\
  ~ exists als a, table_spec 32 0 (@Some N) goeqN als a /\ visible als = visible ls.
Proof.
  destruct lost_exec as (ls & st & H & E). exists ls, st. split; auto. intros (als & a & Ha & Ev).
  apply (J_all als a Ha 8); auto. rewrite Ev, E. reflexivity.
Qed.

(* ---- sets ---- *)
Definition scall := call unit s_wop s_rop s_bop.
Notation srun := (run (s_wprog 32) (s_rprog 32) (s_bprog 32) tt s_bext s_thaw true).
Definition addrA : N := 167772161.   (* 10.0.0.1 *)
Definition addrB : N := 167772162.   (* 10.0.0.2 *)
Definition sNew : scall := KNew tt.
Definition sInsertA : scall := KWrite (Some 0%nat) (WInsert (AAddress addrA)) [].
Definition sInsertB : scall := KWrite (Some 0%nat) (WInsert (AAddress addrB)) [].
Definition sRemoveB : scall := KWrite (Some 0%nat) (WRemove (AAddress addrB)) [].
Definition sContains : scall := KRead (Cell (Some 0%nat)) (RContains (AAddress addrB)) [].
Definition s_schedule : list (act (E := unit) (WOp := s_wop) (ROp := s_rop) (BOp := s_bop)) :=
  Call 0 sNew :: repeat (Step 0) 2 ++
  (* thread 1 begins to insert A: it loads the root, nil *)
  [Call 1 sInsertA; Step 1] ++
  (* thread 2 inserts B *)
  Call 2 sInsertB :: repeat (Step 2) 40 ++
  (* thread 1 loads the root again, {B} *)
  [Step 1] ++
  (* thread 2 removes B: the root is nil again *)
  Call 2 sRemoveB :: repeat (Step 2) 40 ++
  (* thread 1 finds the root unchanged and stores {A, B} *)
  repeat (Step 1) 80 ++
  Call 0 sContains :: repeat (Step 0) 40.
Definition s_lost : list (label scall sout) :=
  [Inv 0 sNew; Ret 0 (RHandle 0); Inv 1 sInsertA; Inv 2 sInsertB; Ret 2 (ROut SUnit); Inv 2 sRemoveB; Ret 2 (ROut SUnit);
   Ret 1 (ROut SUnit); Inv 0 sContains; Ret 0 (ROut (SBool true))].
Lemma s_lost_exec : exists ls st, set_exec 32 true ls st /\ visible ls = s_lost.
Proof.
  assert (X : option_map (fun x => visible (fst x)) (srun (c_init tt) [] s_schedule) = Some s_lost) by (vm_compute; reflexivity).
  destruct (srun (c_init tt) [] s_schedule) as [[ls st]|] eqn:E; [|discriminate].
  exists ls, st. split.
  - eapply run_ok; [|apply ce_init|exact E].
    assert (WA : wf_addr 32 addrA) by (vm_compute; reflexivity). assert (WB : wf_addr 32 addrB) by (vm_compute; reflexivity).
    apply Forall_forall. intros x Hx. unfold s_schedule in Hx. cbn in Hx.
    repeat (destruct Hx as [<-|Hx]; [cbn; auto; fail|]). contradiction.
  - cbn in X. congruence.
Qed.
Notation ssp := (s_spec 32).
Definition hasB (v : mset) : Prop := ss_mem v addrB.
Lemma s_eff_new cs ss cs' ss' r b : ssp cs ss sNew cs' ss' r b -> exists v, cs' = cs ++ [v].
Proof. intros H. inversion H; subst. eauto. Qed.
Lemma s_eff_write v ss o a cs' ss' r b : ssp [v] ss (KWrite (Some 0%nat) o a) cs' ss' r b -> exists v', cs' = [v'] /\
  (o = WInsert (AAddress addrA) -> ~ hasB v -> ~ hasB v') /\ (o = WRemove (AAddress addrB) -> ~ hasB v').
Proof.
  intros H. inversion H; subst; one_cell; match goal with X : s_wspec _ _ _ _ _ _ |- _ => destruct X as [_ Q] end.
  - destruct o as [x|x]; destruct Q as (w & _ & [=]).
  - exists v'. split; auto. split.
    + intros -> N. destruct Q as (w & A & [= ->]). cbn in A. subst w. unfold hasB in *. cbn. intros [|]; [auto|discriminate].
    + intros ->. destruct Q as (w & A & [= ->]). cbn in A. subst w. unfold hasB. cbn. intros [_ X]. apply X. reflexivity.
Qed.
Lemma s_eff_contains v ss cs' ss' r b : ssp [v] ss sContains cs' ss' r b -> cs' = [v] /\ (r = ROut (SBool true) -> hasB v).
Proof.
  intros H. inversion H; subst. split; auto. one_cell. intros ->. match goal with X : exists w b, _ |- _ => destruct X as (w & b & A & [= <-] & B) end. subst w.
  apply (proj1 B); reflexivity.
Qed.
Notation sstate := (@astate mset unit s_wop s_rop s_bop sout).
Definition K (n : nat) (a : sstate) : Prop :=
  let cs := a_cells a in let th := a_threads a in
  match n with
  | 0%nat => cs = []
  | 1%nat => (exists d, th 0%nat = Some (sNew, Waiting d)) /\ cs = [] \/ (exists r v, th 0%nat = Some (sNew, Answered r) /\ cs = [v])
  | 2%nat | 3%nat | 4%nat | 5%nat => exists v, cs = [v]
  | 6%nat => exists v, cs = [v] /\ (th 2%nat = Some (sRemoveB, Answered (ROut SUnit)) -> ~ hasB v)
  | 7%nat | 8%nat => exists v, cs = [v] /\ ~ hasB v
  | 9%nat => exists v, cs = [v] /\ ~ hasB v /\ th 0%nat <> Some (sContains, Answered (ROut (SBool true)))
  | _ => False
  end.
Definition s_pend (n : nat) : nat -> option scall := pend_after (fun _ => None) (firstn n s_lost).
Ltac who Pi := unfold put in Pi; cbn in Pi; repeat (match type of Pi with context [(?i =? ?n)%nat] => destruct (Nat.eqb_spec i n) as [?Heq|?Hne] end); subst; try discriminate; try lia; injection Pi as ->.
Lemma K_tau n cs ss th cs' ss' th' : (forall i, option_map fst (th i) = s_pend n i) -> K n (mkA cs ss th) ->
  astep ssp (s_call_ok 32) (mkA cs ss th) Tau (mkA cs' ss' th') -> K n (mkA cs' ss' th').
Proof.
  intros P H S. inversion S; subst.
  - match goal with X : th i = Some (k, _), X' : _ cs ss k cs' ss' r stored |- _ => rename X into Ti, X' into Ef end.
    assert (Pi := P i). rewrite Ti in Pi. cbn in Pi.
    assert (D1 := fun j k' r => dist_answered stored i k th j k' r).
    destruct n as [|[|[|[|[|[|[|[|[|[|n]]]]]]]]]]; cbn in Pi; cbn [K a_cells a_threads] in *.
    + discriminate.
    + who Pi. right. destruct H as [(_ & ->)|(r0 & v & T & _)]; [|congruence].
      destruct (s_eff_new _ _ _ _ _ _ Ef) as (v & ->). exists r, v. rewrite put_same. auto.
    + who Pi.
    + who Pi. destruct H as (v & ->). destruct (s_eff_write _ _ _ _ _ _ _ _ Ef) as (v' & -> & _). eauto.
    + who Pi; destruct H as (v & ->); destruct (s_eff_write _ _ _ _ _ _ _ _ Ef) as (v' & -> & _); eauto.
    + who Pi; destruct H as (v & ->); destruct (s_eff_write _ _ _ _ _ _ _ _ Ef) as (v' & -> & _); eauto.
    + who Pi; destruct H as (v & -> & H); destruct (s_eff_write _ _ _ _ _ _ _ _ Ef) as (v' & -> & HA & HB); exists v'; split; auto.
      intros Q. rewrite put_other in Q by lia. apply D1 in Q. auto.
    + who Pi; destruct H as (v & -> & H); destruct (s_eff_write _ _ _ _ _ _ _ _ Ef) as (v' & -> & HA & HB); exists v'; split; auto.
    + who Pi.
    + who Pi. destruct H as (v & -> & H1 & H2). destruct (s_eff_contains _ _ _ _ _ _ Ef) as (-> & Hr). exists v. split; auto. split; auto. rewrite put_same. intros [= ->]. auto.
    + contradiction.
  - match goal with X : th i = Some _ |- _ => rename X into Ti end. assert (Pi := P i). rewrite Ti in Pi. cbn in Pi.
    destruct n as [|[|[|[|[|[|[|[|[|[|n]]]]]]]]]]; cbn in Pi; cbn [K a_cells a_threads] in *; auto; try (who Pi; fail).
    + destruct H as (v & -> & H). exists v. split; auto. unfold put. destruct (2 =? i)%nat; [discriminate|auto].
Qed.
Lemma K_all als a : set_spec 32 als a -> forall n, (n <= 10)%nat -> visible als = firstn n s_lost -> K n a.
Proof.
  induction 1 as [|ls l st st' Hx IH Hs]; intros n Ln E.
  - destruct n; [reflexivity|discriminate].
  - assert (P := proj1 (replies_good ssp ss_zero _ (fun _ _ => True) ltac:(intros; exact I) ltac:(intros; exact I) _ _ Hx)).
    destruct st as [cs ss th]. destruct st' as [cs' ss' th']. cbn [a_threads] in P. rewrite visible_app in E.
    assert (P' : forall m, visible ls = firstn m s_lost -> forall i, option_map fst (th i) = s_pend m i).
    { intros m Em i. unfold s_pend. rewrite <- Em, pend_visible. auto. }
    destruct l as [i k|i r|]; cbn [visible] in E.
    + destruct (firstn_snoc s_lost n _ _ Ln E) as (m & -> & Em & Nm). specialize (P' m Em). specialize (IH m ltac:(lia) Em).
      inversion Hs; subst.
      do 10 (try destruct m as [|m]); cbn in Nm; try discriminate; try lia; injection Nm as <- <-; cbn [K a_cells a_threads] in *; rewrite ?put_same, ?put_other by lia; auto.
      * left. eauto.
      * destruct IH as (v & ->). exists v. split; auto. discriminate.
      * destruct IH as (v & -> & Hv). exists v. split; auto. split; auto. discriminate.
    + destruct (firstn_snoc s_lost n _ _ Ln E) as (m & -> & Em & Nm). specialize (P' m Em). specialize (IH m ltac:(lia) Em).
      inversion Hs; subst. match goal with X : th i = Some _ |- _ => rename X into Ti end. assert (Pi := P' i). rewrite Ti in Pi. cbn in Pi.
      do 10 (try destruct m as [|m]); cbn in Nm; try discriminate; try lia; injection Nm as <- <-; cbn [K a_cells a_threads] in *; cbn in Pi; injection Pi as ->;
        rewrite ?put_same, ?put_other by lia; auto.
      * destruct IH as [((d & X) & _)|(r & v & _ & IH)]; [congruence|eauto].
      * destruct IH as (v & -> & H1). exists v. auto.
      * destruct IH as (v & -> & Hv & Hr). contradiction.
    + rewrite app_nil_r in E. eapply K_tau; [apply P'; exact E| |exact Hs]. apply IH; auto.
Qed.
Theorem C38_sets_refuted : exists ls st, set_exec 32 true ls st /\
  ~ exists als a, set_spec 32 als a /\ visible als = visible ls.
Proof.
  destruct s_lost_exec as (ls & st & H & E). exists ls, st. split; auto. intros (als & a & Ha & Ev).
  apply (K_all als a Ha 10); auto. rewrite Ev, E. reflexivity.
Qed.

(* ---- executions that meet the hypotheses of C37 and C38_*_partial ---- *)
Definition tscall := act (E := option (comparator N)) (WOp := op N) (ROp := t_rop N) (BOp := t_bop N).
(* one writer, two readers: thread 2 reads while thread 1 inserts, thread 3 takes
   a snapshot, and thread 2 reads again *)
Definition readers : list tscall :=
  Call 0 (KNew nd) :: repeat (Step 0) 2 ++
  [Call 1 kInsert; Step 1; Step 1; Call 2 kGet; Step 2] ++ repeat (Step 1) 30 ++
  repeat (Step 2) 10 ++ Call 2 kGet :: repeat (Step 2) 10 ++ Call 3 (KFreeze (Some 0%nat)) :: repeat (Step 3) 3 ++
  Call 1 kRemove :: repeat (Step 1) 20 ++ Call 3 (KRead (Snap 1) (RGet Y) []) :: repeat (Step 3) 10.
Lemma readers_ok : Forall (act_ok (t_call_ok 32 (@Some N) goeqN)) readers /\ Forall (only_writer 1) readers.
Proof.
  assert (WF : wf_prefix 32 (mkPrefix 167772161 32)) by (split; vm_compute; congruence).
  split; apply Forall_forall; intros x Hx; unfold readers in Hx; cbn in Hx;
    repeat (destruct Hx as [<-|Hx]; [cbn; auto; fail|]); contradiction.
Qed.
Example C37_tables_ex : exists ls st, table_exec1 32 0 (@Some N) goeqN ls st /\
  visible ls = [Inv 0 kNew; Ret 0 (RHandle 0); Inv 1 kInsert; Inv 2 kGet; Ret 1 yes; Ret 2 (ROut (OGet 0 false));
                Inv 2 kGet; Ret 2 (ROut (OGet 7 true)); Inv 3 (KFreeze (Some 0%nat)); Ret 3 (RSnap 1); Inv 1 kRemove; Ret 1 yes;
                Inv 3 (KRead (Snap 1) (RGet Y) []); Ret 3 (ROut (OGet 7 true))].
Proof.
  match goal with |- exists ls st, _ /\ visible ls = ?v => assert (X : option_map (fun x => visible (fst x)) (trun (c_init None) [] readers) = Some v) by (vm_compute; reflexivity) end.
  destruct (trun (c_init None) [] readers) as [[ls st]|] eqn:E; [|discriminate].
  exists ls, st. split.
  - eapply (run_ok1 _ _ _ _ _ _ _ true eq_refl 1 readers); [apply readers_ok|apply readers_ok| |apply ce1_init|exact E]. intros i c o a [ph Xp]. discriminate.
  - cbn in X. congruence.
Qed.
(* two writers that both loaded the same root: the second one panics *)
Definition conflict : list tscall :=
  Call 0 (KNew nd) :: repeat (Step 0) 2 ++
  [Call 1 kInsert; Step 1; Step 1; Call 2 (KWrite (Some 0%nat) (OpInsert None 5) []); Step 2; Step 2] ++ repeat (Step 1) 30 ++ repeat (Step 2) 30.
Example C38_tables_ex : exists ls st, table_exec 32 0 (@Some N) goeqN false ls st /\
  visible ls = [Inv 0 kNew; Ret 0 (RHandle 0); Inv 1 kInsert; Inv 2 (KWrite (Some 0%nat) (OpInsert None 5) []); Ret 1 yes; Ret 2 RPanic].
Proof.
  match goal with |- exists ls st, _ /\ visible ls = ?v => assert (X : option_map (fun x => visible (fst x)) (run (t_wprog 32 0 (@Some N) goeqN) (t_rprog 32 0) (t_bprog 32 0 (@Some N) goeqN) None t_bext (t_thaw goeqN) false (c_init None) [] conflict) = Some v) by (vm_compute; reflexivity) end.
  destruct (run (t_wprog 32 0 (@Some N) goeqN) (t_rprog 32 0) (t_bprog 32 0 (@Some N) goeqN) None t_bext (t_thaw goeqN) false (c_init None) [] conflict) as [[ls st]|] eqn:E; [|discriminate].
  exists ls, st. split.
  - eapply run_ok; [|apply ce_init|exact E].
    assert (WF : wf_prefix 32 (mkPrefix 167772161 32)) by (split; vm_compute; congruence).
    assert (WF0 : wf_prefix 32 (mkPrefix 0 0)) by (split; vm_compute; congruence).
    apply Forall_forall; intros x Hx; unfold conflict in Hx; cbn in Hx; repeat (destruct Hx as [<-|Hx]; [cbn; auto; fail|]); contradiction.
  - cbn in X. congruence.
Qed.
Definition s_readers : list (act (E := unit) (WOp := s_wop) (ROp := s_rop) (BOp := s_bop)) :=
  Call 0 sNew :: repeat (Step 0) 2 ++
  [Call 1 sInsertB; Step 1; Step 1; Call 2 sContains; Step 2] ++ repeat (Step 1) 30 ++
  repeat (Step 2) 20 ++ Call 2 sContains :: repeat (Step 2) 20 ++ Call 1 sInsertA :: repeat (Step 1) 60 ++
  Call 3 (KRead (Cell (Some 0%nat)) RNumAddresses []) :: repeat (Step 3) 20.
Example C37_sets_ex : exists ls st, set_exec1 32 ls st /\
  visible ls = [Inv 0 sNew; Ret 0 (RHandle 0); Inv 1 sInsertB; Inv 2 sContains; Ret 1 (ROut SUnit); Ret 2 (ROut (SBool false));
                Inv 2 sContains; Ret 2 (ROut (SBool true)); Inv 1 sInsertA; Ret 1 (ROut SUnit);
                Inv 3 (KRead (Cell (Some 0%nat)) RNumAddresses []); Ret 3 (ROut (SNum 2))].
Proof.
  match goal with |- exists ls st, _ /\ visible ls = ?v => assert (X : option_map (fun x => visible (fst x)) (srun (c_init tt) [] s_readers) = Some v) by (vm_compute; reflexivity) end.
  destruct (srun (c_init tt) [] s_readers) as [[ls st]|] eqn:E; [|discriminate].
  exists ls, st. split.
  - assert (WA : wf_addr 32 addrA) by (vm_compute; reflexivity). assert (WB : wf_addr 32 addrB) by (vm_compute; reflexivity).
    eapply (run_ok1 _ _ _ _ _ _ _ true eq_refl 1 s_readers); [| | |apply ce1_init|exact E].
    + apply Forall_forall; intros x Hx; unfold s_readers in Hx; cbn in Hx; repeat (destruct Hx as [<-|Hx]; [cbn; auto; fail|]); contradiction.
    + apply Forall_forall; intros x Hx; unfold s_readers in Hx; cbn in Hx; repeat (destruct Hx as [<-|Hx]; [cbn; auto; fail|]); contradiction.
    + intros i c o a [ph Xp]. discriminate.
  - cbn in X. congruence.
Qed.

(* C21: one thread, a handle, a snapshot of it and a clone of the snapshot *)
Definition kGetIn (x : src) : tcall := KRead x (RGet Y) [].
Definition alias_program : list tscall :=
  flat_map (fun k : tcall => Call 0 k :: repeat (Step 0) 30)
    [kNew; kInsert; KFreeze (Some 0%nat); kRemove; kGet; KThaw 1; KWrite (Some 1%nat) (OpUpdate Y 8) [];
     kGetIn (Snap 1); kGetIn (Cell (Some 1%nat)); kGet].
Example C21_tables_ex : exists ls st, table_exec 32 0 (@Some N) goeqN true ls st /\ solo 0 ls /\
  completed (fun _ => None) ls =
    [(kNew, RHandle 0); (kInsert, yes); (KFreeze (Some 0%nat), RSnap 1); (kRemove, yes); (kGet, ROut (OGet 0 false));
     (KThaw 1, RHandle 1); (KWrite (Some 1%nat) (OpUpdate Y 8) [], yes);
     (kGetIn (Snap 1), ROut (OGet 7 true)); (kGetIn (Cell (Some 1%nat)), ROut (OGet 8 true)); (kGet, ROut (OGet 0 false))].
Proof.
  match goal with |- exists ls st, _ /\ _ /\ completed _ ls = ?v => assert (X : option_map (fun x => completed (fun _ => None) (visible (fst x))) (trun (c_init None) [] alias_program) = Some v) by (vm_compute; reflexivity) end.
  assert (X2 : option_map (fun x => forallb (fun l => match l with Inv j _ => (j =? 0)%nat | Ret j _ => (j =? 0)%nat | Tau => true end) (visible (fst x))) (trun (c_init None) [] alias_program) = Some true) by (vm_compute; reflexivity).
  destruct (trun (c_init None) [] alias_program) as [[ls st]|] eqn:E; [|discriminate].
  exists ls, st. split; [|split].
  - eapply run_ok; [|apply ce_init|exact E].
    assert (WF : wf_prefix 32 (mkPrefix 167772161 32)) by (split; vm_compute; congruence).
    apply Forall_forall; intros x Hx; unfold alias_program in Hx; cbn in Hx; repeat (destruct Hx as [<-|Hx]; [cbn; auto; fail|]); contradiction.
  - apply solo_visible. cbn [option_map fst] in X2. injection X2 as X2. apply Forall_forall. intros l Hl.
    rewrite forallb_forall in X2. specialize (X2 l Hl). destruct l; [apply Nat.eqb_eq in X2; exact X2..|exact Logic.I].
  - rewrite <- completed_visible. cbn [option_map fst] in X. congruence.
Qed.

(* C38 without Remove: thread 1 loads the root (nil), thread 2 inserts 0.0.0.0/0,
   and thread 1 loads the root again and finds the other one; its insert cannot
   be stored, it panics, and thread 2's entry is still there *)
Definition reloaded : list tscall :=
  Call 0 (KNew nd) :: repeat (Step 0) 2 ++
  [Call 1 kInsert; Step 1] ++
  Call 2 (KWrite (Some 0%nat) (OpInsert None 5) []) :: repeat (Step 2) 30 ++ repeat (Step 1) 40 ++
  Call 0 (KRead (Cell (Some 0%nat)) (RGet None) []) :: repeat (Step 0) 10.
Example C38_without_remove_ex : exists ls st, table_exec 32 0 (@Some N) goeqN true ls st /\ (forall i k, In (Inv i k) ls -> ~ removes k) /\
  visible ls = [Inv 0 kNew; Ret 0 (RHandle 0); Inv 1 kInsert; Inv 2 (KWrite (Some 0%nat) (OpInsert None 5) []); Ret 2 yes; Ret 1 RPanic;
                Inv 0 (KRead (Cell (Some 0%nat)) (RGet None) []); Ret 0 (ROut (OGet 5 true))].
Proof.
  match goal with |- exists ls st, _ /\ _ /\ visible ls = ?v => assert (X : option_map (fun x => visible (fst x)) (trun (c_init None) [] reloaded) = Some v) by (vm_compute; reflexivity) end.
  destruct (trun (c_init None) [] reloaded) as [[ls st]|] eqn:E; [|discriminate].
  exists ls, st. cbn in X. injection X as X. split; [|split; auto].
  - eapply run_ok; [|apply ce_init|exact E].
    assert (WF : wf_prefix 32 (mkPrefix 167772161 32)) by (split; vm_compute; congruence).
    assert (WF0 : wf_prefix 32 (mkPrefix 0 0)) by (split; vm_compute; congruence).
    apply Forall_forall; intros x Hx; unfold reloaded in Hx; cbn in Hx; repeat (destruct Hx as [<-|Hx]; [cbn; auto; fail|]); contradiction.
  - intros i k Hi. assert (V : In (Inv i k) (visible ls)).
    { clear -Hi. induction ls as [|[j k'|j r|] ls IH]; cbn in *; [auto| | |].
      - destruct Hi as [Hi|Hi]; auto.
      - destruct Hi as [Hi|Hi]; [discriminate|auto].
      - destruct Hi as [Hi|Hi]; [discriminate|auto]. }
    rewrite X in V. cbn in V. intros (h & q & a & ->).
    repeat (destruct V as [V|V]; [try discriminate V; injection V; intros; discriminate|]). contradiction.
Qed.

(* C38 unmixed, sets: thread 1 loads the root (nil) to insert A, thread 2 inserts
   B, thread 1 goes on with {B} and cannot store; B is still there.  A second
   handle is only removed from. *)
Lemma inv_visible {C Out} (ls : list (label C Out)) i k : In (Inv i k) ls -> In (Inv i k) (visible ls).
Proof.
  intros Hi. induction ls as [|[j k'|j r|] ls IH]; cbn in *; [auto| | |].
  - destruct Hi as [Hi|Hi]; auto.
  - destruct Hi as [Hi|Hi]; [discriminate|auto].
  - destruct Hi as [Hi|Hi]; [discriminate|auto].
Qed.
Definition s_unmixed : list (act (E := unit) (WOp := s_wop) (ROp := s_rop) (BOp := s_bop)) :=
  Call 0 sNew :: repeat (Step 0) 2 ++ [Call 1 sInsertA; Step 1] ++
  Call 2 sInsertB :: repeat (Step 2) 40 ++ repeat (Step 1) 80 ++
  Call 0 sContains :: repeat (Step 0) 40 ++
  Call 0 (KFreeze (Some 0%nat)) :: repeat (Step 0) 2 ++ Call 0 (KThaw 1) :: repeat (Step 0) 2 ++
  Call 0 (KWrite (Some 1%nat) (WRemove (AAddress addrB)) []) :: repeat (Step 0) 30 ++
  Call 0 (KRead (Cell (Some 1%nat)) RIsEmpty []) :: repeat (Step 0) 10.
Example C38_sets_unmixed_ex : exists ls st, set_exec 32 true ls st /\
  (forall c, (forall i k, In (Inv i k) ls -> ~ inserts_into c k) \/ (forall i k, In (Inv i k) ls -> ~ takes_from c k)) /\
  visible ls = [Inv 0 sNew; Ret 0 (RHandle 0); Inv 1 sInsertA; Inv 2 sInsertB; Ret 2 (ROut SUnit); Ret 1 RPanic;
                Inv 0 sContains; Ret 0 (ROut (SBool true)); Inv 0 (KFreeze (Some 0%nat)); Ret 0 (RSnap 1); Inv 0 (KThaw 1); Ret 0 (RHandle 1);
                Inv 0 (KWrite (Some 1%nat) (WRemove (AAddress addrB)) []); Ret 0 (ROut SUnit);
                Inv 0 (KRead (Cell (Some 1%nat)) RIsEmpty []); Ret 0 (ROut (SBool true))].
Proof.
  match goal with |- exists ls st, _ /\ _ /\ visible ls = ?v => assert (X : option_map (fun x => visible (fst x)) (srun (c_init tt) [] s_unmixed) = Some v) by (vm_compute; reflexivity) end.
  destruct (srun (c_init tt) [] s_unmixed) as [[ls st]|] eqn:E; [|discriminate].
  exists ls, st. cbn in X. injection X as X. split; [|split; auto].
  - eapply run_ok; [|apply ce_init|exact E].
    assert (WA : wf_addr 32 addrA) by (vm_compute; reflexivity). assert (WB : wf_addr 32 addrB) by (vm_compute; reflexivity).
    apply Forall_forall; intros x Hx; unfold s_unmixed in Hx; cbn in Hx; repeat (destruct Hx as [<-|Hx]; [cbn; auto; fail|]); contradiction.
  - intros [|c]; [right|left]; intros i k Hi; apply inv_visible in Hi; rewrite X in Hi; cbn in Hi; intros (y & a & ->);
      repeat (destruct Hi as [V|Hi]; [try discriminate V; injection V; intros; discriminate|]); contradiction.
Qed.
(* tables: two threads remove the same entry from a clone; the one that began on
   the old root and went on with the new, empty one panics *)
Definition t_unmixed : list tscall :=
  Call 0 (KNew nd) :: repeat (Step 0) 2 ++ Call 0 kInsert :: repeat (Step 0) 30 ++
  Call 0 (KFreeze (Some 0%nat)) :: repeat (Step 0) 2 ++ Call 0 (KThaw 1) :: repeat (Step 0) 2 ++
  [Call 1 (KWrite (Some 1%nat) (OpRemove Y) []); Step 1] ++
  Call 2 (KWrite (Some 1%nat) (OpRemove Y) []) :: repeat (Step 2) 30 ++ repeat (Step 1) 30.
Example C38_tables_unmixed_ex : exists ls st, table_exec 32 0 (@Some N) goeqN true ls st /\
  (forall c, (forall i k, In (Inv i k) ls -> ~ adds c k) \/ (forall i k, In (Inv i k) ls -> ~ removes_from c k)) /\
  visible ls = [Inv 0 kNew; Ret 0 (RHandle 0); Inv 0 kInsert; Ret 0 yes; Inv 0 (KFreeze (Some 0%nat)); Ret 0 (RSnap 1); Inv 0 (KThaw 1); Ret 0 (RHandle 1);
                Inv 1 (KWrite (Some 1%nat) (OpRemove Y) []); Inv 2 (KWrite (Some 1%nat) (OpRemove Y) []); Ret 2 yes; Ret 1 RPanic].
Proof.
  match goal with |- exists ls st, _ /\ _ /\ visible ls = ?v => assert (X : option_map (fun x => visible (fst x)) (trun (c_init None) [] t_unmixed) = Some v) by (vm_compute; reflexivity) end.
  destruct (trun (c_init None) [] t_unmixed) as [[ls st]|] eqn:E; [|discriminate].
  exists ls, st. cbn in X. injection X as X. split; [|split; auto].
  - eapply run_ok; [|apply ce_init|exact E].
    assert (WF : wf_prefix 32 (mkPrefix 167772161 32)) by (split; vm_compute; congruence).
    apply Forall_forall; intros x Hx; unfold t_unmixed in Hx; cbn in Hx; repeat (destruct Hx as [<-|Hx]; [cbn; auto; fail|]); contradiction.
  - intros [|c]; [right|left]; intros i k Hi; apply inv_visible in Hi; rewrite X in Hi; cbn in Hi.
    + intros (y & a & ->). repeat (destruct Hi as [V|Hi]; [try discriminate V; injection V; intros; discriminate|]); contradiction.
    + intros (y & w & a & [->|[->| ->]]); repeat (destruct Hi as [V|Hi]; [try discriminate V; injection V; intros; discriminate|]); contradiction.
Qed.
