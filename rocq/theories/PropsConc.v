(* PropsConc.v - C37 and C38, C20 with any interleaving, C21 and C22 (tables). *)
From Verif Require Export ConcTableSim ConcSetSim ConcYield ConcSeq ConcRun.
From Coq Require Import Arith Sorted ZifyBool ZifyNat ZifyN.

(* what holds of every effect holds of every completed call *)
Section Replies.
Context {V E WOp ROp BOp Out : Type}.
Notation call := (call E WOp ROp BOp).
Variable eff : list V -> list V -> call -> list V -> list V -> reply Out -> bool -> Prop.
Variable vzero : V.
Variable call_ok : call -> Prop.
Variable good : call -> reply Out -> Prop.
Hypothesis He : forall cs ss k cs' ss' r b, eff cs ss k cs' ss' r b -> good k r.
Hypothesis Hc : forall c o a, good (KWrite (Some c) o a) RPanic.
Lemma replies_good ls a : aexec eff vzero call_ok ls a ->
  (forall i, pend_after (fun _ => None) ls i = option_map fst (a_threads a i)) /\
  (forall i k r, a_threads a i = Some (k, Answered r) -> good k r) /\
  forall k r, In (k, r) (completed (fun _ => None) ls) -> good k r.
Proof.
  induction 1 as [|ls l st st' Hx (P1 & P2 & P3) Hs]; [split; [auto|]; split; [discriminate|intros k r []]|].
  rewrite completed_app.
  destruct Hs; cbn [a_threads] in *.
  - split; [|split].
    + intros j. rewrite pend_after_app. cbn. unfold put. destruct (Nat.eqb_spec j i); auto.
    + intros j k' r. unfold put. destruct (Nat.eqb_spec j i); [discriminate|]. apply P2.
    + intros k' r. rewrite in_app_iff. cbn. intros [|[]]; auto.
  - split; [|split].
    + intros j. rewrite pend_after_app. cbn. rewrite P1. unfold put. destruct (Nat.eqb_spec j i) as [->|]; [rewrite H; reflexivity|].
      destruct stored; auto. unfold disturb. destruct k as [|[c|] o x| | | |]; auto. destruct (th j) as [[k1 [d1|r1]]|]; auto.
      destruct (negb _ && _); reflexivity.
    + intros j k' r'. unfold put. destruct (Nat.eqb_spec j i) as [->|].
      * intros [= <- <-]. eauto.
      * destruct stored; [|apply P2]. unfold disturb. destruct k as [|[c|] o x| | | |]; try apply P2.
        pose proof (P2 j) as Q. destruct (th j) as [[k1 [d1|r1]]|]; try discriminate; [|exact (Q k' r')].
        destruct (negb _ && _); discriminate.
    + intros k' r'. rewrite in_app_iff. cbn. intros [|[]]; auto.
  - split; [|split].
    + intros j. rewrite pend_after_app. cbn. rewrite P1. unfold put. destruct (Nat.eqb_spec j i) as [->|]; [rewrite H; reflexivity|auto].
    + intros j k' r'. unfold put. destruct (Nat.eqb_spec j i) as [->|]; [|apply P2]. intros [= <- <-]. auto.
    + intros k' r'. rewrite in_app_iff. cbn. intros [|[]]; auto.
  - split; [|split].
    + intros j. rewrite pend_after_app. cbn. unfold put. destruct (Nat.eqb_spec j i) as [->|]; [reflexivity|auto].
    + intros j k' r'. unfold put. destruct (Nat.eqb_spec j i) as [->|]; [discriminate|]. apply P2.
    + intros k' r'. rewrite in_app_iff. cbn [completed]. rewrite P1, H. cbn. intros [|[[= <- <-]|[]]]; eauto.
Qed.
Lemma aexec1_aexec ls a : aexec1 eff vzero call_ok ls a -> aexec eff vzero call_ok ls a.
Proof. induction 1; econstructor; eauto. Qed.
End Replies.

(* restricting the calls that are made *)
Section Restrict.
Context {T E WOp ROp BOp Out V : Type}.
Notation call := (call E WOp ROp BOp).
Notation value := (ptr * E)%type.
Variable wprog : WOp -> value -> list value -> prog T (option ptr * Out).
Variable rprog : ROp -> option value -> list value -> prog T Out.
Variable bprog : BOp -> list value -> prog T ptr.
Variable zeroE : E.
Variable bext : BOp -> list value -> E.
Variable thawE : E -> E.
Variable call_ok sub : call -> Prop.
Lemma cexec_restrict rr ls st : cexec wprog rprog bprog zeroE bext thawE call_ok rr ls st -> (forall i k, In (Inv i k) ls -> sub k) ->
  cexec wprog rprog bprog zeroE bext thawE (fun k => call_ok k /\ sub k) rr ls st.
Proof.
  induction 1 as [|ls l st st' Hx IH Hs]; intros Hk; [constructor|]. econstructor; [apply IH; intros i k Hi; apply (Hk i k); apply in_or_app; auto|].
  destruct Hs; try (econstructor; eauto; fail). constructor; auto. split; auto. apply (Hk i k). apply in_or_app. right. left. reflexivity.
Qed.
Variable effect : list V -> list V -> call -> list V -> list V -> reply Out -> bool -> Prop.
Variable vzero : V.
Lemma aexec_restrict ls a : aexec effect vzero (fun k => call_ok k /\ sub k) ls a -> aexec effect vzero call_ok ls a.
Proof.
  induction 1 as [|ls l st st' Hx IH Hs]; [constructor|]. econstructor; [exact IH|].
  destruct Hs; try (econstructor; eauto; fail). constructor; auto. apply H0.
Qed.
End Restrict.

(* ---------------- tables ---------------- *)
Section Tables.
Variable W : N.
Hypothesis IPW : ip_width W.
Context {T : Type}.
Variable zeroT : T.
Variable box : T -> option T.
Hypothesis Hbox : forall v, unbox zeroT (box v) = v.
Variable goeq : T -> T -> res bool.
Hypothesis Hgoeq : forall x y, exists b, goeq x y = Ok b /\ (b = true <-> x = y).
Let HW : 0 < W /\ W < 2 ^ 15 := ip_HW W IPW.
Notation t_call_ok := (t_call_ok W box goeq).
Notation tcall := (call (option (comparator T)) (op T) (t_rop T) (t_bop T)).
Notation trace := (list (label tcall (tout T))).

(* executions of the code: any number of threads, any schedule *)
Definition table_exec := cexec (t_wprog W zeroT box goeq) (t_rprog W zeroT) (t_bprog W zeroT box goeq) None t_bext (t_thaw goeq) t_call_ok.
(* those in which no two modifying calls on the same handle overlap *)
Definition table_exec1 := cexec1 (t_wprog W zeroT box goeq) (t_rprog W zeroT) (t_bprog W zeroT box goeq) None t_bext (t_thaw goeq) t_call_ok.
(* executions of the specification: calls on plain maps that each take effect at
   one moment between invocation and return; in the first kind, a modifying call
   that overlaps another one may panic instead and have no effect *)
Definition table_spec := aexec (t_spec W zeroT goeq) st_zero t_call_ok.
Definition table_spec1 := aexec1 (t_spec W zeroT goeq) st_zero t_call_ok.

Let MT := table_meets W IPW zeroT box Hbox goeq Hgoeq.
Let PT := table_programs W IPW zeroT box Hbox goeq Hgoeq.

(* C37: with one writer per handle and any number of readers, what the calls
   return is what atomic calls return *)
Theorem C37_tables : forall ls st, table_exec1 ls st -> exists als a, table_spec1 als a /\ visible als = visible ls.
Proof.
  intros ls st H. destruct (low_atomic1 _ _ _ _ _ _ _ _ _ _ _ _ _ _ _ _ _ PT _ _ H) as (als & a & Ha & Ev & _).
  destruct (sim_aexec1 _ _ _ _ _ _ _ (m_zero _ _ _ _ _ _ _ _ _ _ _ _ _ _ _ MT) (meets_effect _ _ _ _ _ _ _ _ _ _ _ _ _ _ _ MT) _ _ Ha) as (a' & Ha' & _).
  exists als, a'. split; auto.
Qed.
(* C38, as far as it holds: several writers, provided that nobody changes the
   table between a modifying call's two loads of the root (see C38_tables_refuted) *)
Theorem C38_tables_partial : forall ls st, table_exec false ls st -> exists als a, table_spec als a /\ visible als = visible ls.
Proof.
  intros ls st H. destruct (low_atomic _ _ _ _ _ _ _ _ _ _ _ _ _ _ _ _ _ PT _ _ H) as (als & a & Ha & Ev & _).
  destruct (sim_aexec _ _ _ _ _ _ _ (m_zero _ _ _ _ _ _ _ _ _ _ _ _ _ _ _ MT) (meets_effect _ _ _ _ _ _ _ _ _ _ _ _ _ _ _ MT) _ _ Ha) as (a' & Ha' & _).
  exists als, a'. split; auto.
Qed.
(* which calls add entries to handle c, which remove entries from it *)
Definition adds (c : nat) (k : tcall) : Prop :=
  exists q v a, k = KWrite (Some c) (OpInsert q v) a \/ k = KWrite (Some c) (OpInsertOrUpdate q v) a \/ k = KWrite (Some c) (OpGetOrInsert q v) a.
Definition removes_from (c : nat) (k : tcall) : Prop := exists q a, k = KWrite (Some c) (OpRemove q) a.
Definition addsb (c : nat) (l : label tcall (tout T)) : bool :=
  match l with
  | Inv _ (KWrite (Some c') (OpInsert _ _) _) | Inv _ (KWrite (Some c') (OpInsertOrUpdate _ _) _) | Inv _ (KWrite (Some c') (OpGetOrInsert _ _) _) => Nat.eqb c c'
  | _ => false
  end.
Lemma addsb_adds c ls : existsb (addsb c) ls = true <-> exists i k, In (Inv i k) ls /\ adds c k.
Proof.
  rewrite existsb_exists. split.
  - intros (l & I & H). destruct l as [i [|[c'|] [] ?| | | |]| |]; cbn in H; try discriminate; apply Nat.eqb_eq in H; subst c';
      (do 2 eexists; split; [exact I|do 3 eexists; eauto]).
  - intros (i & k & I & q & v & a & H). exists (Inv i k). split; auto. destruct H as [->|[->| ->]]; cbn; apply Nat.eqb_refl.
Qed.
(* C38 for the code's two loads of the root: when no handle is used for both
   adding (Insert, InsertOrUpdate, GetOrInsert) and Remove, any number of
   overlapping calls, Update, readers, snapshots, clones and Map included, lose no
   update: what the calls return is what atomic calls return, except that a
   modifying call that overlaps another one may panic and have no effect *)
Theorem C38_tables_unmixed : forall ls st, table_exec true ls st ->
  (forall c, (forall i k, In (Inv i k) ls -> ~ adds c k) \/ (forall i k, In (Inv i k) ls -> ~ removes_from c k)) ->
  exists als a, table_spec als a /\ visible als = visible ls.
Proof.
  intros ls st H Hn.
  set (sub := fun k : tcall => exists i, In (Inv i k) ls).
  pose proof (cexec_restrict _ _ _ _ _ _ _ sub _ _ _ H (fun i k I => ex_intro _ i I)) as H'.
  assert (PT' : programs_ok (t_wprog W zeroT box goeq) (t_rprog W zeroT) (t_bprog W zeroT box goeq) None t_bext (t_thaw goeq)
     (fun k => t_call_ok k /\ sub k)
     (t_wfun W zeroT box) (t_rfun W zeroT) (t_bfun zeroT box) (zero_table (T := T)) t_new (t_thawed goeq) tx_trie tx_eq (t_vok W zeroT box goeq) t_wok).
  { destruct PT as [P1 P2 P3 P4 P5 P6 P7 P8 P9 P10]. constructor; auto.
    - intros S h e [K _]; auto.
    - intros S h p e v s [K _]; eauto.
    - intros c o a S h x v xs vs [K _]; eauto.
    - intros y r a S h x v xs vs [K _]; eauto.
    - intros b a S h xs vs [K _]; eauto. }
  set (mu := fun (c : nat) (v : tableX T) => if existsb (addsb c) ls then O else length (entries (tx_trie v))).
  destruct (low_atomic2 _ _ _ _ _ _ _ _ _ _ _ _ _ _ _ _ _ PT' mu ls st) as (als & a & Ha & Ev & _); auto.
  { intros c o a [K (i & I)]. split.
    - intros v vs Hv _ v' out E. unfold mu. destruct (existsb (addsb c) ls) eqn:Eb; [lia|].
      assert (NA : ~ adds c (KWrite (Some c) o a)).
      { intros A. assert (true = false); [|discriminate]. rewrite <- Eb. symmetry. apply addsb_adds. eauto. }
      unfold t_wfun in E. destruct o; try (exfalso; apply NA; do 3 eexists; eauto; fail); cbn [exec tbl_Update tbl_Remove] in E.
      + destruct (Update W (tx_trie v) (prefixI p) (box v0) (ceq (tx_eq v))) as [[n [e|]]| |] eqn:Eu; cbn [bind] in E; try discriminate.
        injection E as <- _. cbn [set_trie tx_trie]. unfold Update in Eu. eapply count_update in Eu; [exact Eu|reflexivity|reflexivity].
      + pose proof (count_del W (prefixI p) (tx_trie v)) as CD. destruct (del W (tx_trie v) (prefixI p)) as [n e]. cbn [bind fst] in *. injection E as <- _. exact CD.
    - exists (is_remove o). split; [intros x xs n0; apply t_yields|]. intros Hr v Hv v' Hv' Kd. unfold mu.
      destruct (existsb (addsb c) ls) eqn:Eb.
      + exfalso. apply addsb_adds in Eb. destruct Eb as (j & k & J & A). destruct (Hn c) as [X|X].
        * exact (X _ _ J A).
        * destruct o; try discriminate. apply (X _ _ I). do 2 eexists. reflexivity.
      + eapply count_kid_lt; [eapply wf_of; eauto|exact Kd]. }
  apply aexec_restrict in Ha.
  destruct (sim_aexec _ _ _ _ _ _ _ (m_zero _ _ _ _ _ _ _ _ _ _ _ _ _ _ _ MT) (meets_effect _ _ _ _ _ _ _ _ _ _ _ _ _ _ _ MT) _ _ Ha) as (a' & Ha' & _).
  exists als, a'. split; auto.
Qed.
(* in particular for clients that do not call Remove *)
Definition removes (k : tcall) : Prop := exists h q a, k = KWrite h (OpRemove q) a.
Theorem C38_tables_without_remove : forall ls st, table_exec true ls st -> (forall i k, In (Inv i k) ls -> ~ removes k) ->
  exists als a, table_spec als a /\ visible als = visible ls.
Proof.
  intros ls st H Hn. eapply C38_tables_unmixed; [exact H|]. intros c. right. intros i k I (q & a & ->). apply (Hn _ _ I). do 3 eexists. reflexivity.
Qed.
(* C20: whatever else goes on, racing writers included, reading an immutable
   table again gives the same answer *)
Theorem C20_tables_read_again : forall rr ls st s q a r1 r2, table_exec rr ls st ->
  In (KRead (Snap s) q a, r1) (completed (fun _ => None) ls) -> In (KRead (Snap s) q a, r2) (completed (fun _ => None) ls) -> r1 = r2.
Proof. intros. eapply (low_immutable_reads _ _ _ _ _ _ _ _ _ _ _ _ _ _ _ _ _ PT); eauto. Qed.
(* and its nodes stay as they are *)
Theorem C20_tables_nodes : forall rr ls st st' s x, table_exec rr ls st ->
  csteps (t_wprog W zeroT box goeq) (t_rprog W zeroT) (t_bprog W zeroT box goeq) None t_bext (t_thaw goeq) t_call_ok rr st st' ->
  nth_error (c_snaps st) s = Some x ->
  nth_error (c_snaps st') s = Some x /\ exists t F F', repr F (c_heap st) (fst x) t /\ repr F' (c_heap st') (fst x) t.
Proof.
  intros rr ls st st' s x H Hs Hn. destruct (low_immutable_nodes _ _ _ _ _ _ _ _ _ _ _ _ _ _ _ _ _ PT _ _ _ _ _ _ H Hs Hn) as (A & v & F & F' & (B & _) & (C & _)).
  split; auto. exists (tx_trie v), F, F'. auto.
Qed.

(* ---------------- C21 ---------------- *)
(* Whatever one thread does with any number of handles (and copies of them),
   snapshots and clones, its calls return what the same sequence of calls returns
   in the specification. *)
Theorem C21_tables_sequential : forall i ls st, table_exec true ls st -> solo i ls ->
  exists cs ss, seq_run (t_spec W zeroT goeq) st_zero (completed (fun _ => None) ls) cs ss.
Proof.
  intros i ls st H S. destruct (solo_low _ _ _ _ _ _ _ i ls st H S) as [H1 _].
  destruct (C37_tables ls st H1) as (als & a & Ha & Ev). apply aexec1_aexec in Ha.
  assert (S' : solo i als) by (apply solo_visible; rewrite Ev; apply solo_visible; exact S).
  destruct (solo_calls _ _ _ i als a Ha S') as (cs & ss & X). exists cs, ss.
  rewrite <- completed_visible, <- Ev, completed_visible. exact X.
Qed.
(* In the specification the references, snapshots and clones of C21 are explicit:
   every handle is a position in one list, whoever uses it, and every immutable
   table a position in another.  These are the consequences C21 spells out. *)
Section Spec.
Variables cs ss cs' ss' : list (stbl T).
Variable r : reply (tout T).
Variable b : bool.
(* modifying one handle changes no other handle and no immutable table *)
Theorem C21_tables_write : forall c o a, t_spec W zeroT goeq cs ss (KWrite (Some c) o a) cs' ss' r b ->
  ss' = ss /\ forall c', c' <> c -> nth_error cs' c' = nth_error cs c'.
Proof.
  intros c o a H. assert (G : forall (l : list (stbl T)) i j x, j <> i -> nth_error (set_nth l i x) j = nth_error l j).
  { clear. induction l as [|y l IH]; intros [|i] [|j] x N; cbn; auto; try congruence. }
  inversion H; subst; split; auto.
Qed.
(* t.Table() holds what t holds now, and is new *)
Theorem C21_tables_snapshot : forall c, t_spec W zeroT goeq cs ss (KFreeze (Some c)) cs' ss' r b ->
  cs' = cs /\ exists v, nth_error cs c = Some v /\ ss' = ss ++ [v] /\ r = RSnap (length ss).
Proof. intros c H. inversion H; subst. eauto. Qed.
(* t.Table_() is a new handle with the same contents *)
Theorem C21_tables_clone : forall s, t_spec W zeroT goeq cs ss (KThaw s) cs' ss' r b ->
  ss' = ss /\ exists v v', nth_error ss s = Some v /\ cs' = cs ++ [v'] /\ r = RHandle (length cs) /\ st_map v' = st_map v.
Proof. intros s H. inversion H; subst. split; auto. destruct H2 as (M & _). eauto 10. Qed.
End Spec.

(* Build, with a callback that makes the calls os on the clone it is given and
   then decides by what they returned *)
Definition builder (os : list (op T)) (verdict : list (outcome T) -> bool) (h : option (tableX T)) : res (option (tableX T) * bool) :=
  bind (runs W zeroT box h os) (fun x => Ok (fst x, verdict (snd x))).
Theorem C21_tables_build : forall t os verdict, reachable W zeroT box goeq t -> tx_eq t = None \/ tx_eq t = Some (defaultComparator goeq) ->
  Forall (fun o => wf_prefix W (op_prefix o)) os ->
  exists g m outs u, is_equality g /\
    (forall q, wf_prefix W q -> PropsTable.stored W zeroT t q = m (pkey W q)) /\
    Forall2 (fun '(o, s) x => agree o s x) (combine os (snd (sruns W g m os))) outs /\
    Build goeq t (builder os verdict) = Ok u /\
    if verdict outs
    then reachable W zeroT box goeq u /\ forall q, wf_prefix W q -> PropsTable.stored W zeroT u q = fst (sruns W g m os) (pkey W q)
    else u = t.
Proof.
  intros t os verdict Hr He Ho. destruct (rel_exists W IPW zeroT box Hbox goeq t Hr) as (m & HR).
  destruct (dflt_equality W IPW zeroT box Hbox goeq Hgoeq) as (g & Dg & Eg).
  set (t0 := {| tx_trie := tx_trie t; tx_eq := match tx_eq t with None => Some (defaultComparator goeq) | Some e => Some e end |}).
  assert (HR0 : Rel W box m t0) by exact HR.
  assert (Hd : decides box t0 g) by (intros x y; unfold t0; cbn; destruct He as [->| ->]; cbn; apply Dg).
  assert (Hr0 : reachable W zeroT box goeq t0) by (eapply reach_Table_; [exact Hr|reflexivity]).
  destruct (runs_step W HW zeroT box Hbox g os _ _ HR0 Hd Ho) as (t' & outs & E & _ & R & A).
  exists g, m, outs. unfold Build, builder, Table_. fold t0. rewrite E. cbn [bind fst snd].
  assert (S0 : forall q, wf_prefix W q -> PropsTable.stored W zeroT t q = m (pkey W q)) by (intros; eapply (stored_rel W IPW zeroT box Hbox); eauto).
  destruct (verdict outs).
  - exists t'. split; auto. split; auto. split; auto. split; auto. split.
    + clear -Hr0 E Ho. clearbody t0. revert t0 outs Hr0 E. induction os as [|o os IH]; intros t0 outs Hr0 E; cbn [runs] in E; [injection E as <- _; auto|].
      inversion Ho; subst. destruct (exec W zeroT box (Some t0) o) as [[m1 x]| |] eqn:E1; try discriminate. cbn [bind] in E.
      destruct (exec_some _ _ _ _ _ _ _ E1) as (t1 & -> & _). destruct (runs W zeroT box (Some t1) os) as [[m2 xs]| |] eqn:E2; try discriminate. cbn [bind] in E. injection E as -> _.
      eapply IH; [auto| |exact E2]. eapply reach_op; [exact Hr0|exact H1|exact E1].
    + intros q Hq. eapply (stored_rel W IPW zeroT box Hbox); eauto.
  - exists t. auto.
Qed.

(* ---------------- C22 ---------------- *)
(* an uninitialised Table_ reads like an empty one, and panics on writing *)
Theorem C22_uninitialised_table : forall p v,
  tbl_Table None = zero_table (T := T) /\ tbl_NumEntries (T := T) None = 0 /\
  (forall t : tableX T, tx_trie t = Nil ->
     tbl_NumEntries (T := T) None = tbl_NumEntries (Some t) /\
     tbl_Get W zeroT None p = tbl_Get W zeroT (Some t) p /\
     tbl_LongestMatch W zeroT None p = tbl_LongestMatch W zeroT (Some t) p) /\
  tbl_Insert W box None p v = Panic /\ tbl_Update W box None p v = Panic /\ tbl_InsertOrUpdate W box None p v = Panic /\
  tbl_GetOrInsert W zeroT box None p v = Panic /\ tbl_Remove (T := T) W None p = Panic.
Proof.
  intros p v. repeat (split; [reflexivity|]). split; [|repeat split].
  intros t E. unfold tbl_NumEntries, NumEntries, tbl_Get, tbl_LongestMatch, tx_Get, tx_LongestMatch, longestMatch. rewrite E. cbn. auto.
Qed.
(* a nil PrefixI is 0.0.0.0/0 (::/0) *)
Theorem C22_nil_prefix : forall (m : option (tableX T)) v, let all := Some (mkPrefix 0 0) in
  tbl_Insert W box m None v = tbl_Insert W box m all v /\ tbl_Update W box m None v = tbl_Update W box m all v /\
  tbl_InsertOrUpdate W box m None v = tbl_InsertOrUpdate W box m all v /\
  tbl_GetOrInsert W zeroT box m None v = tbl_GetOrInsert W zeroT box m all v /\
  tbl_Remove W m None = tbl_Remove W m all /\
  tbl_Get W zeroT m None = tbl_Get W zeroT m all /\ tbl_LongestMatch W zeroT m None = tbl_LongestMatch W zeroT m all.
Proof. intros m v. repeat split; reflexivity. Qed.
(* the same in executions, whatever else goes on: the replies of calls on the
   uninitialised handle *)
Definition t_nil_reply (k : tcall) (r : reply (tout T)) : Prop :=
  match k with
  | KWrite None _ _ => r = RPanic
  | KRead (Cell None) RNumEntries _ => r = ROut (ONum 0)
  | KRead (Cell None) (RGet _) _ => r = ROut (OGet zeroT false)
  | KRead (Cell None) (RLongestMatch _) _ => r = ROut (OMatch zeroT false (mkPrefix 0 0))
  | _ => True
  end.
Theorem C22_tables_exec : forall ls st k r, table_exec1 ls st -> In (k, r) (completed (fun _ => None) ls) -> t_nil_reply k r.
Proof.
  intros ls st k r H I. destruct (C37_tables ls st H) as (als & a & Ha & Ev).
  rewrite <- completed_visible, <- Ev, completed_visible in I. apply aexec1_aexec in Ha. revert k r I. eapply replies_good; [| |exact Ha].
  - intros cs ss k cs' ss' r b X. unfold t_spec in X. inversion X; subst; try exact Logic.I; try reflexivity.
    destruct x as [[c|]|s]; try exact Logic.I. cbn in H0. injection H0 as <-. destruct r0 as [|p|p|go|hc hl hr hu go]; cbn in *; try exact Logic.I.
    + destruct H2 as (L & (HL & _) & ->). destruct L as [|[p v] L]; [reflexivity|]. exfalso. destruct (proj1 (HL p v)); [left; reflexivity|]. discriminate.
    + exact H2.
    + destruct H2 as (v & found & p' & -> & X2). destruct found.
      * destruct X2 as (_ & _ & X2 & _). discriminate.
      * destruct X2 as (-> & -> & _). reflexivity.
  - intros. exact Logic.I.
Qed.
End Tables.

(* ---------------- sets ---------------- *)
Section Sets.
Variable W : N.
Hypothesis IPW : ip_width W.
Let HW : 0 < W /\ W < 2 ^ 15 := ip_HW W IPW.
Notation scall := (call unit s_wop s_rop s_bop).

Definition set_exec := cexec (s_wprog W) (s_rprog W) (s_bprog W) tt s_bext s_thaw (s_call_ok W).
Definition set_exec1 := cexec1 (s_wprog W) (s_rprog W) (s_bprog W) tt s_bext s_thaw (s_call_ok W).
Definition set_spec := aexec (s_spec W) ss_zero (s_call_ok W).
Definition set_spec1 := aexec1 (s_spec W) ss_zero (s_call_ok W).

Let MS := set_meets W IPW.
Let PS := set_programs W IPW.
Theorem C37_sets : forall ls st, set_exec1 ls st -> exists als a, set_spec1 als a /\ visible als = visible ls.
Proof.
  intros ls st H. destruct (low_atomic1 _ _ _ _ _ _ _ _ _ _ _ _ _ _ _ _ _ PS _ _ H) as (als & a & Ha & Ev & _).
  destruct (sim_aexec1 _ _ _ _ _ _ _ (m_zero _ _ _ _ _ _ _ _ _ _ _ _ _ _ _ MS) (meets_effect _ _ _ _ _ _ _ _ _ _ _ _ _ _ _ MS) _ _ Ha) as (a' & Ha' & _).
  exists als, a'. split; auto.
Qed.
Theorem C38_sets_partial : forall ls st, set_exec false ls st -> exists als a, set_spec als a /\ visible als = visible ls.
Proof.
  intros ls st H. destruct (low_atomic _ _ _ _ _ _ _ _ _ _ _ _ _ _ _ _ _ PS _ _ H) as (als & a & Ha & Ev & _).
  destruct (sim_aexec _ _ _ _ _ _ _ (m_zero _ _ _ _ _ _ _ _ _ _ _ _ _ _ _ MS) (meets_effect _ _ _ _ _ _ _ _ _ _ _ _ _ _ _ MS) _ _ Ha) as (a' & Ha' & _).
  exists als, a'. split; auto.
Qed.
(* C38 for the code's two loads of the root: when no handle is used for both
   Insert and Remove, racing calls lose no update *)
Definition inserts_into (c : nat) (k : scall) : Prop := exists x a, k = KWrite (Some c) (WInsert x) a.
Definition takes_from (c : nat) (k : scall) : Prop := exists x a, k = KWrite (Some c) (WRemove x) a.
Definition insertsb (c : nat) (l : label scall sout) : bool :=
  match l with Inv _ (KWrite (Some c') (WInsert _) _) => Nat.eqb c c' | _ => false end.
Lemma insertsb_inserts c ls : existsb (insertsb c) ls = true <-> exists i k, In (Inv i k) ls /\ inserts_into c k.
Proof.
  rewrite existsb_exists. split.
  - intros (l & I & H). destruct l as [i [|[c'|] [] ?| | | |]| |]; cbn in H; try discriminate; apply Nat.eqb_eq in H; subst c'.
    do 2 eexists; split; [exact I|do 2 eexists; reflexivity].
  - intros (i & k & I & x & a & ->). exists (Inv i (KWrite (Some c) (WInsert x) a)). split; auto. cbn; apply Nat.eqb_refl.
Qed.
Definition sub_set (v v' : snode) : Prop := forall a, mem W v a -> mem W v' a.
Definition up (v v' : snode) : Prop := v = v' \/ sub_set v v' /\ ~ sub_set v' v.
Lemma up_trans u v w : up u v -> up v w -> up u w.
Proof.
  intros [->|[A B]] H; [exact H|]. destruct H as [<-|[C D]]; [right; auto|]. right. split; [intros a; auto|].
  intros X. apply D. intros a M. apply A. apply X. exact M.
Qed.
Lemma up_antisym u v : up u v -> up v u -> u = v.
Proof. intros [->|[A B]] H; auto. destruct H as [<-|[C D]]; auto. contradiction. Qed.
Lemma insert_up s i u : set_value W s -> valid_arg W i -> set_Union W (fun _ _ => false) s i = Ok u -> up s u.
Proof.
  intros Hs V E. destruct (C23_union W IPW _ s i nopp Hs V) as (t & u' & Et & Eu & SVu & M & _). rewrite E in Eu. injection Eu as <-.
  destruct (C28_contains W IPW _ s i nopp Hs V) as (t' & b & Et' & Ec & _ & B & _). rewrite Et in Et'. injection Et' as <-. destruct b.
  - destruct (C23_insert_contained W IPW _ s i nopp Hs V Ec) as [X _]. rewrite E in X. injection X as ->. left. reflexivity.
  - right. split; [intros a A; apply M; auto|]. intros X. assert (false = true); [|discriminate]. apply B. intros a A. apply X. apply M. auto.
Qed.
Lemma remove_down s i u : set_value W s -> valid_arg W i -> set_Difference W (fun _ _ => false) s i = Ok u -> up u s.
Proof.
  intros Hs V E. destruct (C23_difference W IPW _ s i nopp Hs V) as (t & u' & Et & Eu & SVu & M & _). rewrite E in Eu. injection Eu as <-.
  destruct (C28_contains W IPW _ u (Some (TheSet s)) nopp SVu (va_set W s Hs)) as (t' & b & Et' & Ec & _ & B & _). cbn in Et'. injection Et' as <-. destruct b.
  - destruct (C23_remove_disjoint W IPW _ s i t nopp Hs V Et) as [X _].
    + intros a A1 A2. apply (proj1 B eq_refl) in A2. apply M in A2. destruct A2. contradiction.
    + rewrite E in X. injection X as ->. left. reflexivity.
  - right. split; [intros a A; apply M in A; apply A|]. intros X. assert (false = true); [|discriminate]. apply B. exact X.
Qed.
Lemma arg_valid x a ts : s_arg_ok W x a -> length a = length ts -> Forall (set_value W) ts -> exists i, s_setI x ts = Some i /\ valid_arg W i.
Proof.
  intros Hx La F. destruct x as [|b|p|r|]; cbn [s_arg_ok s_setI] in *.
  - eexists. split; [reflexivity|constructor].
  - eexists. split; [reflexivity|constructor; apply Hx].
  - eexists. split; [reflexivity|constructor; apply Hx].
  - eexists. split; [reflexivity|constructor; apply Hx].
  - destruct Hx as [s ->]. destruct ts as [|t [|? ?]]; try discriminate. inversion F; subst. eexists. split; [reflexivity|constructor; auto].
Qed.
Theorem C38_sets_unmixed : forall ls st, set_exec true ls st ->
  (forall c, (forall i k, In (Inv i k) ls -> ~ inserts_into c k) \/ (forall i k, In (Inv i k) ls -> ~ takes_from c k)) ->
  exists als a, set_spec als a /\ visible als = visible ls.
Proof.
  intros ls st H Hn.
  set (sub := fun k : scall => exists i, In (Inv i k) ls).
  pose proof (cexec_restrict _ _ _ _ _ _ _ sub _ _ _ H (fun i k I => ex_intro _ i I)) as H'.
  assert (PS' : programs_ok (s_wprog W) (s_rprog W) (s_bprog W) tt s_bext s_thaw (fun k => s_call_ok W k /\ sub k)
     (s_wfun W) (s_rfun W) (s_bfun W) Nil s_new s_thawed s_vt s_ve (set_value W) (fun _ => True)).
  { destruct PS as [P1 P2 P3 P4 P5 P6 P7 P8 P9 P10].
    constructor; intros; repeat match goal with K : s_call_ok W _ /\ _ |- _ => destruct K as [K _] end; eauto. }
  set (le := fun (c : nat) (v v' : snode) => if existsb (insertsb c) ls then up v v' else up v' v).
  destruct (low_atomic3 _ _ _ _ _ _ _ _ _ _ _ _ _ _ _ _ _ PS' le) with (rr := true) (ls := ls) (st := st) as (als & a & Ha & Ev & _); auto.
  { intros c v. unfold le. destruct (existsb _ _); left; reflexivity. }
  { intros c u v w. unfold le. destruct (existsb _ _); eauto using up_trans. }
  { intros c u v. unfold le. destruct (existsb _ _); intros; [|symmetry]; apply up_antisym; auto. }
  { intros c o a v vs v' out [K (i & I)] Hv Hvs La E. unfold le. destruct (existsb (insertsb c) ls) eqn:Eb.
    - apply insertsb_inserts in Eb. destruct Eb as (j & k & J & A). destruct o as [x|x].
      + cbn [s_wfun s_call_ok] in *. destruct (arg_valid x a vs K La Hvs) as (y & Ey & V). unfold with_arg in E. rewrite Ey in E.
        rewrite (proj1 (C23_insert_remove W _ v y)) in E. destruct (set_Union W _ v y) as [u| |] eqn:Eu; try discriminate. cbn in E. injection E as <- _.
        eapply insert_up; eauto.
      + exfalso. destruct (Hn c) as [X|X]; [exact (X _ _ J A)|]. apply (X _ _ I). do 2 eexists. reflexivity.
    - destruct o as [x|x].
      + exfalso. assert (true = false); [|discriminate]. rewrite <- Eb. symmetry. apply insertsb_inserts. do 2 eexists. split; [exact I|]. do 2 eexists. reflexivity.
      + cbn [s_wfun s_call_ok] in *. destruct (arg_valid x a vs K La Hvs) as (y & Ey & V). unfold with_arg in E. rewrite Ey in E.
        rewrite (proj1 (proj2 (C23_insert_remove W _ v y))) in E. destruct (set_Difference W _ v y) as [u| |] eqn:Eu; try discriminate. cbn in E. injection E as <- _.
        eapply remove_down; eauto. }
  apply aexec_restrict in Ha.
  destruct (sim_aexec _ _ _ _ _ _ _ (m_zero _ _ _ _ _ _ _ _ _ _ _ _ _ _ _ MS) (meets_effect _ _ _ _ _ _ _ _ _ _ _ _ _ _ _ MS) _ _ Ha) as (a' & Ha' & _).
  exists als, a'. split; auto.
Qed.
Theorem C20_sets_read_again : forall rr ls st s q a r1 r2, set_exec rr ls st ->
  In (KRead (Snap s) q a, r1) (completed (fun _ => None) ls) -> In (KRead (Snap s) q a, r2) (completed (fun _ => None) ls) -> r1 = r2.
Proof. intros. eapply (low_immutable_reads _ _ _ _ _ _ _ _ _ _ _ _ _ _ _ _ _ PS); eauto. Qed.
Theorem C20_sets_nodes : forall rr ls st st' s x, set_exec rr ls st ->
  csteps (s_wprog W) (s_rprog W) (s_bprog W) tt s_bext s_thaw (s_call_ok W) rr st st' ->
  nth_error (c_snaps st) s = Some x ->
  nth_error (c_snaps st') s = Some x /\ exists t F F', repr F (c_heap st) (fst x) t /\ repr F' (c_heap st') (fst x) t.
Proof.
  intros rr ls st st' s x H Hs Hn. destruct (low_immutable_nodes _ _ _ _ _ _ _ _ _ _ _ _ _ _ _ _ _ PS _ _ _ _ _ _ H Hs Hn) as (A & v & F & F' & (B & _) & (C & _)).
  split; auto. exists v, F, F'. auto.
Qed.

(* C21 *)
Theorem C21_sets_sequential : forall i ls st, set_exec true ls st -> solo i ls ->
  exists cs ss, seq_run (s_spec W) ss_zero (completed (fun _ => None) ls) cs ss.
Proof.
  intros i ls st H S. destruct (solo_low _ _ _ _ _ _ _ i ls st H S) as [H1 _].
  destruct (C37_sets ls st H1) as (als & a & Ha & Ev). apply aexec1_aexec in Ha.
  assert (S' : solo i als) by (apply solo_visible; rewrite Ev; apply solo_visible; exact S).
  destruct (solo_calls _ _ _ i als a Ha S') as (cs & ss & X). exists cs, ss.
  rewrite <- completed_visible, <- Ev, completed_visible. exact X.
Qed.
Section Spec.
Variables cs ss cs' ss' : list mset.
Variable r : reply sout.
Variable b : bool.
Theorem C21_sets_write : forall c o a, s_spec W cs ss (KWrite (Some c) o a) cs' ss' r b ->
  ss' = ss /\ forall c', c' <> c -> nth_error cs' c' = nth_error cs c'.
Proof.
  intros c o a H. assert (G : forall (l : list mset) i j x, j <> i -> nth_error (set_nth l i x) j = nth_error l j).
  { clear. induction l as [|y l IH]; intros [|i] [|j] x N; cbn; auto; try congruence. }
  inversion H; subst; split; auto.
Qed.
Theorem C21_sets_snapshot : forall c, s_spec W cs ss (KFreeze (Some c)) cs' ss' r b ->
  cs' = cs /\ exists v, nth_error cs c = Some v /\ ss' = ss ++ [v] /\ r = RSnap (length ss).
Proof. intros c H. inversion H; subst. eauto. Qed.
Theorem C21_sets_clone : forall s, s_spec W cs ss (KThaw s) cs' ss' r b ->
  ss' = ss /\ exists v, nth_error ss s = Some v /\ cs' = cs ++ [v] /\ r = RHandle (length cs).
Proof. intros s H. inversion H; subst. split; auto. match goal with X : ss_thaw _ _ |- _ => unfold ss_thaw in X; subst end. eauto 10. Qed.
End Spec.
Definition s_builder (os : list ((snode -> snode -> bool) * sop)) (verdict : bool) (h : option snode) : res (option snode * bool) :=
  bind (sop_runs W h os) (fun x => Ok (x, verdict)).
Theorem C21_sets_build : forall s os (verdict : bool), set_value W s ->
  Forall (fun x => pointer_eq (fst x) /\ valid_arg W (sop_arg (snd x)) /\ exact_arg W (sop_arg (snd x))) os ->
  exists u, set_Build s (s_builder os verdict) = Ok u /\
    if verdict
    then set_value W u /\ forall a, mem W u a <-> fold_left (sop_step W) (map snd os) (mem W s) a
    else u = s.
Proof.
  intros s os verdict Hs F. destruct (C24_from W IPW os s (mem W s) F Hs ltac:(reflexivity)) as (u & E & Hu & M).
  unfold set_Build, s_builder, Set_. rewrite E. cbn [bind]. destruct verdict; eauto.
Qed.

(* C22: the replies of calls on the uninitialised handle; Contains and Equal ask
   whether the argument is empty *)
Definition s_nil_reply (k : scall) (r : reply sout) : Prop :=
  match k with
  | KWrite None _ _ => r = RPanic
  | KRead (Cell None) RNumAddresses _ => r = ROut (SNum 0)
  | KRead (Cell None) RIsEmpty _ => r = ROut (SBool true)
  | KRead (Cell None) (RContains ANil) _ => r = ROut (SBool true)
  | KRead (Cell None) (RContains (AAddress _)) _ => r = ROut (SBool false)
  | KRead (Cell None) (RContains (APrefix _)) _ => r = ROut (SBool false)
  | _ => True
  end.
Theorem C22_sets_exec : forall ls st k r, set_exec1 ls st -> In (k, r) (completed (fun _ => None) ls) -> s_nil_reply k r.
Proof.
  intros ls st k r H I. destruct (C37_sets ls st H) as (als & a & Ha & Ev).
  rewrite <- completed_visible, <- Ev, completed_visible in I. apply aexec1_aexec in Ha. revert k r I. eapply replies_good; [| |exact Ha].
  - intros cs ss k cs' ss' r b X. unfold s_spec in X. inversion X; subst; try exact Logic.I; try reflexivity.
    destruct x as [[c|]|s]; try exact Logic.I. cbn in H0. injection H0 as <-. destruct r0 as [| |y| |go|go|y n]; cbn in *; try exact Logic.I.
    + destruct H2 as (l & _ & L & ->). destruct l as [|x l]; [reflexivity|]. exfalso. apply (L x). left; reflexivity.
    + destruct H2 as (b & -> & B). destruct b; [reflexivity|]. exfalso. assert (false = true); [apply B; auto|discriminate].
    + destruct H2 as (w & b & A & -> & B). destruct y as [|x|p|q|]; try exact Logic.I; cbn in A; subst w; cbn in *.
      * f_equal. f_equal. apply B. auto.
      * f_equal. f_equal. destruct b; auto. exfalso. apply (proj1 B eq_refl x). reflexivity.
      * f_equal. f_equal. destruct b; auto. exfalso. apply (proj1 B eq_refl (paddr p)). reflexivity.
  - intros. exact Logic.I.
Qed.
End Sets.
