(* PropsCost3.v - C53: Diff between two snapshots, without a callback for unchanged
   entries, does work in proportion to the changes made between them and not to
   the size of the tables. *)
From Verif Require Export HeapShare2.
From Verif Require Import SetProof.
From Coq Require Import Arith Lia ZifyBool ZifyNat ZifyN.
Local Open Scope nat_scope.

Section Shared.
Variable W : N.
Hypothesis IPW : ip_width W.
Context {T : Type}.
Variable zeroT : T.
Variable box : T -> option T.
Hypothesis Hbox : forall v, unbox zeroT (box v) = v.
Variable goeq : T -> T -> res bool.
Hypothesis Hgoeq : forall x y, exists b, goeq x y = Ok b /\ (b = true <-> x = y).
Notation value := (ptr * option (comparator T))%type.
Notation modify o x := (t_wprog W zeroT box goeq o x (@nil value)).
Notation diff hc hl hr go x y := (@t_rprog W T zeroT (RDiff hc hl hr false go) (Some x) [y]).
Notation reachable := (reachable W zeroT box goeq).
Notation heap := (heap T).
Let HW : (0 < W /\ W < 2 ^ 15)%N := ip_HW W IPW.

(* The nodes that only one of the two tables has bound the loads, whatever the
   tables have in common. *)
Theorem C53_diff_shared : forall t u p q e e' (h : heap) hc hl hr go (L : list nat), reachable t -> reachable u ->
  denotes h p (tx_trie t) -> denotes h q (tx_trie u) ->
  (forall i, reaches h p i -> ~ reaches h q i -> In i L) ->
  (forall i, reaches h q i -> ~ reaches h p i -> In i L) ->
  fst (run (diff hc hl hr go (p, e) (q, e')) h) = h /\
  instructions (diff hc hl hr go (p, e) (q, e')) h <= 2 * length L.
Proof.
  intros t u p q e e' h hc hl hr go L Ht Hu Dp Dq HL HM. cbn [t_rprog]. unfold h_Diff. split.
  - apply ro_run, ro_bind; [apply ro_diff|]. intros [l b]. exact I.
  - destruct (reach_inv W HW zeroT box goeq _ Ht) as [Wt _]. destruct (reach_inv W HW zeroT box goeq _ Hu) as [Wu _].
    pose proof (addrs_reaches h _ _ Dp) as RA. pose proof (addrs_reaches h _ _ Dq) as RB.
    pose proof (addrs_nodup W h _ _ _ Dp Wt) as NA. pose proof (addrs_nodup W h _ _ _ Dq Wu) as NB.
    set (A := addrs h p (tx_trie t)) in *. set (B := addrs h q (tx_trie u)) in *.
    assert (C : un A B + un B A <= length L).
    { unfold un. rewrite <- app_length. apply NoDup_incl_length.
      - assert (DJ : forall i, In i (filter (fun i => negb (existsb (Nat.eqb i) B)) A) -> ~ In i B).
        { intros i I. apply filter_In in I. destruct I as [_ I]. apply has_not. destruct (existsb _ _); auto; discriminate. }
        assert (N1 : NoDup (filter (fun i => negb (existsb (Nat.eqb i) B)) A)) by (apply NoDup_filter; auto).
        assert (N2 : NoDup (filter (fun i => negb (existsb (Nat.eqb i) A)) B)) by (apply NoDup_filter; auto).
        assert (S2 : forall i, In i (filter (fun i => negb (existsb (Nat.eqb i) A)) B) -> In i B) by (intros i I; apply filter_In in I; tauto).
        revert N1 N2 DJ S2. generalize (filter (fun i => negb (existsb (Nat.eqb i) B)) A), (filter (fun i => negb (existsb (Nat.eqb i) A)) B). clear.
        intros X Y N1 N2 DJ S2. induction N1 as [|x X Nx NX IH]; cbn; auto. constructor.
        + rewrite in_app_iff. intros [I|I]; auto. apply (DJ x); [left; reflexivity|auto].
        + apply IH. intros i I. apply DJ. right. exact I.
      - intros i I. apply in_app_iff in I. destruct I as [I|I]; apply filter_In in I; destruct I as [I N];
          (assert (N' : existsb (Nat.eqb i) A = false \/ existsb (Nat.eqb i) B = false) by (destruct (existsb (Nat.eqb i) A), (existsb (Nat.eqb i) B); auto; discriminate)).
        + apply HL; [apply RA; exact I|]. rewrite <- RB. apply has_not. destruct (existsb _ B); auto; discriminate.
        + apply HM; [apply RB; exact I|]. rewrite <- RA. apply has_not. destruct (existsb _ A); auto; discriminate. }
    eapply (am_reads_bind (2 * (un A B + un B A))); [apply ro_run, ro_diff|eapply (cost_diff_shared W HW); [reflexivity|eassumption..]|lia|intros [l b]; apply am_ret].
Qed.

(* A history of modifying calls on one Table_ with comparator e, starting at heap h
   and root p and ending at heap h' and root q.  Anything that changes no existing
   node (by C20: any call on any table) may happen in between. *)
Inductive edits (e : option (comparator T)) : list (op T) -> heap -> ptr -> heap -> ptr -> Prop :=
| ed_none h p : edits e [] h p h p
| ed_call o os h p h1 r out h' q : wf_prefix W (op_prefix o) ->
    run (modify o (p, e)) h = (h1, Ok (r, out)) ->
    edits e os h1 (match r with Some p1 => p1 | None => p end) h' q -> edits e (o :: os) h p h' q
| ed_other os h p h1 h' q : length h <= length h1 -> (forall i, i < length h -> nth_error h1 i = nth_error h i) ->
    edits e os h1 p h' q -> edits e os h p h' q.
(* the nodes the calls may copy, and one more for each call *)
Definition changes (os : list (op T)) : nat := list_sum (map (fun o => t_copies W o + 1) os).

(* a table whose comparator is set and is a reflexive boolean function *)
Definition comparing (t : tableX T) : Prop :=
  (exists c, tx_eq t = Some c) /\ exists g, decides box t g /\ forall v, g v v = true.

Lemma call_share t p (h : heap) o h1 r out : reachable t -> comparing t -> denotes h p (tx_trie t) -> wf_prefix W (op_prefix o) ->
  run (modify o (p, tx_eq t)) h = (h1, Ok (r, out)) ->
  let p1 := match r with Some p1 => p1 | None => p end in
  exists u x, exec W zeroT box (Some t) o = Ok (Some u, x) /\ reachable u /\ comparing u /\ tx_eq u = tx_eq t /\ denotes h1 p1 (tx_trie u) /\
    (forall i, i < length h -> nth_error h1 i = nth_error h i) /\ length h <= length h1 <= length h + t_copies W o /\
    (forall i, In i (addrs h1 p1 (tx_trie u)) -> In i (addrs h p (tx_trie t)) \/ length h <= i < length h1) /\
    node_count (tx_trie t) <= node_count (tx_trie u) + 2.
Proof.
  intros Ht [[c Ec] (g & Hd & Rf)] Dp Ho Er p1.
  assert (Vt : t_vok W zeroT box goeq t) by (split; auto; left; exists g; auto).
  set (S := fun i => In i (addrs h p (tx_trie t))).
  assert (RS : repr S h p (tx_trie t)) by (apply repr_addrs; auto).
  assert (DS : dom S h).
  { intros i Hi. apply (addrs_reaches h _ _ Dp) in Hi. clear -Hi. induction Hi; auto; apply nth_error_Some; congruence. }
  pose proof (write_ok W IPW zeroT box goeq Hgoeq 0 o [] S h (p, tx_eq t) t [] [] (conj Ho eq_refl) DS) as WO.
  specialize (WO (conj RS (conj eq_refl Vt)) (ex_intro _ c Ec) (Forall2_nil _) eq_refl).
  destruct (wpi_run_new _ _ _ _ DS WO) as (S' & Q & HS'). rewrite Er in Q, HS'. cbn [fst snd] in Q, HS'.
  destruct (C51_table_modifications W IPW zeroT box Hbox goeq o (p, tx_eq t) h) as (K1 & K2 & _). unfold allocated in K2. rewrite Er in K1, K2. cbn [fst] in K1, K2.
  assert (LG : length h <= length h1).
  { destruct (Nat.le_gt_cases (length h) (length h1)) as [|G]; auto. specialize (K1 (length h1) G).
    assert (X : nth_error h (length h1) <> None) by (apply nth_error_Some; exact G). assert (Y : nth_error h1 (length h1) = None) by (apply nth_error_None; lia). congruence. }
  assert (HW' := reach_inv W HW zeroT box goeq _ Ht). destruct HW' as [Wt _].
  (* what the call computes *)
  unfold t_wfun in Q. destruct (exec W zeroT box (Some t) o) as [[m x]| |] eqn:Ex; [|destruct r; contradiction|destruct r; contradiction].
  destruct (exec_some _ _ _ _ _ _ _ Ex) as (u & -> & Eq). exists u, x.
  assert (Hu : reachable u) by (eapply reach_op; eauto).
  assert (Cu : comparing u) by (split; [exists c; congruence|exists g; split; auto; unfold decides in *; rewrite Eq; auto]).
  assert (CT : node_count (tx_trie t) <= node_count (tx_trie u) + 2).
  { clear Q. destruct o as [k v|k v|k v|k v|k]; cbn [exec] in Ex.
    - unfold tbl_Insert in Ex. destruct (Insert W (tx_trie t) (prefixI k) (box v)) as [[n er]| |] eqn:EI; cbn [bind] in Ex; try discriminate.
      destruct er; cbn [bind] in Ex; injection Ex as <- <-; [lia|]. apply insert_count in EI; [|reflexivity]. cbn [tx_trie set_trie]. lia.
    - unfold tbl_Update in Ex. destruct (Update W (tx_trie t) (prefixI k) (box v) _) as [[n er]| |] eqn:EI; cbn [bind] in Ex; try discriminate.
      destruct er; cbn [bind] in Ex; injection Ex as <- <-; [lia|]. apply insert_count in EI; [|reflexivity]. cbn [tx_trie set_trie]. lia.
    - unfold tbl_InsertOrUpdate in Ex. destruct (InsertOrUpdate W (tx_trie t) (prefixI k) (box v) _) as [n| |] eqn:EI; cbn [bind] in Ex; try discriminate.
      injection Ex as <- <-. unfold InsertOrUpdate in EI. destruct (insert W (tx_trie t) (prefixI k) (box v) _) as [[n' er]| |] eqn:EJ; cbn [bind] in EI; try discriminate.
      destruct er; [discriminate|]. injection EI as ->. apply insert_count in EJ; [|reflexivity]. cbn [tx_trie set_trie]. lia.
    - unfold tbl_GetOrInsert in Ex. destruct (GetOrInsert W (tx_trie t) (prefixI k) (box v)) as [[n d]| |] eqn:EI; cbn [bind] in Ex; try discriminate.
      injection Ex as <- <-. apply goi_count in EI. cbn [tx_trie set_trie]. lia.
    - unfold tbl_Remove in Ex. destruct (del W (tx_trie t) (prefixI k)) as [n er] eqn:EI. cbn [bind] in Ex. injection Ex as <- <-.
      destruct (del_count W _ _ _ _ _ Wt EI) as [X _]. cbn [tx_trie set_trie]. lia. }
  assert (DONE : repr S' h1 p1 (tx_trie u) -> denotes h1 p1 (tx_trie u) /\
     (forall i, In i (addrs h1 p1 (tx_trie u)) -> In i (addrs h p (tx_trie t)) \/ length h <= i < length h1)).
  { intros R. split; [eapply repr_denotes; exact R|]. intros i I. apply (addrs_in _ _ _ _ R) in I. destruct (HS' i I); auto. }
  assert (SAME : u = t -> p1 = p -> denotes h1 p1 (tx_trie u) /\
     (forall i, In i (addrs h1 p1 (tx_trie u)) -> In i (addrs h p (tx_trie t)) \/ length h <= i < length h1)).
  { intros -> ->. split; [eapply denotes_grow; [exact K1|exact Dp]|]. intros i I. rewrite (addrs_grow h h1 K1) in I by exact Dp. auto. }
  assert (FIN : denotes h1 p1 (tx_trie u) /\ (forall i, In i (addrs h1 p1 (tx_trie u)) -> In i (addrs h p (tx_trie t)) \/ length h <= i < length h1)).
  { destruct r as [p'|].
    - apply DONE. unfold p1. destruct o as [k v|k v|k v|k v|k], x as [[|]|z|]; try (destruct Q as [_ (R & _)]; exact R); contradiction.
    - destruct o as [k v|k v|k v|k v|k], x as [[|]|z|]; try contradiction; cbn [exec] in Ex.
      + apply SAME; auto. unfold tbl_Insert in Ex. destruct (Insert W (tx_trie t) (prefixI k) (box v)) as [[n er]| |]; cbn [bind] in Ex; try discriminate.
        destruct er; cbn [bind] in Ex; congruence.
      + apply SAME; auto. unfold tbl_Update in Ex. destruct (Update W (tx_trie t) (prefixI k) (box v) _) as [[n er]| |]; cbn [bind] in Ex; try discriminate.
        destruct er; cbn [bind] in Ex; congruence. }
  destruct FIN as [F1 F2]. repeat match goal with |- _ /\ _ => split end; auto; lia.
Qed.

(* what a history leaves in common *)
Lemma edits_share e os h p h' q : edits e os h p h' q -> forall t, tx_eq t = e -> reachable t -> comparing t -> denotes h p (tx_trie t) ->
  exists u outs N, runs W zeroT box (Some t) os = Ok (Some u, outs) /\ reachable u /\ denotes h' q (tx_trie u) /\
    length h <= length h' /\ (forall i, i < length h -> nth_error h' i = nth_error h i) /\
    length N <= list_sum (map (t_copies W) os) /\
    (forall i, In i (addrs h' q (tx_trie u)) -> In i (addrs h p (tx_trie t)) \/ In i N) /\
    node_count (tx_trie t) <= node_count (tx_trie u) + 2 * length os.
Proof.
  induction 1 as [h p|o os h p h1 r out h' q Ho Er He IH|os h p h1 h' q Hl Hk He IH]; intros t Et Ht Ct Dp.
  - exists t, [], []. cbn. repeat match goal with |- _ /\ _ => split end; auto; lia.
  - rewrite <- Et in Er. destruct (call_share t p h o h1 r out Ht Ct Dp Ho Er) as (u & x & Ex & Hu & Cu & Eu & Du & K & [L1 L2] & Sh & CN).
    destruct (IH u ltac:(congruence) Hu Cu Du) as (v & outs & N & Ev & Hv & Dv & L & K' & LN & Sh' & CN').
    exists v, (x :: outs), (seq (length h) (length h1 - length h) ++ N). cbn [runs map list_sum fold_right length]. rewrite Ex. cbn [bind]. rewrite Ev. cbn [bind].
    repeat match goal with |- _ /\ _ => split end; auto.
    + lia.
    + intros i Hi. rewrite K' by lia. apply K. exact Hi.
    + rewrite app_length, seq_length. fold (list_sum (map (t_copies W) os)). lia.
    + intros i I. rewrite in_app_iff. destruct (Sh' i I) as [J|J]; auto. destruct (Sh i J) as [M|M]; auto. right. left. apply in_seq. lia.
    + lia.
  - destruct (IH t Et Ht Ct) as (u & outs & N & Eu & Hu & Du & L & K' & LN & Sh & CN); [eapply denotes_grow; [exact Hk|exact Dp]|].
    exists u, outs, N. repeat match goal with |- _ /\ _ => split end; auto.
    + lia.
    + intros i Hi. rewrite K' by lia. auto.
    + intros i I. rewrite <- (addrs_grow h h1 Hk _ _ Dp). auto.
Qed.

(* The tables before and after any list of modifying calls, of any size: both
   directions of Diff load at most four nodes for each one the calls may have
   copied. *)
Theorem C53_diff_after_changes : forall t p (h : heap) os h' q, reachable t -> comparing t -> denotes h p (tx_trie t) ->
  edits (tx_eq t) os h p h' q ->
  exists u outs, runs W zeroT box (Some t) os = Ok (Some u, outs) /\ denotes h' p (tx_trie t) /\ denotes h' q (tx_trie u) /\
  forall hc hl hr go e e',
    instructions (diff hc hl hr go (p, e) (q, e')) h' <= 4 * changes os /\
    instructions (diff hc hl hr go (q, e) (p, e')) h' <= 4 * changes os.
Proof.
  intros t p h os h' q Ht Ct Dp He. destruct (edits_share _ _ _ _ _ _ He t eq_refl Ht Ct Dp) as (u & outs & N & Eu & Hu & Du & L & K & LN & Sh & CN).
  assert (Dp' : denotes h' p (tx_trie t)) by (eapply denotes_grow; [exact K|exact Dp]). exists u, outs. split; auto. split; auto. split; auto.
  destruct (reach_inv W HW zeroT box goeq _ Ht) as [Wt _]. destruct (reach_inv W HW zeroT box goeq _ Hu) as [Wu _].
  rewrite <- (addrs_grow h h' K _ _ Dp) in Sh.
  pose proof (addrs_reaches h' _ _ Dp') as RA. pose proof (addrs_reaches h' _ _ Du) as RB.
  pose proof (addrs_nodup W h' _ _ _ Dp' Wt) as NA. pose proof (addrs_nodup W h' _ _ _ Du Wu) as NB.
  pose proof (addrs_nodes h' _ _ Dp') as CA. pose proof (addrs_nodes h' _ _ Du) as CB.
  set (A := addrs h' p (tx_trie t)) in *. set (B := addrs h' q (tx_trie u)) in *.
  assert (U1 : un B A <= length N) by (apply un_le; auto; intros i I J; destruct (Sh i I); [contradiction|auto]).
  (* members of A and B: those of A that B lacks are those that were lost *)
  assert (PART : forall X Y : list nat, length X = un X Y + length (filter (fun i => existsb (Nat.eqb i) Y) X)).
  { intros X Y. unfold un. induction X as [|x X IHX]; cbn; auto. destruct (existsb _ Y); cbn; lia. }
  assert (BOTH : length (filter (fun i => existsb (Nat.eqb i) A) B) <= length (filter (fun i => existsb (Nat.eqb i) B) A)).
  { apply NoDup_incl_length; [apply NoDup_filter; exact NB|]. intros i I. apply filter_In in I. destruct I as [I J]. apply filter_In.
    apply has_in in J. split; auto. apply has_in. exact I. }
  pose proof (PART A B) as P1. pose proof (PART B A) as P2.
  assert (U2 : un A B <= un B A + 2 * length os) by lia.
  assert (SUM : un A B + un B A <= 2 * changes os).
  { assert (Z : changes os = list_sum (map (t_copies W) os) + length os).
    { unfold changes. clear. induction os as [|o os IH]; cbn [map list_sum fold_right length]; [reflexivity|]. fold (list_sum (map (fun o => t_copies W o + 1) os)). fold (list_sum (map (t_copies W) os)). lia. }
    lia. }
  set (LL := filter (fun i => negb (existsb (Nat.eqb i) B)) A ++ filter (fun i => negb (existsb (Nat.eqb i) A)) B).
  assert (LEN : length LL <= 2 * changes os) by (unfold LL; rewrite app_length; exact SUM).
  assert (H1 : forall i, reaches h' p i -> ~ reaches h' q i -> In i LL).
  { intros i I J. unfold LL. apply in_app_iff. left. apply filter_In. split; [apply RA; auto|]. rewrite <- RB in J. apply has_not in J. rewrite J. reflexivity. }
  assert (H2 : forall i, reaches h' q i -> ~ reaches h' p i -> In i LL).
  { intros i I J. unfold LL. apply in_app_iff. right. apply filter_In. split; [apply RB; auto|]. rewrite <- RA in J. apply has_not in J. rewrite J. reflexivity. }
  intros hc hl hr go e e'. split.
  - destruct (C53_diff_shared t u p q e e' h' hc hl hr go LL) as [_ X]; auto. lia.
  - destruct (C53_diff_shared u t q p e e' h' hc hl hr go LL) as [_ X]; auto. lia.
Qed.
End Shared.
