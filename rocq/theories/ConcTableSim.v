(* ConcTableSim.v - the calls on tables as functions on values meet the
   specification of ConcTableSpec.v. *)
From Verif Require Export ConcTableSpec ConcSim ConcTableProof PropsAgg.
From Coq Require Import Arith Sorted Permutation ZifyBool ZifyNat ZifyN.

Section Sim.
Variable W : N.
Hypothesis IPW : ip_width W.
Context {T : Type}.
Variable zeroT : T.
Variable box : T -> option T.
Hypothesis Hbox : forall v, unbox zeroT (box v) = v.
Variable goeq : T -> T -> res bool.
Hypothesis Hgoeq : forall x y, exists b, goeq x y = Ok b /\ (b = true <-> x = y).
Notation key := (key W).
Notation wf := (wf W).
Notation fk := (fk W).
Notation dflt := (defaultComparator goeq).
Notation unbox := (unbox zeroT).
Notation reachable := (reachable W zeroT box goeq).
Notation decides := (decides box).
Notation stored := (stored W zeroT).
Notation Rel := (Rel W box).
Let HW : 0 < W /\ W < 2 ^ 15 := ip_HW W IPW.

Lemma dflt_ok a b : exists c, dflt a b = Ok c.
Proof. destruct (ieq_is_ok goeq Hgoeq a b) as (x & E & _). eauto. Qed.
Lemma dflt_equality : exists g, (forall a b, dflt (box a) (box b) = Ok (g a b)) /\ is_equality g.
Proof.
  exists (fun a b => match dflt (box a) (box b) with Ok b => b | _ => false end). split.
  - intros a b. destruct (dflt_ok (box a) (box b)) as (x & ->). reflexivity.
  - intros x y. pose proof (Hbox x) as Bx. pose proof (Hbox y) as By. destruct (box x) as [a|] eqn:Ex, (box y) as [b|] eqn:Ey; cbn in *; subst.
    + destruct (Hgoeq x y) as (c & -> & H). exact H.
    + split; [discriminate|]. intros ->. congruence.
    + split; [discriminate|]. intros ->. congruence.
    + tauto.
Qed.

Definition TRs (t : tableX T) (v : stbl T) : Prop :=
  reachable t /\ Rel (st_map v) t /\
  (st_custom v = false -> tx_eq t = None \/ tx_eq t = Some dflt) /\
  match st_eq v with
  | Some g => (decides t g /\ tx_eq t <> None) /\ forall x, g x x = true
  | None => tx_eq t = None /\ tx_trie t = Nil
  end /\ (forall a b, ceq (tx_eq t) a b <> OutOfFuel).
Definition TRc t v := TRs t v /\ st_eq v <> None.

Lemma stored_rel m t q : Rel m t -> wf_prefix W q -> stored t q = m (pkey W q).
Proof.
  intros ((Hw & _) & R) Hq. rewrite (stored_fk W IPW) by auto. rewrite R by auto.
  destruct (m (pkey W q)) as [[q' v]|]; cbn; auto. unfold ub; cbn. rewrite Hbox. auto.
Qed.
Lemma Get_rel m t q : Rel m t -> wf_prefix W q -> snd (Get W zeroT t (Some q)) = true <-> has W m q.
Proof.
  intros R Hq. rewrite (Rel_Get W HW zeroT box Hbox m); auto. unfold has. destruct (m (pkey W q)) as [[? ?]|]; cbn; split; congruence.
Qed.
Lemma rel_exists t : reachable t -> exists m, Rel m t.
Proof.
  intros Ht. apply (PropsTable.rinv W IPW zeroT box goeq) in Ht.
  set (m := fun k : N * N => match find (fun e => eqk (pkey W (fst e)) k) (entries (tx_trie t)) with
                     | Some e => Some (ub zeroT e) | None => None end : option (prefix * T)).
  exists m. split; auto. intros p Hp. unfold m. destruct Ht as (Hw & Hb).
  assert (E : find (fun e => eqk (pkey W (fst e)) (pkey W p)) (entries (tx_trie t)) = fk (key p) (tx_trie t)).
  { unfold WF.fk. apply entries_wf in Hw. clear -Hw Hp. induction Hw as [|e es [He _] Hes IH]; cbn; auto.
    rewrite IH. unfold ekey. destruct (keq (key (fst e)) (key p)) as [E|E].
    - apply (key_eq_iff W) in E; auto. rewrite (proj2 (eqk_spec _ _) E). reflexivity.
    - destruct (eqk (pkey W (fst e)) (pkey W p)) eqn:Q; auto.
      apply eqk_spec in Q. apply (key_eq_iff W) in Q; auto. congruence. }
  rewrite E. destruct (fk (key p) (tx_trie t)) as [[q d]|] eqn:F; cbn; auto.
  apply (fk_In W) in F. destruct F as [I _]. pose proof (boxed_entries _ _ _ Hb I) as B. cbn in B.
  rewrite (box_unbox zeroT box Hbox) by auto. auto.
Qed.

(* ---- writes ---- *)
Lemma both_rel m t p : Rel m t -> wf_prefix W p ->
  (exists q0 q1, wf_prefix W q0 /\ wf_prefix W q1 /\
         snd (Get W zeroT t (Some q0)) = true /\ snd (Get W zeroT t (Some q1)) = true /\
         covers W (half W false p) q0 /\ covers W (half W true p) q1 /\ plen p < W) <-> both_halves W m p.
Proof.
  intros R Hp. unfold both_halves. split.
  - intros (q0 & q1 & W0 & W1 & G0 & G1 & C0 & C1 & L). split; auto. exists q0, q1. rewrite (Get_rel m) in G0, G1 by auto. auto 10.
  - intros (L & q0 & q1 & W0 & W1 & G0 & G1 & C0 & C1). exists q0, q1. rewrite !(Get_rel m) by auto. auto 10.
Qed.
Lemma t_write : forall c o a v v' vs vs', t_call_ok W box goeq (KWrite (Some c) o a) -> length a = length vs -> TRc v v' -> Forall2 TRs vs vs' ->
    exists x x' out, t_wfun W zeroT box o v vs = Ok (x, out) /\ t_wspec W o v' vs' x' out /\
    match x, x' with None, None => True | Some w, Some w' => TRc w w' | _, _ => False end.
Proof.
  intros c o a v v' vs vs' (Hp & ->) _ ((Hr & HR & Hc & Hg & Hf) & Hn) _.
  destruct (st_eq v') as [g|] eqn:Eg; [|congruence]. destruct Hg as ((Hd & Hne) & Rf).
  destruct (exec_step W HW zeroT box Hbox (st_map v') v o g HR Hd Hp) as (t' & x & Ex & Eeq & R' & A).
  assert (Hr' : reachable t') by (eapply reach_op; eauto).
  assert (TR : TRc t' (mkST (fst (sstep W g (st_map v') o)) (Some g) (st_custom v'))).
  { split; [|discriminate]. split; auto. split; auto. cbn. rewrite Eeq. split; auto. split; auto.
    split; auto. split; auto. unfold decides in *. rewrite Eeq. auto. }
  unfold t_wfun, t_wspec. rewrite Ex.
  destruct (sstep W g (st_map v') o) as [m' s] eqn:Es. cbn [fst snd] in *.
  destruct o as [p w|p w|p w|p w|p]; cbn [agree] in A; cbn [op_prefix] in Hp.
  - subst x. assert (B : exists b, s = OutBool b).
    { cbn [sstep op_prefix] in Es. destruct (st_map v' _); injection Es as <- <-; eauto. }
    destruct B as [[|] ->].
    + eexists (Some t'), (Some _), _. split; [reflexivity|]. split; [|exact TR]. exists g. rewrite Es. split; [first [exact Eg|reflexivity]|]. split; reflexivity.
    + eexists None, None, _. split; [reflexivity|]. split; [|exact I]. exists g. rewrite Es. split; [first [exact Eg|reflexivity]|]. split; reflexivity.
  - subst x. assert (B : exists b, s = OutBool b).
    { cbn [sstep op_prefix] in Es. destruct (st_map v' _) as [[? ?]|]; injection Es as <- <-; eauto. }
    destruct B as [[|] ->].
    + eexists (Some t'), (Some _), _. split; [reflexivity|]. split; [|exact TR]. exists g. rewrite Es. split; [first [exact Eg|reflexivity]|]. split; reflexivity.
    + eexists None, None, _. split; [reflexivity|]. split; [|exact I]. exists g. rewrite Es. split; [first [exact Eg|reflexivity]|]. split; reflexivity.
  - subst x. assert (B : s = OutNone).
    { cbn [sstep op_prefix] in Es. destruct (st_map v' _) as [[? ?]|]; injection Es as <- <-; eauto. }
    subst s. eexists (Some t'), (Some _), _. split; [reflexivity|]. split; [|exact TR]. exists g. rewrite Es. split; [first [exact Eg|reflexivity]|]. split; reflexivity.
  - subst x. assert (B : exists b, s = OutVal b).
    { cbn [sstep op_prefix] in Es. destruct (st_map v' _) as [[? ?]|]; injection Es as <- <-; eauto. }
    destruct B as [b ->]. eexists (Some t'), (Some _), _. split; [reflexivity|]. split; [|exact TR]. exists g. rewrite Es. split; [first [exact Eg|reflexivity]|]. split; reflexivity.
  - destruct A as (b & -> & _). eexists (Some t'), (Some _), _. split; [reflexivity|]. split; [|exact TR]. exists g. rewrite Es. split; [first [exact Eg|reflexivity]|]. split; [reflexivity|].
    exists b. split; auto.
    destruct (C09_remove_partial W IPW zeroT box Hbox goeq v (the_prefix p) Hr Hp) as (t2 & b2 & E2 & _ & _ & Hb).
    rewrite (Get_rel (st_map v')), (both_rel (st_map v')) in Hb by auto.
    assert (b2 = b); [|subst; auto].
    cbn [exec] in Ex. replace (tbl_Remove W (Some v) p) with (tbl_Remove W (Some v) (Some (the_prefix p))) in Ex by (destruct p; reflexivity).
    rewrite E2 in Ex. cbn in Ex. congruence.
Qed.

(* ---- reads ---- *)
Lemma walk_listing m t : reachable t -> Rel m t -> exists L, listing W m L /\ length L = length (entries (tx_trie t)) /\
  forall (S : Type) (cb : prefix -> T -> S -> S * bool) (st : S),
      tbl_Walk W zeroT (fun _ _ => false) t cb st = Ok (until_false (fun e => cb (fst e) (snd e)) L st).
Proof.
  intros Hr HR. pose proof (rwf W IPW zeroT box goeq _ Hr) as Hw. exists (map (ub zeroT) (entries (tx_trie t))). split; [split|split].
  - intros p v. rewrite in_map_iff. split.
    + intros ([p' d] & E & I). unfold ub in E; cbn in E. injection E as -> <-.
      pose proof (ewf _ _ _ Hw I) as Hp. cbn in Hp. split; auto. rewrite <- (stored_rel m t) by auto.
      rewrite (stored_fk W IPW) by auto. pose proof (In_fk W _ _ _ Hw I) as F. unfold ekey in F; cbn in F. rewrite F. reflexivity.
    + intros (Hp & E). rewrite <- (stored_rel m t) in E by auto. rewrite (stored_fk W IPW) in E by auto. destruct (fk (key p) (tx_trie t)) as [e|] eqn:F; [|discriminate].
      cbn [option_map] in E. assert (E2 : ub zeroT e = (p, v)) by congruence. exists e. split; auto. apply (fk_In W) in F. tauto.
  - eapply (SS_map (ub zeroT) (@elt W T) _ (fun e => wf_prefix W (fst e))).
    + apply entries_wf in Hw. eapply Forall_impl; [|exact Hw]. intros e [He _]. exact He.
    + intros x y Hx Hy H. apply blt_lex; auto.
    + apply (entries_sorted W []); auto.
  - apply map_length.
  - intros S cb st. unfold tbl_Walk. rewrite (Walk_run W HW (fun _ _ => false) (fun _ _ => false) []); auto; [|discriminate].
    rewrite run_until, until_map. reflexivity.
Qed.
(* Diff never calls the comparator when the left table is empty *)
Lemma diff_zero (l r : tableX T) (S : Type) changed left right unchanged (st : S) : tx_trie l = Nil -> reachable r ->
  tbl_Diff W zeroT (fun _ _ => false) l r changed left right unchanged st =
  tbl_Diff W zeroT (fun _ _ => false) {| tx_trie := Nil; tx_eq := Some dflt |} r changed left right unchanged st.
Proof.
  intros El Hr. pose proof (rwf W IPW zeroT box goeq _ Hr) as Hw. unfold tbl_Diff, Diff. rewrite El. cbn [tx_trie tx_eq].
  set (c1 := fun g : prefix -> T -> S -> S * bool => fun p d => g p (unbox d)).
  set (c2 := fun g : prefix -> T -> T -> S -> S * bool => fun p d d' => g p (unbox d) (unbox d')).
  replace {| Removed := _; Added := _; Modified := _; Same := _ |}
    with {| Removed := on1 (option_map c1 left); Added := on1 (option_map c1 right);
            Modified := on2 (option_map c2 changed); Same := on1 (option_map c1 unchanged) |}
    by (destruct left, right, changed, unchanged; reflexivity).
  rewrite !(diff_run W (fun _ _ => true) (fun _ _ => false) ltac:(discriminate) (option_map c1 left) (option_map c1 right) (option_map c1 unchanged) (option_map c2 changed)); auto;
    try (intros e e' []); try (apply (fuel_ok W IPW zeroT box Hbox goeq); [exact I|exact Hw]).
Qed.
Lemma t_read : forall x r a v v' vs vs', t_call_ok W box goeq (KRead x r a) -> length a = length vs -> (v = None -> x = Cell None) -> Ro TRs v v' -> Forall2 TRs vs vs' ->
    t_rspec W zeroT r v' vs' (reply_of (t_rfun W zeroT r v vs)).
Proof.
  intros x r a v v' vs vs' Hk La Nv Hv Hvs.
  (* the uninitialised handle reads like the zero table *)
  assert (Z : TRs zero_table st_zero).
  { split; [constructor|]. split; [apply Rel_empty; reflexivity|]. split; auto. split; [split; reflexivity|]. cbn. discriminate. }
  set (t := match v with Some t => t | None => zero_table end). set (m := match v' with Some w => st_map w | None => sempty end).
  assert (Hr : reachable t /\ Rel m t).
  { destruct v as [t0|], v' as [w|]; try contradiction; [|destruct Z as (? & ? & _); auto]. destruct Hv as (? & ? & _); auto. }
  destruct Hr as [Hr HR]. pose proof (rwf W IPW zeroT box goeq _ Hr) as Hw.
  unfold t_rspec. fold m. destruct r as [|p|p|go|hc hl hr hu go]; cbn [t_call_ok t_rfun] in *.
  - destruct (walk_listing m t Hr HR) as (L & HL & LL & _). exists L. split; auto. cbn. f_equal. f_equal.
    assert (E : tbl_NumEntries v = NumEntries t) by (destruct v; reflexivity). rewrite E. unfold NumEntries. rewrite (NumNodes_entries W _ _ Hw), LL. reflexivity.
  - destruct Hk as (Hp & _). unfold wf_prefixI in Hp.
    assert (E : tbl_Get W zeroT v p = Get W zeroT t (Some (the_prefix p))).
    { destruct v as [t0|]; [|destruct p; reflexivity]. rewrite (tbl_Get_Get W zeroT). destruct p; reflexivity. }
    rewrite E, (Rel_Get W HW zeroT box Hbox m) by auto. destruct (m _) as [[? ?]|]; reflexivity.
  - destruct Hk as (Hp & _). unfold wf_prefixI in Hp.
    assert (E : tbl_LongestMatch W zeroT v p = LongestMatch W zeroT t (Some (the_prefix p))).
    { destruct v as [t0|]; [|destruct p; reflexivity]. unfold t, tbl_LongestMatch, LongestMatch.
      replace (tx_LongestMatch W t0 (Some (the_prefix p))) with (tx_LongestMatch W t0 p) by (destruct p; reflexivity).
      unfold tx_LongestMatch, longestMatch. destruct (Match _ _ _) as [[np d]|]; [|reflexivity]. destruct (_ =? _); reflexivity. }
    rewrite E. pose proof (C10_longest_match W IPW zeroT box goeq t _ Hr Hp) as C.
    pose proof (LongestMatch_eq W zeroT t (the_prefix p)) as LE. pose proof (Match_spec W HW _ [] _ Hw Hp) as MS.
    destruct (LongestMatch W zeroT t (Some (the_prefix p))) as [[y f] p'] eqn:LM. exists y, f, p'. split; auto. destruct f.
    + destruct C as (C1 & C2 & C3 & C4). split; auto. split; auto. split.
      * destruct (Match W (tx_trie t) (the_prefix p)) as [[np d]|]; [|discriminate]. injection LE as -> ->. destruct MS as (I & _).
        rewrite <- (stored_rel m t) by auto. rewrite (stored_fk W IPW) by auto. pose proof (In_fk W _ _ _ Hw I) as F. unfold ekey in F; cbn in F. rewrite F. reflexivity.
      * intros p2 W2 H2 Cv. apply C4; auto. apply (Get_rel m); auto.
    + destruct C as (C1 & C2 & C3). split; auto. split; auto. intros p2 W2 Cv H2. apply (Get_rel m t) in H2; auto. rewrite C3 in H2; auto. discriminate.
  - destruct Hk as ((s & ->) & _). destruct v as [t0|], v' as [w|]; try contradiction.
    + destruct (walk_listing m t Hr HR) as (L & HL & LL & Hwk). exists L. split; auto. unfold t in Hwk. rewrite Hwk. cbn [bind reply_of].
      rewrite (until_ext (fun e => seen go (fst e, snd e)) (fun e st => (st ++ [e], go (st ++ [e])))) by (intros [? ?] st; reflexivity).
      destruct (until_false _ L []); reflexivity.
    + discriminate (Nv eq_refl).
  - destruct Hk as ((s & ->) & (s' & ->)). destruct v as [l|], v' as [w|]; try contradiction; [|discriminate (Nv eq_refl)].
    destruct vs as [|r [|? ?]]; try discriminate. inversion Hvs as [|? w' ? ? Rr Hn]; subst. inversion Hn; subst.
    exists w, w'. split; auto. split; auto. destruct Hv as (Lr & LR & _ & Lg & _). destruct Rr as (Rr & RR & _ & _ & _).
    (* the table to compare with, and its comparator *)
    assert (G : exists (l2 : tableX T) (g : T -> T -> bool), reachable l2 /\ Rel (st_map w) l2 /\ decides l2 g /\ (forall v, g v v = true) /\
       (forall (S : Type) changed left right unchanged (st : S),
          tbl_Diff W zeroT (fun _ _ => false) l r changed left right unchanged st = tbl_Diff W zeroT (fun _ _ => false) l2 r changed left right unchanged st) /\
       (forall q, wf_prefix W q -> wanted g (st_map w (pkey W q)) (st_map w' (pkey W q)) = wanted (same w) (st_map w (pkey W q)) (st_map w' (pkey W q)))).
    { unfold same. destruct (st_eq w) as [g|].
      - destruct Lg as ((D & _) & Rf). exists l, g. auto 10.
      - destruct Lg as (E1 & E2). destruct dflt_equality as (g & Dg & Eg). exists {| tx_trie := Nil; tx_eq := Some dflt |}, g.
        split; [eapply reach_new; reflexivity|]. split; [|split; [|split; [|split]]].
        + destruct LR as ((X1 & X2) & X3). rewrite E2 in *. split; [split; [exact X1|exact X2]|exact X3].
        + exact Dg.
        + intros v. apply Eg. reflexivity.
        + intros. apply diff_zero; auto.
        + intros q Hq. rewrite <- (stored_rel (st_map w) l) by auto. rewrite (stored_fk W IPW) by (auto; rewrite E2; exact I). rewrite E2. reflexivity. }
    destruct G as (l2 & g & Lr2 & LR2 & D2 & Rf & ED & EW).
    pose proof (rwf W IPW zeroT box goeq _ Lr2) as Wl. pose proof (rwf W IPW zeroT box goeq _ Rr) as Wr.
    exists (reports W zeroT g l2 r). split; [|split].
    + intros q Hq. rewrite (reports_at W IPW zeroT box Hbox goeq) by auto. rewrite (stored_rel (st_map w)), (stored_rel (st_map w')) by auto. auto.
    + apply (reports_wf W IPW zeroT box Hbox goeq); auto.
    + destruct (C14_diff_order_partial W IPW zeroT box Hbox goeq (fun _ _ => false) l2 r g) as (R & ER & S1 & S2 & S3); auto; [discriminate|].
      rewrite (diff_log_reports W IPW zeroT box Hbox goeq _ _ _ g) in ER; auto; [|discriminate|apply (PropsTable.rinv W IPW zeroT box goeq); auto..].
      injection ER as <-. split; auto. split; auto. split; auto.
      rewrite ED. rewrite (Diff_reports W IPW zeroT box Hbox goeq l2 r g); auto; try (apply (PropsTable.rinv W IPW zeroT box goeq); auto); [|discriminate].
      cbn [bind reply_of].
      rewrite (until_ext _ (fun x st => if match x with RRemoved _ _ => hl | RAdded _ _ => hr | RChanged _ _ _ => hc | RUnchanged _ _ => hu end
                  then (st ++ [x], go (st ++ [x])) else (st, true))).
      * destruct (until_false _ _ []); reflexivity.
      * intros x st. destruct x; cbn [notify]; [destruct hl|destruct hr|destruct hc|destruct hu]; reflexivity.
Qed.

(* ---- Map ---- *)
Lemma node_split (t : trie T) : forall k e, wf k t -> In e (nodes t) -> In e (entries t) \/
  exists e0 e1, In e0 (entries t) /\ In e1 (entries t) /\ pre (key (fst e) ++ [false]) (ekey W e0) /\ pre (key (fst e) ++ [true]) (ekey W e1).
Proof.
  induction t as [|p d s h a l IHl r IHr]; intros k e H I; [destruct I|].
  destruct H as (Hp & Hk & _ & _ & Hn & Hl & Hr). rewrite nodes_node in I. cbn [entries]. destruct I as [<-|I].
  - destruct a; [left; cbn; auto|right]. destruct (Hn eq_refl) as [Nl Nr].
    pose proof (entries_nonnil W _ _ Hl Nl) as El. pose proof (entries_nonnil W _ _ Hr Nr) as Er.
    destruct (entries l) as [|e0 L0] eqn:EL; [congruence|]. destruct (entries r) as [|e1 L1] eqn:ER; [congruence|].
    exists e0, e1. apply entries_wf in Hl. apply entries_wf in Hr. rewrite EL in Hl. rewrite ER in Hr.
    inversion Hl as [|? ? [? Pl] ?]; subst. inversion Hr as [|? ? [? Pr] ?]; subst.
    split; [cbn; auto|]. split; [rewrite !in_app_iff; cbn; auto|]. auto.
  - apply in_app_or in I. destruct I as [I|I]; [destruct (IHl _ _ Hl I) as [X|(e0 & e1 & I0 & I1 & P)]|destruct (IHr _ _ Hr I) as [X|(e0 & e1 & I0 & I1 & P)]].
    + left. rewrite !in_app_iff. auto.
    + right. exists e0, e1. rewrite !in_app_iff. auto.
    + left. rewrite !in_app_iff. auto.
    + right. exists e0, e1. rewrite !in_app_iff. auto.
Qed.
Lemma Map_fails {St} (f : prefix -> option T -> St -> St * option T) eq (t : trie T) : (forall a b, eq a b <> OutOfFuel) -> forall st,
  (exists x, Map t f eq st = Ok x) \/ (Map t f eq st = Panic /\ exists e s, In e (nodes t) /\ eq (snd e) (snd (f (fst e) (snd e) s)) = Panic).
Proof.
  intros HO. induction t as [|p d s h a l IHl r IHr]; intros st; [left; eexists; reflexivity|].
  cbn [Map]. rewrite nodes_node. destruct (f p d st) as [st1 nd] eqn:Ef. destruct (eq d nd) as [b| |] eqn:Eq; cbn [bind].
  - destruct (IHl st1) as [[[st2 l'] ->]|[-> (e & s0 & I & X)]]; cbn [bind].
    + destruct (IHr st2) as [[[st3 r'] ->]|[-> (e & s0 & I & X)]]; cbn [bind]; [left; eauto|].
      right. split; auto. exists e, s0. split; auto. right. apply in_or_app. auto.
    + right. split; auto. exists e, s0. split; auto. right. apply in_or_app. auto.
  - right. split; auto. exists (p, d), st. split; [left; auto|]. cbn [fst snd]. rewrite Ef. exact Eq.
  - destruct (HO _ _ Eq).
Qed.
Lemma t_build : forall b a vs vs' R, t_call_ok W box goeq (KBuild b a) -> length a = length vs -> Forall2 TRs vs vs' -> t_bfun zeroT box b vs R ->
    (exists v v', R = Ok v /\ t_bspec W b vs' (Some v') /\ TRs v v') \/ (R = Panic /\ t_bspec W b vs' None).
Proof.
  intros [St mapper st] a vs vs' R (s & ->) La Hvs HR. destruct vs as [|t [|? ?]]; try discriminate.
  inversion Hvs as [|? w ? ? TR Hn]; subst. inversion Hn; subst. cbn [t_bfun t_bspec] in *. subst R.
  destruct mapper as [f|]; [|left; exists t, w; split; [reflexivity|split; [exists w; auto|auto]]].
  pose proof TR as (Hr & HRl & Hc & Hg & Ho). pose proof (PropsTable.rinv W IPW zeroT box goeq _ Hr) as (Hw & Hb).
  set (F := fun p d s => let (s', v) := f p (unbox d) s in (s', box v)).
  destruct (Map_fails F (ceq (tx_eq t)) (tx_trie t) Ho st) as [[[st' n] E]|[E (e & s0 & I & X)]].
  - left. set (t' := {| tx_trie := n; tx_eq := tx_eq t |}).
    assert (EM : tbl_Map zeroT box t (Some f) st = Ok (st', t')) by (unfold tbl_Map; fold F; rewrite E; reflexivity).
    rewrite EM. cbn [bind snd]. assert (Hr' : reachable t') by (eapply reach_map; eauto).
    destruct (st_eq w) as [g|] eqn:Eg.
    + destruct Hg as ((Hd & Hne) & Rf). destruct (rel_exists t' Hr') as [m' Hm'].
      exists t', (mkST m' (Some g) (st_custom w)). split; auto. split.
      * exists w. split; auto. split; auto. split; auto. cbn [st_map].
        destruct (C19_map_partial W IPW zeroT box Hbox goeq t t' g St f st st' Hr Hd EM) as (calls & C1 & C0 & C2 & C3 & C4 & C5 & C6).
        exists calls. split; auto.
        assert (CW : forall p x, In (p, x) calls -> wf_prefix W p).
        { intros p x Hi. rewrite Forall_forall in C0. apply (C0 _ Hi). }
        split; [|split].
        -- intros p x. split.
           ++ intros (Hp & Es). rewrite <- (stored_rel (st_map w) t) in Es by auto. destruct (C3 p x) as [C3a _]. destruct (C3a (conj Hp Es)) as [C3b C3c].
              split; auto. apply (Get_rel (st_map w) t); auto.
           ++ intros (Hi & Hh). pose proof (CW _ _ Hi) as Hp. split; auto. rewrite <- (stored_rel (st_map w) t) by auto. apply C3. split; auto. apply (Get_rel (st_map w) t); auto.
        -- intros p x y Hi Hh. pose proof (CW _ _ (in_combine_l _ _ _ _ Hi)) as Hp. rewrite <- (stored_rel m' t') by auto. unfold same. rewrite Eg. apply C4; auto. apply (Get_rel (st_map w) t); auto.
        -- intros q Hq. rewrite <- (Get_rel m' t'), <- (Get_rel (st_map w) t) by auto. rewrite C5 by auto. tauto.
      * split; [exact Hr'|]. split; [exact Hm'|]. split; [exact Hc|]. split; [|exact Ho]. cbn. auto.
    + destruct Hg as (E1 & E2). rewrite E2 in E. cbn in E. injection E as <- <-.
      assert (t' = t) by (destruct t; cbn in *; subst; reflexivity). subst t'. rewrite H. exists t, w. split; auto. split; auto.
      exists w. split; auto. split; auto. split; auto. exists []. split; [constructor|].
      assert (NH : forall p, wf_prefix W p -> ~ has W (st_map w) p).
      { intros p Hp Hh. apply (Get_rel _ t) in Hh; auto. rewrite (Get_fk W HW) in Hh by auto. rewrite E2 in Hh. discriminate. }
      split; [|split].
      * intros p x. split; [intros (Hp & Es); destruct (NH p Hp); unfold has; congruence|intros [[] _]].
      * intros p x y [].
      * tauto.
  - right. unfold tbl_Map. fold F. rewrite E. split; auto. exists w. split; auto.
    pose proof (ewf W _ _ (act_wf W _ _ Hw) I) as Hp.
    assert (NI : ~ In e (entries (tx_trie t))).
    { intros Ie. destruct (boxed_entries _ _ _ Hb Ie) as [x Ex]. unfold F in X. destruct (f _ _ _) as [s1 y]. cbn [snd] in X. rewrite Ex in X.
      destruct (st_eq w) as [g|]; [destruct Hg as ((Hd & _) & _); rewrite Hd in X; discriminate|]. destruct Hg as (_ & E2). rewrite E2 in I. destruct I. }
    split.
    + destruct (st_custom w); auto. destruct (Hc eq_refl) as [E1|E1].
      * destruct (st_eq w) as [g|]; [destruct Hg as ((_ & Hne) & _); congruence|]. destruct Hg as (_ & E2). rewrite E2 in I. destruct I.
      * rewrite E1 in X. cbn [ceq] in X. destruct (dflt_ok (snd e) (snd (F (fst e) (snd e) s0))) as [c0 Ec]. congruence.
    + exists (fst e). split; auto. destruct (node_split _ _ _ Hw I) as [Ie|(e0 & e1 & I0 & I1 & P0 & P1)]; [contradiction|]. split.
      * intros Hh. apply (Get_rel _ t) in Hh; auto. rewrite (Get_fk W HW) in Hh by auto. apply NI.
        rewrite <- (nodes_filter W _ _ Hw). apply filter_In. split; auto. destruct (fk (key (fst e)) (tx_trie t)); auto.
      * pose proof (ewf W _ _ Hw I0) as W0. pose proof (ewf W _ _ Hw I1) as W1.
        assert (Hl : plen (fst e) < W).
        { apply pre_length in P0. rewrite app_length in P0. cbn in P0. destruct W0 as [_ W0].
          pose proof (nlen_key W (fst e)) as N1. pose proof (nlen_key W (fst e0)) as N2. unfold nlen, ekey in *. lia. }
        split; auto. exists (fst e0), (fst e1). split; auto. split; auto.
        rewrite <- !(Get_rel _ t) by auto. rewrite !(Get_fk W HW) by auto. change (key (fst e0)) with (ekey W e0). change (key (fst e1)) with (ekey W e1).
        rewrite (In_fk W _ _ _ Hw I0), (In_fk W _ _ _ Hw I1). destruct e0, e1. cbn [snd]. split; auto. split; auto.
        split; [apply (covers_half W false)|apply (covers_half W true)]; auto.
Qed.

Lemma table_meets : meets (t_wfun W zeroT box) (t_rfun W zeroT) (t_bfun zeroT box) (zero_table (T := T)) t_new (t_thawed goeq)
  (t_wspec W) (t_rspec W zeroT) (t_bspec W) st_zero (st_new goeq) st_thaw (t_call_ok W box goeq) TRc TRs.
Proof.
  constructor.
  - intros v v' [H _]. exact H.
  - split; [constructor|]. split; [apply Rel_empty; reflexivity|]. split; auto. split; [split; reflexivity|]. cbn. discriminate.
  - intros e [->|(g & -> & Rf & Hn)].
    + destruct dflt_equality as (g & Dg & Eg). exists (mkST sempty (Some g) false). split; [split; [reflexivity|exists g; split; [reflexivity|left; auto]]|].
      split; [|discriminate]. split; [eapply reach_new; reflexivity|]. split; [apply Rel_empty; reflexivity|]. split; [auto|]. split.
      * split; [split; [exact Dg|discriminate]|]. intros x. apply Eg. reflexivity.
      * intros a b. cbn [t_new tx_eq ceq]. destruct (dflt_ok a b) as [c ->]. discriminate.
    + exists (mkST sempty (Some g) true). split; [split; [reflexivity|exists g; split; [reflexivity|right; auto]]|].
      split; [|discriminate]. split; [eapply reach_custom; reflexivity|]. split; [apply Rel_empty; reflexivity|]. split; [discriminate|]. split.
      * split; [split; [|discriminate]|exact Rf]. intros a b. cbn. destruct (Hn a) as [x Ex], (Hn b) as [y Ey]. rewrite Ex, Ey. cbn.
        pose proof (Hbox a) as Ba. pose proof (Hbox b) as Bb. rewrite Ex in Ba. rewrite Ey in Bb. cbn in Ba, Bb. congruence.
      * intros [a|] [b|]; discriminate.
  - intros t v s _ (Hr & HR & Hc & Hg & Ho). pose proof (reach_Table_ W zeroT box goeq t _ Hr eq_refl) as Hr'.
    change (reachable (t_thawed goeq t)) in Hr'.
    assert (HR' : Rel (st_map v) (t_thawed goeq t)) by exact HR.
    destruct (st_eq v) as [g|] eqn:Eg.
    + destruct Hg as ((Hd & Hne) & Rf). exists v. split; [split; [reflexivity|]; split; [reflexivity|]; rewrite Eg; reflexivity|].
      destruct (tx_eq t) as [c|] eqn:Et; [|congruence].
      assert (EQ : t_thawed goeq t = t) by (destruct t; cbn in *; subst; reflexivity). rewrite EQ.
      split; [|congruence]. split; auto. split; auto. rewrite Eg, Et. split; auto.
    + destruct Hg as (E1 & E2). destruct dflt_equality as (g & Dg & Eg').
      exists (mkST (st_map v) (Some g) (st_custom v)). split; [split; [reflexivity|split; [reflexivity|]]; rewrite Eg; exists g; auto|].
      split; [|discriminate]. split; [exact Hr'|]. split; [exact HR'|]. unfold t_thawed, t_thaw. rewrite E1. cbn [tx_eq st_custom st_eq].
      split; [auto|]. split; [split; [split; [exact Dg|discriminate]|intros x; apply Eg'; reflexivity]|].
      intros a b. cbn [ceq]. destruct (dflt_ok a b) as [c ->]. discriminate.
  - exact t_read.
  - exact t_build.
  - exact t_write.
Qed.
End Sim.
