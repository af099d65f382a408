(* PropsCb.v - C55: callbacks may use the library.  The callbacks of Walk, Diff
   and Map, and those of a set's WalkPrefixes, are programs here (client, in
   HeapCb.v): they may call any function of the package on any handle, the one
   whose snapshot is being walked included, and walk and map tables themselves. *)
From Verif Require Export HeapCbMap PropsTable PropsSet.
From Verif Require Import HeapCost PropsCost2.
From Coq Require Import Arith Sorted ZifyBool ZifyNat ZifyN.
Local Open Scope prog_scope.

Section C55.
Variable W : N.
Hypothesis IPW : ip_width W.
Context {T : Type}.
Variable zeroT : T.
Variable box : T -> option T.
Hypothesis Hbox : forall v, unbox zeroT (box v) = v.
Variable goeq : T -> T -> res bool.
Notation unbox := (unbox zeroT).
Notation Get := (Get W zeroT).
Notation reachable := (reachable W zeroT box goeq).
Notation decides := (decides box).
Notation stored := (PropsTable.stored W zeroT).
Notation ieq := (defaultComparator goeq).
Notation M := (prog T).
Let HW : 0 < W /\ W < 2 ^ 15 := ip_HW W IPW.

(* a callback's program *)
Definition callback {A} (m : M A) : Prop := client W ieq (table_calls W ieq) A m.

(* ipv4/table.go:233-239 Walk, 257-289 Diff, 309-322 Map *)
Definition walk_table {S} (p : ptr) (cb : prefix -> T -> S -> M (S * bool)) (st : S) : M (S * bool) :=
  h_WalkE W p (fun pr d => cb pr (unbox d)) st.
Definition call1 {S} (g : option (prefix -> T -> S -> M (S * bool))) (p : prefix) (d : option T) (st : S) : M (S * bool) :=
  match g with Some g => g p (unbox d) st | None => ret (st, true) end.
Definition call2 {S} (g : option (prefix -> T -> T -> S -> M (S * bool))) (p : prefix) (d d' : option T) (st : S) : M (S * bool) :=
  match g with Some g => g p (unbox d) (unbox d') st | None => ret (st, true) end.
Definition diff_tables {S} (p q : ptr) (eq : comparator T) (changed : option (prefix -> T -> T -> S -> M (S * bool)))
    (left right unchanged : option (prefix -> T -> S -> M (S * bool))) (st : S) : M (S * bool) :=
  h_DiffE W p q {| eRemoved := call1 left; eAdded := call1 right; eModified := call2 changed;
                   eSame := option_map (fun g pr d => g pr (unbox d)) unchanged |} eq st.
Definition map_table {S} (p : ptr) (eq : comparator T) (mapper : prefix -> T -> S -> M (S * T)) (st : S) : M (S * ptr) :=
  h_MapE ieq (pathW W) p (fun pr d s => '(s', v) <- mapper pr (unbox d) s ;; ret (s', box v)) eq st.

Lemma callback_calm {A} (m : M A) : callback m -> calm m.
Proof. apply client_calm. apply table_calls_calm. Qed.

Lemma run_each_map {A B S} (g : B -> A) (f : A -> S -> M (S * bool)) (f' : B -> S -> M (S * bool)) l :
  (forall x st, f (g x) st = f' x st) -> forall st h, run (each f (map g l) st) h = run (each f' l st) h.
Proof.
  intros E. induction l as [|x l IH]; intros st h; cbn [each map]; [reflexivity|]. rewrite E, !run_pbind.
  destruct (run (f' x st) h) as [h1 [[st1 [|]]| |]]; cbn [fst snd]; auto.
Qed.

Lemma walkE_entries {S} (cb : prefix -> option T -> S -> M (S * bool)) t p st h :
  (forall p d s, calm (cb p d s)) -> wf W [] t -> denotes h p t ->
  run (h_WalkE W p cb st) h = run (each (fun e => cb (fst e) (snd e)) (entries t) st) h.
Proof.
  intros C Hw D. unfold h_WalkE, h_DiffE.
  set (H := {| eRemoved := _ |}).
  assert (CH : calmH H) by (unfold H; split; [|split; [|split]]; cbn; intros; first [apply calm_done|apply C|discriminate]).
  rewrite (diffE_run W ieq H CH (fun _ _ => Ok false) (fun _ _ => true) (fun _ _ => eq_refl) (fuelW W) Nil t);
    [|reflexivity|exact D|intros e e' []|apply (fuel_ok W IPW zeroT box Hbox goeq); [exact I|exact Hw]].
  rewrite (devs_nil_right W HW).
  - apply run_each_map. intros [q d] s. reflexivity.
  - unfold fuelW. destruct t; [cbn; lia|]. pose proof (depth_bound W HW _ _ Hw ltac:(discriminate)). unfold nlen in *. cbn [length] in *. lia.
Qed.

(* Walking a table is the same as first taking down all its entries, in order, and
   then calling the callback on one after the other until it returns false -
   whatever the callback does. *)
Theorem C55_walk : forall t, reachable t ->
  exists L : list (prefix * T),
    (forall p v, In (p, v) L <-> wf_prefix W p /\ stored t p = Some (p, v)) /\
    StronglySorted (fun e f => lex_lt W (fst e) (fst f)) L /\
    forall (h : heap T) p, denotes h p (tx_trie t) ->
    forall (S : Type) (cb : prefix -> T -> S -> M (S * bool)) (st : S), (forall q v s, callback (cb q v s)) ->
      run (walk_table p cb st) h = run (each (fun e => cb (fst e) (snd e)) L st) h.
Proof.
  intros t Ht. pose proof (rinv W IPW zeroT box goeq _ Ht) as (Hw & Hb).
  exists (map (ub zeroT) (entries (tx_trie t))). split; [|split].
  - destruct (C11_walk W IPW zeroT box goeq t Ht) as (L & L1 & L2 & L3).
    specialize (L3 (fun _ _ => false) ltac:(discriminate) (list (prefix * T)) (fun p v s => (s ++ [(p, v)], true)) []).
    assert (EL : L = map (ub zeroT) (entries (tx_trie t))).
    { unfold tbl_Walk in L3. rewrite (Walk_run W HW (fun _ _ => false) (fun _ _ => false) []) in L3 by (auto; discriminate).
      assert (A1 : forall (l : list (prefix * option T)) s, run_list (fun (e : prefix * option T) (s : list (prefix * T)) => (s ++ [(fst e, unbox (snd e))], true)) l s = (s ++ map (ub zeroT) l, true)).
      { induction l as [|x l IH]; intros s; cbn [run_list map]; [rewrite app_nil_r; reflexivity|]. rewrite IH, <- app_assoc. reflexivity. }
      assert (A2 : forall (l : list (prefix * T)) s, until_false (fun (e : prefix * T) (s : list (prefix * T)) => (s ++ [(fst e, snd e)], true)) l s = (s ++ l, true)).
      { induction l as [|[x y] l IH]; intros s; cbn [until_false fst snd]; [rewrite app_nil_r; reflexivity|]. rewrite IH, <- app_assoc. reflexivity. }
      rewrite A1, A2 in L3. cbn in L3. congruence. }
    rewrite <- EL. exact L1.
  - destruct (C11_walk W IPW zeroT box goeq t Ht) as (L & L1 & L2 & L3).
    eapply (SS_map (ub zeroT) (@elt W T) _ (fun e => wf_prefix W (fst e))).
    + apply entries_wf in Hw. eapply Forall_impl; [|exact Hw]. intros e [He _]. exact He.
    + intros x y Hx Hy H. apply blt_lex; auto.
    + apply (entries_sorted W []); auto.
  - intros h p D S cb st C. unfold walk_table.
    rewrite (walkE_entries _ _ _ _ _ ltac:(intros; apply callback_calm, C) Hw D).
    symmetry. apply run_each_map. intros [q d] s. reflexivity.
Qed.

(* The same of Diff: the callbacks get the reports that C13 and C14 describe. *)
Definition tell {S} (changed : option (prefix -> T -> T -> S -> M (S * bool)))
    (left right unchanged : option (prefix -> T -> S -> M (S * bool))) (x : report T) (st : S) : M (S * bool) :=
  match x with
  | RRemoved p v => match left with Some g => g p v st | None => ret (st, true) end
  | RAdded p v => match right with Some g => g p v st | None => ret (st, true) end
  | RChanged p v v' => match changed with Some g => g p v v' st | None => ret (st, true) end
  | RUnchanged p v => match unchanged with Some g => g p v st | None => ret (st, true) end
  end.
Definition callbacks {A} (g : option A) (P : A -> Prop) : Prop := match g with Some f => P f | None => True end.

Theorem C55_diff : forall (l r : tableX T) (g : T -> T -> bool), reachable l -> reachable r -> decides l g ->
  exists R : list (report T),
    diff_log W zeroT (fun _ _ => false) l r = Ok R /\
    (forall q, wf_prefix W q ->
       filter (fun x => eqk (pkey W (rprefix x)) (pkey W q)) R = wanted g (stored l q) (stored r q)) /\
    Forall (fun x => wf_prefix W (rprefix x)) R /\
    forall (h : heap T) p q, denotes h p (tx_trie l) -> denotes h q (tx_trie r) ->
    forall (S : Type) changed left right unchanged (st : S),
      callbacks changed (fun f => forall q v v' s, callback (f q v v' s)) ->
      callbacks left (fun f => forall q v s, callback (f q v s)) ->
      callbacks right (fun f => forall q v s, callback (f q v s)) ->
      callbacks unchanged (fun f => forall q v s, callback (f q v s)) ->
      (unchanged = None -> forall v, g v v = true) ->
      run (diff_tables p q (ceq (tx_eq l)) changed left right unchanged st) h =
      run (each (tell changed left right unchanged) R st) h.
Proof.
  intros l r g Hl Hr Hd. pose proof (rinv W IPW zeroT box goeq _ Hl) as (Wl & Bl). pose proof (rinv W IPW zeroT box goeq _ Hr) as (Wr & Br).
  exists (reports W zeroT g l r). split; [|split; [|split]].
  - apply (diff_log_reports W IPW zeroT box Hbox goeq); auto using (rinv W IPW zeroT box goeq). discriminate.
  - intros q Hq. apply (reports_at W IPW zeroT box Hbox goeq); auto.
  - apply (reports_wf W IPW zeroT box Hbox goeq); auto.
  - intros h p q Dl Dr S changed left right unchanged st C1 C2 C3 C4 Hn. unfold diff_tables, h_DiffE.
    set (H := {| eRemoved := _ |}).
    assert (CH : calmH H).
    { unfold H. split; [|split; [|split]]; cbn.
      - intros; unfold call1; destruct left; [apply callback_calm, C2|apply calm_done].
      - intros; unfold call1; destruct right; [apply callback_calm, C3|apply calm_done].
      - intros; unfold call2; destruct changed; [apply callback_calm, C1|apply calm_done].
      - intros f E. destruct unchanged as [u|]; [|discriminate]. injection E as <-. intros. apply callback_calm, C4. }
    rewrite (diffE_run W ieq H CH (ceq (tx_eq l)) (fg zeroT g)) with (l := tx_trie l) (r := tx_trie r); auto.
    + unfold reports. symmetry. apply run_each_map. intros e s. unfold H, tell, rep, reactE, call1, call2. cbn [eRemoved eAdded eModified eSame].
      destruct e, changed, left, right, unchanged; reflexivity.
    + unfold H. cbn [eSame]. destruct unchanged; [discriminate|]. intros _ d. unfold fg. auto.
    + intros e e' He He'. pose proof (boxed_entries _ _ _ Bl He) as [v Ev]. pose proof (boxed_entries _ _ _ Br He') as [v' Ev'].
      unfold fg. rewrite Ev, Ev', !Hbox. apply Hd.
    + apply (fuel_ok W IPW zeroT box Hbox goeq); auto.
Qed.

Hypothesis Hgoeq : forall x y, exists b, goeq x y = Ok b /\ (b = true <-> x = y).
Lemma ieq_is_ok : ieq_ok ieq.
Proof.
  intros [a|] [b|]; cbn; try (exists false; split; [reflexivity|discriminate]).
  - destruct (Hgoeq a b) as (e & E & H). exists e. split; [exact E|]. intros He. f_equal. apply H. exact He.
  - exists true. auto.
Qed.

(* Map with a mapper that uses the library: as long as the mapper's calls return,
   Map returns, and its result is that of Map with a mapper that just gives the
   same answers (replay); between two calls of the mapper Map touches nothing but
   nodes of its own, so the mapper never notices it. *)
Theorem C55_map : forall t (h : heap T) p, reachable t -> denotes h p (tx_trie t) ->
  (forall d v, exists b, ceq (tx_eq t) d (box v) = Ok b) ->
  forall (S : Type) (mapper : prefix -> T -> S -> M (S * T)) (st : S), (forall q v s, callback (mapper q v s)) ->
  (exists (X : nat -> Prop) log h0 s0 q v, (forall i, X i -> (length h <= i)%nat) /\ calls_made mapper X h st log h0 s0 /\
     forall x, snd (run (mapper q v s0) h0) <> Ok x) \/
  exists h' st' q (X : nat -> Prop) log t',
    run (map_table p (ceq (tx_eq t)) mapper st) h = (h', Ok (st', q)) /\
    (forall i, X i -> (length h <= i)%nat) /\ calls_made mapper X h st log h' st' /\
    tbl_Map zeroT box t (Some replay) ([], map snd log) = Ok ((map fst log, []), t') /\ reachable t' /\
    denotes h' q (tx_trie t') /\ denotes h' p (tx_trie t).
Proof.
  intros t h p Ht D EQ S mapper st C. pose proof (rinv W IPW zeroT box goeq _ Ht) as (Hw & Hb).
  assert (CALM : forall q v s, calm (mapper q v s)) by (intros; apply callback_calm, C).
  destruct (MapE_run ieq ieq_is_ok unbox box mapper CALM (ceq (tx_eq t)) EQ (pathW W) (tx_trie t) p st _ h (dom_all h) (denotes_dom h p _ D) (depth_wf W HW _ _ Hw))
    as [B|(h' & st' & q & X & log & t' & R & HX & CM & MP & RP)]; [left; exact B|right].
  exists h', st', q, X, log, {| tx_trie := t'; tx_eq := tx_eq t |}.
  assert (HM : tbl_Map zeroT box t (Some replay) ([], map snd log) = Ok ((map fst log, []), {| tx_trie := t'; tx_eq := tx_eq t |})).
  { unfold tbl_Map. specialize (MP [] []). rewrite app_nil_r in MP. unfold node_replay in MP. rewrite MP. reflexivity. }
  split; [exact R|]. split; [intros i Xi; apply HX in Xi; lia|]. split; [exact CM|]. split; [exact HM|].
  split; [eapply reach_map; eauto|]. split; [eapply repr_denotes; exact RP|].
  eapply denotes_grow; [|exact D]. intros i Hi. apply (cm_agree mapper CALM _ _ _ _ _ _ CM); [exact Hi|]. intros Xi. apply HX in Xi. lia.
Qed.

(* The use this is for: walk a table's snapshot and remove from its handle, on the
   way, the entries one does not want to keep.  The state of the callback is the
   root of the handle. *)
Definition prune (keep : prefix -> T -> bool) (q : prefix) (v : T) (root : ptr) : M (ptr * bool) :=
  if keep q v then ret (root, true) else '(n, _) <- h_del W ieq (pathW W) root q ;; ret (n, true).
Lemma prune_callback keep q v root : callback (prune keep q v root).
Proof.
  unfold prune. destruct (keep q v); [apply cl_result|]. apply cl_seq; [apply cl_call; constructor|]. intros [n e]. apply cl_result.
Qed.
Lemma remove_stored t q : reachable t -> wf_prefix W q ->
  reachable (set_trie t (fst (del W (tx_trie t) q))) /\
  forall x, wf_prefix W x -> stored (set_trie t (fst (del W (tx_trie t) q))) x = if eqk (pkey W x) (pkey W q) then None else stored t x.
Proof.
  intros Ht Hq. pose proof (rinv W IPW zeroT box goeq _ Ht) as (Hw & _).
  pose proof (del_spec W HW _ [] q Hw Hq (pre_nil _)) as R. destruct (del W (tx_trie t) q) as [tr err] eqn:E. destruct R as (R1 & R2 & R3 & R4). cbn [fst].
  split.
  - apply (reach_op W zeroT box goeq t (OpRemove (Some q)) _ (OutBool (match err with None => true | Some _ => false end)) Ht); [exact Hq|].
    cbn. rewrite E. reflexivity.
  - intros x Hx. rewrite !(stored_fk W IPW) by auto. cbn [tx_trie set_trie]. rewrite R2. unfold TrieOps.upd.
    destruct (keq (key W x) (key W q)) as [K|K].
    + apply (key_eq_iff W) in K; auto. rewrite (proj2 (eqk_spec _ _) K). reflexivity.
    + destruct (eqk (pkey W x) (pkey W q)) eqn:Q; auto. apply eqk_spec in Q. apply (key_eq_iff W) in Q; auto. congruence.
Qed.
Lemma prune_list keep : forall L t root h, Forall (fun e => wf_prefix W (fst e)) L -> reachable t -> denotes h root (tx_trie t) ->
  exists h' root' t', run (each (fun e => prune keep (fst e) (snd e)) L root) h = (h', Ok (root', true)) /\
    denotes h' root' (tx_trie t') /\ reachable t' /\
    forall x, wf_prefix W x -> stored t' x =
      if existsb (fun e => negb (keep (fst e) (snd e)) && eqk (pkey W x) (pkey W (fst e))) L then None else stored t x.
Proof.
  induction L as [|[q v] L IH]; intros t root h HL Ht D.
  - exists h, root, t. split; [reflexivity|]. split; [exact D|]. split; [exact Ht|]. reflexivity.
  - inversion HL as [|? ? Hq HL']; subst. cbn [fst] in Hq. cbn [each existsb fst snd]. unfold prune at 1. destruct (keep q v) eqn:K; cbn [negb andb orb].
    + cbn [pbind ret]. apply IH; auto.
    + pose proof (rinv W IPW zeroT box goeq _ Ht) as (Hw & _).
      destruct (C20_table_calls_compute W HW ieq ieq_is_ok h root (tx_trie t) D Hw q None (fun _ _ => Ok true)) as (_ & _ & _ & _ & R & _).
      destruct (remove_stored t q Ht Hq) as (Ht1 & ST).
      unfold same_outcome in R. rewrite !run_pbind. destruct (run (h_del W ieq (pathW W) root q) h) as [h1 [[n e]| |]]; cbn [fst snd] in R; try contradiction.
      destruct R as [R _]. cbn [fst snd run ret].
      change (run (ret (n, true)) h1) with (h1, @Ok (ptr * bool) (n, true)). cbn [fst snd].
      destruct (IH _ n h1 HL' Ht1 R) as (h' & root' & t' & E & D' & Ht' & ST').
      exists h', root', t'. split; [exact E|]. split; [exact D'|]. split; [exact Ht'|].
      intros x Hx. rewrite ST', ST by auto. destruct (eqk (pkey W x) (pkey W q)); cbn [orb]; [|reflexivity]. destruct (existsb _ L); reflexivity.
Qed.

Theorem C55_remove_while_walking : forall t (h : heap T) p keep, reachable t -> denotes h p (tx_trie t) ->
  exists h' root t', run (walk_table p (prune keep) p) h = (h', Ok (root, true)) /\
    denotes h' root (tx_trie t') /\ reachable t' /\ denotes h' p (tx_trie t) /\
    forall q, wf_prefix W q ->
      stored t' q = match stored t q with
                    | Some (q', v) => if keep q' v then Some (q', v) else None
                    | None => None
                    end.
Proof.
  intros t h p keep Ht D. destruct (C55_walk t Ht) as (L & L1 & L2 & L3).
  assert (WL : Forall (fun e : prefix * T => wf_prefix W (fst e)) L).
  { apply Forall_forall. intros [q v] I. apply L1 in I. apply I. }
  specialize (L3 h p D ptr (prune keep) p (prune_callback keep)).
  destruct (prune_list keep L t p h WL Ht D) as (h' & root & t' & E & D' & Ht' & ST).
  exists h', root, t'. rewrite L3. split; [exact E|]. split; [exact D'|]. split; [exact Ht'|]. split.
  { assert (G : HeapCbProof.grows h h').
    { replace h' with (fst (run (each (fun e => prune keep (fst e) (snd e)) L p) h)) by (rewrite E; reflexivity).
      apply calm_grows. apply calm_each. intros [q v] s. apply callback_calm, prune_callback. }
    eapply grows_denotes; [exact G|exact D]. }
  intros q Hq. rewrite ST by auto. pose proof (rinv W IPW zeroT box goeq _ Ht) as (Hw & _).
  destruct (existsb _ L) eqn:X.
  - apply existsb_exists in X. destruct X as ([q' v] & I & B). cbn [fst snd] in B. apply andb_prop in B. destruct B as [B1 B2].
    apply negb_true_iff in B1. apply eqk_spec in B2. apply L1 in I. destruct I as [Hq' I].
    assert (EQ : stored t q = Some (q', v)).
    { rewrite <- I. rewrite !(stored_fk W IPW) by auto. apply (key_eq_iff W) in B2; auto. rewrite B2. reflexivity. }
    rewrite EQ, B1. reflexivity.
  - destruct (stored t q) as [[q' v]|] eqn:EQ; [|reflexivity].
    assert (I : wf_prefix W q' /\ pkey W q' = pkey W q /\ stored t q' = Some (q', v)).
    { rewrite (stored_fk W IPW) in EQ by auto. destruct (fk W (key W q) (tx_trie t)) as [[q1 d1]|] eqn:F; [|discriminate].
      cbn in EQ. injection EQ as -> <-. pose proof F as F'. apply (fk_In W) in F. destruct F as [I K]. unfold ekey in K. cbn [fst] in K.
      pose proof (ewf W _ _ Hw I) as Hq'. cbn [fst] in Hq'. split; [exact Hq'|]. split; [apply (key_eq_iff W); auto|].
      rewrite (stored_fk W IPW), K, F' by auto. reflexivity. }
    destruct I as (Hq' & K & I). destruct (keep q' v) eqn:KK; [reflexivity|]. exfalso.
    assert (IL : In (q', v) L) by (apply L1; auto).
    assert (X' : existsb (fun e => negb (keep (fst e) (snd e)) && eqk (pkey W q) (pkey W (fst e))) L = true).
    { apply existsb_exists. exists (q', v). split; [exact IL|]. cbn [fst snd]. rewrite KK. cbn. apply eqk_spec. auto. }
    congruence.
Qed.
End C55.

(* The same of sets: ipv4/set.go:212-216 WalkPrefixes *)
Section C55Set.
Variable W : N.
Hypothesis IPW : ip_width W.
Definition set_callback {A} (m : prog unit A) : Prop := client W (fun _ _ => Ok true) (set_calls W) A m.
Definition walk_set {S} (p : ptr) (cb : prefix -> S -> prog unit (S * bool)) (st : S) : prog unit (S * bool) :=
  h_WalkE W p (fun pr _ => cb pr) st.
Lemma set_calls_calm A m : set_calls W A m -> calm m.
Proof.
  intros [] O; auto using ownp_setNodeFromPrefix, ownp_from_range, ownp_Union, ownp_difference, ownp_intersect, ownp_Match, ownp_Equal.
  - apply ownp_from_range.
  - apply ownp_difference.
  - apply ownp_intersect.
Qed.
Theorem C55_set_walk : forall s (h : heap unit) p, set_value W s -> denotes h p s ->
  forall (S : Type) (cb : prefix -> S -> prog unit (S * bool)) (st : S), (forall q x, set_callback (cb q x)) ->
    run (walk_set p cb st) h = run (each cb (SetSpec.stored s) st) h.
Proof.
  intros s h p Hs D S cb st C. unfold walk_set.
  assert (CALM : forall q x, calm (cb q x)) by (intros; eapply client_calm; [apply set_calls_calm|apply C]).
  rewrite (walkE_entries W IPW tt (fun _ => Some tt) ltac:(intros []; reflexivity) (fun _ _ => Ok true) _ s); [|intros; apply CALM|exact (proj1 (value_swf W (ip_HW W IPW) s Hs))|exact D].
  assert (E : SetSpec.stored s = map fst (entries s)).
  { clear. induction s as [|q d z hh a l IHl r IHr]; [reflexivity|]. cbn [SetSpec.stored entries]. rewrite !map_app, <- IHl, <- IHr. destruct a; reflexivity. }
  rewrite E. symmetry. apply run_each_map. reflexivity.
Qed.
End C55Set.
