(* PropsCost2.v - C51: what an operation costs at pointer level.  [instructions m h]
   counts the node loads, node stores and node allocations that running m on the
   heap h executes, [allocated m h] the new nodes. *)
From Verif Require Export HeapCost2 PropsWait PropsTable PropsSet.
From Verif Require Import SetProof.
From Coq Require Import Arith Lia ZifyBool ZifyNat ZifyN.
Local Open Scope nat_scope.

Section Tables.
Variable W : N.
Hypothesis IPW : ip_width W.
Context {T : Type}.
Variable zeroT : T.
Variable box : T -> option T.
Hypothesis Hbox : forall v, unbox zeroT (box v) = v.
Variable goeq : T -> T -> res bool.
Notation w := (N.to_nat W).
Notation value := (ptr * option (comparator T))%type.
Notation modify o x := (t_wprog W zeroT box goeq o x (@nil value)).
Notation read r x xs := (@t_rprog W T zeroT r (Some x) xs).
Let HW : (0 < W /\ W < 2 ^ 15)%N := ip_HW W IPW.

Definition t_copies (o : op T) : nat :=
  match o with
  | OpInsert _ _ | OpUpdate _ _ | OpInsertOrUpdate _ _ => w + 3
  | OpGetOrInsert _ _ => 2 * w + 5
  | OpRemove _ => w + 2
  end.
(* A modification, whatever the table and its number of entries: no existing node
   changes, at most a path of nodes is allocated. *)
Theorem C51_table_modifications : forall (o : op T) (x : value) (h : heap T),
  (forall i, i < length h -> nth_error (fst (run (modify o x) h)) i = nth_error h i) /\
  allocated (modify o x) h <= t_copies o /\
  instructions (modify o x) h <= t_wsteps W o.
Proof.
  intros o [p e] h.
  assert (B : ConcWait.within (t_wsteps W o) (t_copies o) (modify o (p, e))).
  { assert (P : pathW W = w + 2) by (unfold pathW; lia). destruct o as [q v|q v|q v|q v|q]; cbn [t_wprog t_wsteps t_copies].
    - eapply wi_bind; [apply wi_Insert|lia|lia|intros [n [er|]]]; w1.
    - eapply wi_bind; [apply wi_Update|lia|lia|intros [n [er|]]]; w1.
    - eapply wi_bind; [apply wi_InsertOrUpdate|lia|lia|intros]; w1.
    - eapply wi_bind; [apply wi_GetOrInsert|lia|lia|intros [n r]]; repeat w1.
    - eapply wi_bind; [apply wi_del|lia|lia|intros [n [er|]]]; w1. }
  destruct (atmost_allocated _ _ _ _ (within_atmost _ _ _ B h)) as [B1 B2]. split; [|auto].
  apply run_keeps. apply ownp_owns with any. destruct o as [q v|q v|q v|q v|q]; cbn [t_wprog].
  - apply ownp_bind_any; [apply ownp_Insert|]. intros [n [er|]] O _; apply ownp_ret_any.
  - apply ownp_bind_any; [apply ownp_Update|]. intros [n [er|]] O _; apply ownp_ret_any.
  - apply ownp_bind_any; [apply ownp_InsertOrUpdate|]. intros n O _; apply ownp_ret_any.
  - apply ownp_bind_any; [apply ownp_GetOrInsert|]. intros [n r] O _. apply ownp_bind_any; [apply ownp_load|]. intros; apply ownp_ret_any.
  - apply ownp_bind_any; [apply ownp_del|]. intros [n er] O _; apply ownp_ret_any.
Qed.
Lemma ro_match : forall fuel p k, readonly (@h_Match W T fuel p k).
Proof.
  induction fuel as [|f IH]; intros p k; cbn [h_Match]; [exact I|]. destruct p as [l|]; [|exact I]. apply ro_bind; [apply ro_load|intros n].
  destruct (_ <? _)%N; [exact I|]. destruct (contains _ _ _) as [[[matches exact] ?] child]. destruct (negb matches); [exact I|].
  apply ro_bind; [destruct (negb exact); [apply IH|exact I]|intros b]. destruct (negb _); [exact I|]. destruct (negb _); exact I.
Qed.
Lemma ro_find p q : readonly (@t_find W T p q).
Proof. unfold t_find. apply ro_bind; [apply ro_match|intros [l|]]; [|exact I]. apply ro_bind; [apply ro_load|intros; exact I]. Qed.
(* NumEntries reads one node, Get and LongestMatch one path; nothing is written. *)
Theorem C51_table_lookups : forall (x : value) (h : heap T) (q : option prefix),
  (fst (run (read RNumEntries x []) h) = h /\ instructions (read RNumEntries x []) h <= 1) /\
  (fst (run (read (RGet q) x []) h) = h /\ instructions (read (RGet q) x []) h <= w + 3) /\
  (fst (run (read (RLongestMatch q) x []) h) = h /\ instructions (read (RLongestMatch q) x []) h <= w + 3).
Proof.
  intros [p e] h q. cbn [t_rprog].
  assert (F : forall A (k : option (prefix * option T) -> prog T A), (forall y, readonly (k y)) -> (forall y s, ConcWait.within s 0 (k y)) ->
     fst (run (pbind (t_find W p q) k) h) = h /\ instructions (pbind (t_find W p q) k) h <= w + 3).
  { intros A k Rk Wk. split; [apply ro_run, ro_bind; auto using ro_find|].
    apply (within_atmost (w + 3) 0). eapply wi_bind; [apply wi_find|lia|lia|intros; apply Wk]. }
  split; [|split].
  - split; [apply ro_run; apply ro_bind; [destruct p; cbn; auto|intros; exact I]|apply (within_atmost 1 0); repeat w1].
  - apply F; [intros [[np d]|]; [destruct (_ =? _)%N|]; exact I|intros [[np d]|] s; [wif|]; w1].
  - apply F; [intros [[np d]|]; exact I|intros [[np d]|] s; w1].
Qed.
(* L lists the entries of t *)
Definition lists (t : tableX T) (L : list (N * N)) : Prop :=
  NoDup L /\ forall k, In k L <-> exists p, wf_prefix W p /\ pkey W p = k /\ snd (Get W zeroT t (Some p)) = true.
(* every table has such a list *)
Lemma listed t : reachable W zeroT box goeq t -> exists L, lists t L /\ length L = length (entries (tx_trie t)).
Proof.
  intros Ht. destruct (entries_listed W IPW zeroT box goeq t Ht) as [ND HL]. eexists. split; [split; [exact ND|exact HL]|]. apply map_length.
Qed.
Lemma nodes_list t L : reachable W zeroT box goeq t -> lists t L -> node_count (tx_trie t) <= 2 * length L.
Proof.
  intros Ht [ND HL]. rewrite (entries_count W IPW zeroT box goeq t L Ht ND HL).
  destruct (reach_inv W HW zeroT box goeq _ Ht) as [Hw _].
  destruct (tx_trie t) as [|p d s hh a l r] eqn:E; [cbn; lia|]. rewrite <- E in *.
  pose proof (nodes_entries W [] (tx_trie t) Hw ltac:(congruence)). lia.
Qed.
(* Walk reads at most two nodes for each entry, Diff at most six for each entry of
   either table; nothing is written. *)
Theorem C51_table_walk : forall t L p e (h : heap T) go, reachable W zeroT box goeq t -> lists t L -> denotes h p (tx_trie t) ->
  fst (run (read (RWalk go) (p, e) []) h) = h /\ instructions (read (RWalk go) (p, e) []) h <= 2 * length L.
Proof.
  intros t L p e h go Ht HL Dp. cbn [t_rprog]. unfold h_Walk, h_Diff. pose proof (nodes_list t L Ht HL) as B. split.
  - apply ro_run, ro_bind; [apply ro_diff|]. intros [l b]. exact I.
  - eapply Nat.le_trans; [|exact B].
    eapply (am_reads_bind (node_count (tx_trie t))); [apply ro_run, ro_diff|apply (cost_diff W _ _ h _ Nil (tx_trie t)); [reflexivity|exact Dp]|lia|intros [l b]; apply am_ret].
Qed.
Theorem C51_table_diff : forall t u L M p q e e' (h : heap T) hc hl hr hu go, reachable W zeroT box goeq t -> reachable W zeroT box goeq u ->
  lists t L -> lists u M -> denotes h p (tx_trie t) -> denotes h q (tx_trie u) ->
  fst (run (read (RDiff hc hl hr hu go) (p, e) [(q, e')]) h) = h /\
  instructions (read (RDiff hc hl hr hu go) (p, e) [(q, e')]) h <= 6 * (length L + length M).
Proof.
  intros t u L M p q e e' h hc hl hr hu go Ht Hu HL HM Dp Dq. cbn [t_rprog]. unfold h_Diff.
  pose proof (nodes_list t L Ht HL) as B1. pose proof (nodes_list u M Hu HM) as B2. split.
  - apply ro_run, ro_bind; [apply ro_diff|]. intros [l b]. exact I.
  - eapply (am_reads_bind (weight (tx_trie t) (tx_trie u))); [apply ro_run, ro_diff|apply cost_diff; [exact Dp|exact Dq]| |intros [l b]; apply am_ret].
    pose proof (weight_le (tx_trie t) (tx_trie u)). lia.
Qed.
End Tables.

Section Sets.
Variable W : N.
Hypothesis IPW : ip_width W.
Notation w := (N.to_nat W).
Let HW : (0 < W /\ W < 2 ^ 15)%N := ip_HW W IPW.
Notation swf := (swf W).
Notation room := (room W).
Let NSn : forall a b : snode, (@nop unit) a b = true -> a = b. Proof. discriminate. Qed.
Notation value := (ptr * unit)%type.
Notation modify o p := (s_wprog W o (p, tt) (@nil value)).
Notation read r p := (s_rprog W r (Some (p, tt)) (@nil value)).

Lemma own_argp i : owns none (s_argp W (APrefix i) []).
Proof. eapply ownp_owns. apply ownp_setNodeFromPrefix. Qed.
Lemma run_leaf (h : heap unit) i : run (h_setNodeFromPrefix i) h = (h ++ [mkH i None 1 1 true None None], Ok (Some (length h))).
Proof. reflexivity. Qed.
Lemma leaf_den (h : heap unit) i : denotes (h ++ [mkH i None 1 1 true None None]) (Some (length h)) (setNodeFromPrefix i).
Proof. exists (length h), None, None. repeat split. apply nth_last. Qed.
Lemma grown (h : heap unit) n p t : denotes h p t -> denotes (h ++ [n]) p t.
Proof. apply denotes_grow. intros i Hi. rewrite nth_error_app1; auto. Qed.
(* Insert of a prefix into a set of any size *)
Theorem C51_set_insert : forall s p i (h : heap unit), set_value W s -> denotes h p s ->
  let m := modify (WInsert (APrefix i)) p in
  (forall j, j < length h -> nth_error (fst (run m h)) j = nth_error h j) /\
  allocated m h <= w + 2 /\ instructions m h <= 14 * (w + 1) + 1.
Proof.
  intros s p i h Hs Dp m. assert (Ss : swf [] s) by (apply value_swf; auto). pose proof (room_max W HW _ NSn s) as R.
  assert (A : atmost (14 * (w + 1) + 1) (w + 2) m h).
  { unfold m. cbn [s_wprog s_argp]. eapply am_bind; [apply within_atmost, wi_setNodeFromPrefix|lia|lia|].
    intros q Eq. rewrite run_leaf in Eq |- *. cbn [fst snd] in Eq |- *. injection Eq as <-.
    eapply am_bind; [eapply cost_union_active; [exact HW|apply grown; exact Dp|exact Ss|apply nth_last|reflexivity]|cbn [fst]; lia|lia|intros; apply am_ret]. }
  destruct (atmost_allocated _ _ _ _ A). split; [|auto]. apply run_keeps. unfold m. cbn [s_wprog]. apply ownp_owns with any.
  apply ownp_bind_any; [apply ownp_setNodeFromPrefix|]. intros q O _. apply ownp_bind_any; [apply ownp_Union|]. intros; apply ownp_ret_any.
Qed.
(* Remove of a prefix from a set of any size *)
Theorem C51_set_remove : forall s p i (h : heap unit), set_value W s -> denotes h p s -> wf_prefix W i ->
  let m := modify (WRemove (APrefix i)) p in
  (forall j, j < length h -> nth_error (fst (run m h)) j = nth_error h j) /\
  allocated m h <= 3 * (w + 1) + 1 /\ instructions m h <= 19 * (w + 1) + 1.
Proof.
  intros s p i h Hs Dp Wi m. assert (Ss : swf [] s) by (apply value_swf; auto). pose proof (room_max W HW _ NSn s) as R.
  assert (A : atmost (19 * (w + 1) + 1) (3 * (w + 1) + 1) m h).
  { unfold m. cbn [s_wprog s_argp]. eapply am_bind; [apply within_atmost, wi_setNodeFromPrefix|lia|lia|].
    intros q Eq. rewrite run_leaf in Eq |- *. cbn [fst snd] in Eq |- *. injection Eq as <-.
    eapply am_bind; [eapply (cost_difference W HW _ [] s); [apply grown; exact Dp|apply leaf_den|exact Wi|exact Ss|]| | |intros; apply am_ret]; cbn [fst]; try lia.
    pose proof (room_max W HW _ NSn (setNodeFromPrefix i)). unfold fuelW. lia. }
  destruct (atmost_allocated _ _ _ _ A). split; [|auto]. apply run_keeps. unfold m. cbn [s_wprog]. apply ownp_owns with any.
  apply ownp_bind_any; [apply ownp_setNodeFromPrefix|]. intros q O _. apply ownp_bind_any; [apply ownp_difference|]. intros; apply ownp_ret_any.
Qed.
(* Contains of an address: one node, for the address, and one path *)
Theorem C51_set_contains_address : forall s p a (h : heap unit), set_value W s -> denotes h p s -> (a < 2 ^ W)%N ->
  let m := read (RContains (AAddress a)) p in allocated m h <= 1 /\ instructions m h <= 2 * (w + 1) + 2.
Proof.
  intros s p a h Hs Dp Ha m. assert (Ss : swf [] s) by (apply value_swf; auto). pose proof (room_max W HW _ NSn s) as R.
  assert (Wa : wf_prefix W (addr_prefix W a)) by (split; cbn; [exact Ha|lia]).
  apply and_comm, atmost_allocated. unfold m. cbn [s_rprog s_argp]. eapply am_bind; [apply within_atmost, wi_setNodeFromPrefix|lia|lia|].
  intros q Eq. rewrite run_leaf in Eq |- *. cbn [fst snd] in Eq |- *. injection Eq as <-. set (h1 := h ++ _).
  assert (L1 : denotes h1 (Some (length h)) (setNodeFromPrefix (addr_prefix W a))) by apply leaf_den.
  assert (K : owns none (h_Difference W (Some (length h)) p)) by (eapply ownp_owns; apply ownp_difference).
  destruct (run_keeps _ h1 K) as (_ & _ & K1).
  eapply am_bind; [eapply (cost_contains_address W HW _ s); [exact L1|apply grown; exact Dp|exact Wa|reflexivity|exact Ss]|lia|lia|].
  intros d Ed. assert (X : d = None \/ d = Some (length h)) by (eapply (address_left W HW _ s); [exact L1|apply grown; exact Dp|exact Wa|reflexivity|exact Ss|exact Ed]).
  apply am_bind with (s := 1) (a := 0); [|lia|lia|intros; apply am_ret].
  unfold h_IsEmpty. destruct X as [E0 | E0]; subst d.
  - destruct (W =? 32)%N; [|unfold pathW; apply am_ret]. apply am_bind with (s := 0) (a := 0); [unfold pathW; apply am_ret|lia|lia|intros; apply am_ret].
  - destruct (den_node _ _ _ _ _ _ _ _ _ (K1 _ _ L1)) as (j & c0 & c1 & [= <-] & Ej & _ & _). unfold h_Difference in Ej.
    destruct (W =? 32)%N.
    + apply am_bind with (s := 1) (a := 0); [|lia|lia|intros; apply am_ret]. unfold pathW. cbn [h_NumAddresses nilp]. eapply am_load; [exact Ej|lia|]. apply am_ret.
    + unfold pathW. cbn [h_trie_IsEmpty nilp]. eapply am_load; [exact Ej|lia|]. apply am_ret.
Qed.
Lemma stored_entries (s : snode) : length (SetSpec.stored s) = length (entries s).
Proof. induction s as [|q d s0 hh a l IHl r IHr]; cbn [SetSpec.stored entries]; auto. rewrite !app_length, IHl, IHr. destruct a; reflexivity. Qed.
(* WalkPrefixes and WalkRanges read at most two nodes for each prefix of the set *)
Theorem C51_set_walk : forall s p (h : heap unit) go gor, set_value W s -> denotes h p s ->
  (fst (run (read (RWalkPrefixes go) p) h) = h /\ instructions (read (RWalkPrefixes go) p) h <= 2 * length (SetSpec.stored s)) /\
  (fst (run (read (RWalkRanges gor) p) h) = h /\ instructions (read (RWalkRanges gor) p) h <= 2 * length (SetSpec.stored s)).
Proof.
  intros s p h go gor Hs Dp. assert (Ss : swf [] s) by (apply value_swf; auto).
  assert (B : node_count s <= 2 * length (SetSpec.stored s)).
  { rewrite stored_entries. destruct s as [|q d s0 hh a l r] eqn:E; [cbn; lia|]. rewrite <- E in *. pose proof (nodes_entries W [] s (proj1 Ss) ltac:(congruence)). lia. }
  assert (WK : forall {S A} (cb : prefix -> option unit -> S -> S * bool) st (k : S * bool -> prog unit A), (forall x, readonly (k x)) -> (forall x n, atmost n 0 (k x) h) ->
     fst (run (pbind (h_Walk W p cb st) k) h) = h /\ instructions (pbind (h_Walk W p cb st) k) h <= 2 * length (SetSpec.stored s)).
  { intros S A cb st k Rk Ak. unfold h_Walk, h_Diff. split; [apply ro_run, ro_bind; auto using ro_diff|].
    eapply Nat.le_trans; [|exact B].
    eapply (am_reads_bind (node_count s)); [apply ro_run, ro_diff|apply (cost_diff W _ _ h _ Nil s); [reflexivity|exact Dp]|lia|intros; apply Ak]. }
  cbn [s_rprog]. split; apply WK.
  - intros [l b]. exact I.
  - intros [l b] n. apply am_ret.
  - intros [[ranges st1] fin]. destruct (negb fin); [exact I|]. destruct ranges as [|a0 [|]]; try exact I. destruct (seen gor a0 st1) as [st2 g2]. destruct (negb g2); exact I.
  - intros [[ranges st1] fin] n. destruct (negb fin); [apply am_ret|]. destruct ranges as [|a0 [|]]; try apply am_ret; try apply am_lift.
    destruct (seen gor a0 st1) as [st2 g2]. destruct (negb g2); apply am_ret.
Qed.
Lemma set_nodes s : set_value W s -> node_count s <= 2 * length (SetSpec.stored s).
Proof.
  intros Hs. assert (Ss : swf [] s) by (apply value_swf; auto). rewrite stored_entries.
  destruct s as [|q d s0 hh a l r] eqn:E; [cbn; lia|]. rewrite <- E in *. pose proof (nodes_entries W [] s (proj1 Ss) ltac:(congruence)). lia.
Qed.
(* Insert of a whole set and Union: a constant for each prefix of the two sets,
   however the nodes are shared; the operands are left alone. *)
Theorem C51_set_union : forall s t p q (h : heap unit), set_value W s -> set_value W t -> denotes h p s -> denotes h q t ->
  let k := length (SetSpec.stored s) + length (SetSpec.stored t) in
  (let m := s_wprog W (WInsert ASet) (p, tt) [(q, tt)] in
   (forall j, j < length h -> nth_error (fst (run m h)) j = nth_error h j) /\ allocated m h <= 2 * k /\ instructions m h <= 28 * k) /\
  (let m := s_bprog W (BUnion ASet) [(p, tt); (q, tt)] in
   (forall j, j < length h -> nth_error (fst (run m h)) j = nth_error h j) /\ allocated m h <= 2 * k /\ instructions m h <= 28 * k).
Proof.
  intros s t p q h Hs Ht Dp Dq k. pose proof (set_nodes s Hs) as Bs. pose proof (set_nodes t Ht) as Bt.
  assert (A : atmost (28 * k) (2 * k) (h_Union W p q) h) by (eapply am_mono; [apply (cost_union W _ s t); [exact Dp|exact Dq]|lia|lia]).
  split; intros m.
  - assert (A' : atmost (28 * k) (2 * k) m h) by (unfold m; cbn [s_wprog s_argp]; unfold ret at 1; cbn [pbind]; eapply am_bind; [exact A|lia|lia|intros; apply am_ret]).
    destruct (atmost_allocated _ _ _ _ A'). split; [|auto]. apply run_keeps. unfold m. cbn [s_wprog s_argp]. unfold ret at 1. cbn [pbind]. apply ownp_owns with any.
    apply ownp_bind_any; [apply ownp_Union|]. intros; apply ownp_ret_any.
  - destruct (atmost_allocated _ _ _ _ A). split; [|auto]. apply run_keeps. eapply ownp_owns. apply ownp_Union.
Qed.
(* NumAddresses and IsEmpty read each node at most once, Equal no more nodes of
   either set than the smaller one has; nothing is written. *)
Theorem C51_set_reads : forall s t p q (h : heap unit), set_value W s -> set_value W t -> denotes h p s -> denotes h q t ->
  (fst (run (read RNumAddresses p) h) = h /\ instructions (read RNumAddresses p) h <= 2 * length (SetSpec.stored s)) /\
  (fst (run (read RIsEmpty p) h) = h /\ instructions (read RIsEmpty p) h <= 2 * length (SetSpec.stored s)) /\
  (let m := s_rprog W REqual (Some (p, tt)) [(q, tt)] in
   fst (run m h) = h /\ instructions m h <= 4 * Nat.min (length (SetSpec.stored s)) (length (SetSpec.stored t))).
Proof.
  intros s t p q h Hs Ht Dp Dq. pose proof (set_nodes s Hs) as Bs. pose proof (set_nodes t Ht) as Bt. cbn [s_rprog].
  assert (Z : forall A (m : prog unit A) n n', atmost n 0 m h -> n <= n' -> instructions m h <= n') by (intros A m n n' [X _] Y; lia).
  split; [|split].
  - split; [apply ro_run, ro_bind; [apply ro_NumAddresses|intros; exact I]|].
    eapply Z; [eapply am_reads_bind; [apply ro_run, ro_NumAddresses|apply cost_NumAddresses; exact Dp|apply le_n|intros; apply am_ret]|exact Bs].
  - split; [apply ro_run, ro_bind; [apply ro_IsEmpty|intros; exact I]|].
    eapply Z; [eapply am_reads_bind; [apply ro_run, ro_IsEmpty|apply cost_IsEmpty; exact Dp|apply le_n|intros; apply am_ret]|exact Bs].
  - split; [apply ro_run, ro_bind; [apply ro_Equal|intros; exact I]|].
    eapply Z; [eapply am_reads_bind; [apply ro_run, ro_Equal|apply (cost_Equal _ _ s t); [exact Dp|exact Dq]|apply le_n|intros; apply am_ret]|lia].
Qed.
(* Remove of a whole set and Difference: for the prefixes of the set that is taken
   away up to a path of new nodes each. *)
Theorem C51_set_difference : forall s t p q (h : heap unit), set_value W s -> set_value W t -> denotes h p s -> denotes h q t ->
  let k := length (SetSpec.stored s) + (w + 1) * length (SetSpec.stored t) in
  (let m := s_wprog W (WRemove ASet) (p, tt) [(q, tt)] in
   (forall j, j < length h -> nth_error (fst (run m h)) j = nth_error h j) /\ allocated m h <= 6 * k /\ instructions m h <= 8 * (w + 6) * k + 2 * (w + 1)) /\
  (let m := s_bprog W (BDifference ASet) [(p, tt); (q, tt)] in
   (forall j, j < length h -> nth_error (fst (run m h)) j = nth_error h j) /\ allocated m h <= 6 * k /\ instructions m h <= 8 * (w + 6) * k + 2 * (w + 1)).
Proof.
  intros s t p q h Hs Ht Dp Dq k. pose proof (set_nodes s Hs) as Bs. pose proof (set_nodes t Ht) as Bt.
  assert (Ss : swf [] s) by (apply value_swf; auto). assert (St : swf [] t) by (apply value_swf; auto).
  pose proof (room_max W HW _ NSn s) as R1. pose proof (room_max W HW _ NSn t) as R2.
  assert (Z : dweight W s t <= 2 * k).
  { pose proof (dweight_le W HW s t). assert ((w + 1) * node_count t <= (w + 1) * (2 * length (SetSpec.stored t))) by (apply Nat.mul_le_mono_l; exact Bt). lia. }
  assert (Z' : unit_cost W * dweight W s t <= 8 * (w + 6) * k).
  { replace (8 * (w + 6) * k) with (4 * (w + 6) * (2 * k)) by lia. apply Nat.mul_le_mono; [unfold unit_cost; lia|exact Z]. }
  assert (A : atmost (8 * (w + 6) * k + 2 * (w + 1)) (6 * k) (h_Difference W p q) h).
  { eapply am_mono; [eapply (cost_difference_sets W HW _ [] s t); [exact Dp|exact Dq|exact Ss|exact St|unfold fuelW; lia]|lia|lia]. }
  split; intros m.
  - assert (A' : atmost (8 * (w + 6) * k + 2 * (w + 1)) (6 * k) m h) by (unfold m; cbn [s_wprog s_argp]; unfold ret at 1; cbn [pbind]; eapply am_bind; [exact A|lia|lia|intros; apply am_ret]).
    destruct (atmost_allocated _ _ _ _ A'). split; [|auto]. apply run_keeps. unfold m. cbn [s_wprog s_argp]. unfold ret at 1. cbn [pbind]. apply ownp_owns with any.
    apply ownp_bind_any; [apply ownp_difference|]. intros; apply ownp_ret_any.
  - destruct (atmost_allocated _ _ _ _ A). split; [|auto]. apply run_keeps. eapply ownp_owns. apply ownp_difference.
Qed.
(* Intersection *)
Theorem C51_set_intersection : forall s t p q (h : heap unit), set_value W s -> set_value W t -> denotes h p s -> denotes h q t ->
  let k := (w + 1) * (length (SetSpec.stored s) + length (SetSpec.stored t)) in
  let m := s_bprog W (BIntersection ASet) [(p, tt); (q, tt)] in
  (forall j, j < length h -> nth_error (fst (run m h)) j = nth_error h j) /\ allocated m h <= 2 * k /\ instructions m h <= 34 * k + 2.
Proof.
  intros s t p q h Hs Ht Dp Dq k m. pose proof (set_nodes s Hs) as Bs. pose proof (set_nodes t Ht) as Bt.
  assert (Ss : swf [] s) by (apply value_swf; auto). assert (St : swf [] t) by (apply value_swf; auto).
  pose proof (room_max W HW _ NSn s) as R1. pose proof (room_max W HW _ NSn t) as R2.
  assert (Z : pairs W s t <= 2 * k).
  { pose proof (pairs_le W HW [] [] s t Ss St). assert ((w + 1) * (node_count s + node_count t) <= (w + 1) * (2 * (length (SetSpec.stored s) + length (SetSpec.stored t)))) by (apply Nat.mul_le_mono_l; lia). lia. }
  assert (A : atmost (34 * k + 2) (2 * k) m h).
  { eapply am_mono; [eapply (cost_intersect W HW _ s t); [exact Dp|exact Dq|exact Ss|exact St|unfold fuelW; lia]|lia|lia]. }
  destruct (atmost_allocated _ _ _ _ A). split; [|auto]. apply run_keeps. eapply ownp_owns. apply ownp_intersect.
Qed.
End Sets.
