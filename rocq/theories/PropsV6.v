(* PropsV6.v - property C48: package ipv6, whose address arithmetic is on pairs
   of 64-bit words, obeys the laws of tables and sets of 128-bit numbers.  The
   theorems are about the functions of Trie6.v, SetNode6.v, Table6.v, SetApi6.v
   (ipv6/*.go); the vocabulary is in V6Hist.v: an address is a pair wfu, a
   prefix is wf6, and pnum / num give the numbers they stand for. *)
From Verif Require Export V6Refine PropsTable PropsAgg PropsSet.
From Coq Require Import Arith Sorted Permutation ZifyBool ZifyNat ZifyN.

Section Tables.
Context {T : Type}.
Variable zeroT : T.
Variable box : T -> option T.
Hypothesis Hbox : forall v, unbox zeroT (box v) = v.
Variable goeq : T -> T -> res bool.
Notation reachable6 := (reachable6 zeroT box goeq).
Notation Get6 := (Get6 zeroT).
Notation LongestMatch6 := (LongestMatch6 zeroT).
Notation stored_at6 := (stored_at6 zeroT).
Let IPW : ip_width 128 := or_intror eq_refl.

(* the comparator of the table decides g on values *)
Definition decides6 (t : tableX6 T) (g : T -> T -> bool) : Prop :=
  forall a b, ceq (tx_eq6 t) (box a) (box b) = Ok (g a b).
(* reading an entry's prefix as a number *)
Definition entry_num (e : prefix6 * T) : prefix * T := (pnum (fst e), snd e).

Lemma Get_at t6 t q : tblsim t6 t -> wf6 q -> Get6 t6 (Some q) = Get 128 zeroT t (Some (pnum q)).
Proof. intros H Q. apply Get_sim; [exact H|apply wf6_sim; exact Q]. Qed.
Lemma Get_at' t6 t q : tblsim t6 t -> wf_prefix 128 q -> Get 128 zeroT t (Some q) = Get6 t6 (Some (pof q)).
Proof. intros H Q. symmetry. apply Get_sim; [exact H|apply sim_pof; exact Q]. Qed.
Lemma stored_at t6 t q : tblsim t6 t -> wf6 q -> PropsTable.stored 128 zeroT t (pnum q) = option_map entry_num (stored_at6 t6 q) /\
  forall e, stored_at6 t6 q = Some e -> psim (fst e) (pnum (fst e)).
Proof.
  intros H Q. unfold PropsTable.stored, V6Hist.stored_at6.
  pose proof (LongestMatch_sim zeroT t6 t (Some q) (Some (pnum q)) H (wf6_sim _ Q)) as X.
  destruct (Table6.LongestMatch6 _ _ _) as [[v6 f6] p6], (LongestMatch _ _ _ _) as [[v f] p]. destruct X as [E P]. cbn [fst snd] in *. injection E as -> ->.
  rewrite (psim_len _ _ P). cbn [pnum plen]. destruct (f && (plen p =? plen6 q)); [|split; [reflexivity|discriminate]]. split.
  - cbn. unfold entry_num. cbn. destruct P as [_ ->]. reflexivity.
  - intros e [= <-]. cbn. split; [apply P|reflexivity].
Qed.
Lemma decides_num t6 t g : tblsim t6 t -> decides6 t6 g -> decides box t g.
Proof. intros [_ E] D a b. rewrite <- E. apply D. Qed.

(* A fresh ipv6 table subjected to any history of calls returns what a plain map
   from (network, length) returns and then answers every Get as the map does
   (cf. C08_table_is_a_map). *)
Theorem C48_table_is_a_map : forall (t0 : tableX6 T) (g : T -> T -> bool) (os : list (op6 T)),
  (NewTable_6 goeq = Some t0 \/ exists h, NewTableCustomCompare_6 h = Some t0) ->
  decides6 t0 g ->
  Forall (fun o => wf6 (op_prefix6 o)) os ->
  exists t outs,
    runs6 zeroT box (Some t0) os = Ok (Some t, outs) /\
    Forall2 (fun '(o, s) x => agree o s x) (combine (map op_num os) (snd (sruns 128 g sempty (map op_num os)))) outs /\
    forall q, wf6 q ->
      tbl_Get6 zeroT (Some t) (Some q) =
      match fst (sruns 128 g sempty (map op_num os)) (pkey 128 (pnum q)) with Some (_, v) => (v, true) | None => (zeroT, false) end
      /\ option_map entry_num (stored_at6 t q) = fst (sruns 128 g sempty (map op_num os)) (pkey 128 (pnum q)).
Proof.
  intros t0 g os H0 D F.
  assert (exists t, tblsim t0 t /\ (NewTable_ goeq = Some t \/ exists h, NewTableCustomCompare_ h = Some t)) as (t & S0 & H0').
  { destruct H0 as [E|[h E]]; injection E as <-.
    - eexists. split; [apply (NewTable_sim goeq)|]. left. reflexivity.
    - eexists. split; [apply (NewTableCustom_sim h)|]. right. exists h. reflexivity. }
  destruct (C08_table_is_a_map 128 IPW zeroT box Hbox goeq t g (map op_num os) H0' (decides_num _ _ _ S0 D)) as (t1 & outs & E & A & G).
  { apply Forall_map. eapply Forall_impl; [|exact F]. intros o O. rewrite op_prefix_num. apply wf6_num. exact O. }
  pose proof (runs_sim zeroT box os (Some t0) (Some t) S0 F) as X. destruct (rsim_ok_r _ _ _ _ X E) as ([m6 outs6] & E6 & [M O]).
  cbn [fst snd] in *. subst outs6. destruct m6 as [t6|]; [|contradiction M]. exists t6, outs. split; [exact E6|]. split; [exact A|].
  intros q Q. destruct (G (pnum q) (wf6_num q Q)) as [G1 G2]. split.
  - rewrite <- G1. apply (tbl_Get_sim zeroT (Some t6) (Some t1)); [exact M|apply wf6_sim; exact Q].
  - rewrite <- G2. symmetry. apply stored_at; assumption.
Qed.

Lemma join_at t6 t q : tblsim t6 t ->
  ((exists q0 q1, wf_prefix 128 q0 /\ wf_prefix 128 q1 /\ snd (Get 128 zeroT t (Some q0)) = true /\ snd (Get 128 zeroT t (Some q1)) = true /\
      covers 128 (half 128 false (pnum q)) q0 /\ covers 128 (half 128 true (pnum q)) q1 /\ plen (pnum q) < 128) <->
   (exists q0 q1, wf6 q0 /\ wf6 q1 /\ snd (Get6 t6 (Some q0)) = true /\ snd (Get6 t6 (Some q1)) = true /\
      covers 128 (half 128 false (pnum q)) (pnum q0) /\ covers 128 (half 128 true (pnum q)) (pnum q1) /\ plen6 q < 128)).
Proof.
  intros S. split; intros (q0 & q1 & W0 & W1 & G0 & G1 & C0 & C1 & L).
  - exists (pof q0), (pof q1). split; [apply wf_pof; exact W0|]. split; [apply wf_pof; exact W1|].
    rewrite <- (Get_at' _ _ q0 S W0), <- (Get_at' _ _ q1 S W1), !pnum_pof. auto.
  - exists (pnum q0), (pnum q1). split; [apply wf6_num; exact W0|]. split; [apply wf6_num; exact W1|].
    rewrite <- (Get_at _ _ q0 S W0), <- (Get_at _ _ q1 S W1). auto.
Qed.

(* Remove, in every obtainable table (cf. C09_remove_partial) *)
Theorem C48_remove : forall t p, reachable6 t -> wf6 p ->
  exists t' b, tbl_Remove6 (Some t) (Some p) = Ok (Some t', b) /\
    (forall q, wf6 q -> Get6 t' (Some q) = if eqk (pkey 128 (pnum q)) (pkey 128 (pnum p)) then (zeroT, false) else Get6 t (Some q)) /\
    (b = false -> t' = t) /\
    (b = true <-> snd (Get6 t (Some p)) = true \/
        exists q0 q1, wf6 q0 /\ wf6 q1 /\ snd (Get6 t (Some q0)) = true /\ snd (Get6 t (Some q1)) = true /\
           covers 128 (half 128 false (pnum p)) (pnum q0) /\ covers 128 (half 128 true (pnum p)) (pnum q1) /\ plen6 p < 128).
Proof.
  intros t6 p Ht Hp. destruct (reach_sim _ _ _ _ Ht) as (t & S & R).
  destruct (C09_remove_partial 128 IPW zeroT box Hbox goeq t (pnum p) R (wf6_num p Hp)) as (t' & b & E & G & B1 & B2).
  pose proof (tbl_Remove_sim (Some t6) (Some t) (Some p) (Some (pnum p)) S (wf6_sim p Hp)) as X.
  destruct (rsim_ok_r _ _ _ _ X E) as ([m6 b6] & E6 & [M O]). cbn [fst snd] in *. subst b6. destruct m6 as [t6'|]; [|contradiction M].
  exists t6', b. split; [exact E6|]. split; [|split].
  - intros q Q. rewrite (Get_at _ _ q M Q), (Get_at _ _ q S Q). apply G. apply wf6_num. exact Q.
  - intros Eb. specialize (B1 Eb). subst t'. destruct M as [M1 M2], S as [S1 S2].
    destruct t6 as [x y], t6' as [x' y']. cbn in *. f_equal; [|congruence]. rewrite <- (tof_sim _ _ M1), <- (tof_sim _ _ S1). reflexivity.
  - rewrite B2, (Get_at _ _ p S Hp). rewrite (join_at _ _ p S). reflexivity.
Qed.

(* LongestMatch (cf. C10) *)
Theorem C48_longest_match : forall t q, reachable6 t -> wf6 q ->
  match LongestMatch6 t (Some q) with
  | (v, true, p) =>
      wf6 p /\ covers 128 (pnum p) (pnum q) /\ Get6 t (Some p) = (v, true) /\
      forall p', wf6 p' -> snd (Get6 t (Some p')) = true -> covers 128 (pnum p') (pnum q) -> covers 128 (pnum p') (pnum p)
  | (v, false, p) =>
      v = zeroT /\ p = mkPrefix6 (mkU 0 0) 0 /\
      forall p', wf6 p' -> covers 128 (pnum p') (pnum q) -> Get6 t (Some p') = (zeroT, false)
  end.
Proof.
  intros t6 q Ht Hq. destruct (reach_sim _ _ _ _ Ht) as (t & S & R).
  pose proof (C10_longest_match 128 IPW zeroT box goeq t (pnum q) R (wf6_num q Hq)) as C.
  pose proof (LongestMatch_sim zeroT t6 t (Some q) (Some (pnum q)) S (wf6_sim q Hq)) as X.
  destruct (Table6.LongestMatch6 _ _ _) as [[v6 f6] p6], (LongestMatch _ _ _ _) as [[v f] p]. destruct X as [E P]. cbn [fst snd] in *. injection E as -> ->.
  destruct f.
  - destruct C as (W & C1 & C2 & C3). pose proof P as [P1 P2]. assert (W6 : wf6 p6) by (split; [exact P1|rewrite (psim_len _ _ P); apply W]). subst p.
    split; [exact W6|]. split; [exact C1|]. split; [rewrite (Get_at _ _ p6 S W6); exact C2|].
    intros p' W' G Cv. apply C3; [apply wf6_num; exact W'| |exact Cv]. rewrite <- (Get_at _ _ p' S W'). exact G.
  - destruct C as (C1 & C2 & C3). split; [exact C1|]. split.
    + rewrite <- (pof_sim _ _ P). rewrite C2. reflexivity.
    + intros p' W' Cv. rewrite (Get_at _ _ p' S W'). apply C3; [apply wf6_num; exact W'|exact Cv].
Qed.

(* Walk visits exactly the stored entries, in lexicographic order, until the
   callback says stop (cf. C11) *)
Lemma until_map {A B S} (h : A -> B) (f : B -> S -> S * bool) L : forall st, until_false (fun a => f (h a)) L st = until_false f (map h L) st.
Proof. induction L as [|a L IH]; intros st; cbn; [reflexivity|]. destruct (f (h a) st) as [st' go]. destruct go; auto. Qed.
Theorem C48_walk : forall t, reachable6 t ->
  exists L : list (prefix6 * T),
    (forall p v, In (p, v) L <-> wf6 p /\ stored_at6 t p = Some (p, v)) /\
    StronglySorted (fun e f => lex_lt 128 (pnum (fst e)) (pnum (fst f))) L /\
    forall peq : trie6 T -> trie6 T -> bool, (forall a b, peq a b = true -> a = b) ->
    forall (S : Type) (cb : prefix6 -> T -> S -> S * bool) (st : S),
      tbl_Walk6 zeroT peq t cb st = Ok (until_false (fun e => cb (fst e) (snd e)) L st).
Proof.
  intros t6 Ht. destruct (reach_sim _ _ _ _ Ht) as (t & S & R).
  destruct (C11_walk 128 IPW zeroT box goeq t R) as (L & HL & SL & HW).
  exists (map (fun e => (pof (fst e), snd e)) L). split; [|split].
  - intros p v. rewrite in_map_iff. split.
    + intros ([q w] & E & I). cbn in E. injection E as <- <-. apply HL in I. destruct I as [W ST]. pose proof (wf_pof q W) as W6. split; [exact W6|].
      destruct (stored_at t6 t (pof q) S W6) as [A B]. rewrite pnum_pof, ST in A.
      destruct (V6Hist.stored_at6 zeroT t6 (pof q)) as [[p' v']|] eqn:E; [|discriminate]. cbn in A. unfold entry_num in A. cbn in A.
      injection A as A1 A2. specialize (B _ eq_refl). cbn in B. rewrite <- A1 in B. rewrite <- (pof_sim _ _ B), A2. reflexivity.
    + intros [W ST]. exists (pnum p, v). cbn. rewrite (pof_sim _ _ (wf6_sim p W)). split; [reflexivity|].
      apply HL. split; [apply wf6_num; exact W|]. destruct (stored_at t6 t p S W) as [A _]. rewrite A, ST. reflexivity.
  - clear -SL. induction SL as [|x l S1 IH F]; cbn; constructor; auto. rewrite Forall_map. cbn. eapply Forall_impl; [|exact F].
    intros y H. cbn. rewrite !pnum_pof. exact H.
  - intros peq6 P S0 cb st. pose proof (tbl_Walk_sim zeroT peq6 (peqof peq6) (peqof_sim peq6) eq t6 t cb (cbof cb) st st S (cbof_sim cb) eq_refl) as X.
    rewrite (HW (peqof peq6) (peqof_sound peq6 P)) in X. destruct (rsim_ok_r _ _ _ _ X eq_refl) as ([x b] & E & [A B]). cbn [fst snd] in *.
    rewrite E. rewrite <- (until_map (fun e : prefix * T => (pof (fst e), snd e)) (fun e : prefix6 * T => cb (fst e) (snd e))).
    cbn [fst snd]. f_equal. unfold cbof in *. rewrite A, B. symmetry. apply surjective_pairing.
Qed.

(* NumEntries (cf. C12) *)
Theorem C48_num_entries : forall t (L : list (N * N)), reachable6 t -> NoDup L ->
  (forall k, In k L <-> exists p, wf6 p /\ pkey 128 (pnum p) = k /\ snd (Get6 t (Some p)) = true) ->
  NumEntries6 t = N.of_nat (length L) mod 2 ^ 32.
Proof.
  intros t6 L Ht ND HL. destruct (reach_sim _ _ _ _ Ht) as (t & S & R). rewrite (NumEntries_sim _ _ S).
  apply (C12_num_entries 128 IPW zeroT box goeq t L R ND). intros k. rewrite (HL k). split.
  - intros (p & W & K & G). exists (pnum p). split; [apply wf6_num; exact W|]. split; [exact K|]. rewrite <- (Get_at _ _ p S W). exact G.
  - intros (p & W & K & G). exists (pof p). split; [apply wf_pof; exact W|]. rewrite pnum_pof. split; [exact K|]. rewrite <- (Get_at' _ _ p S W). exact G.
Qed.

(* Diff reports exactly what changed, once per prefix (cf. C13).  The reports
   carry numbers; each callback is handed the pair form of the prefix. *)
Theorem C48_diff_exact : forall (l r : tableX6 T) (g : T -> T -> bool),
  reachable6 l -> reachable6 r -> decides6 l g ->
  exists R : list (report T),
    (forall q, wf6 q ->
       filter (fun x => eqk (pkey 128 (rprefix x)) (pkey 128 (pnum q))) R =
       wanted g (option_map entry_num (stored_at6 l q)) (option_map entry_num (stored_at6 r q))) /\
    Forall (fun x => wf_prefix 128 (rprefix x)) R /\
    forall (peq : trie6 T -> trie6 T -> bool), (forall a b, peq a b = true -> a = b) ->
    forall (S : Type) (changed : option (prefix6 -> T -> T -> S -> S * bool))
           (left right unchanged : option (prefix6 -> T -> S -> S * bool)) (st : S),
      (unchanged = None -> forall v, g v v = true) ->
      tbl_Diff6 zeroT peq l r changed left right unchanged st =
      Ok (until_false (notify (option_map (fun f p => f (pof p)) changed) (option_map (fun f p => f (pof p)) left)
                              (option_map (fun f p => f (pof p)) right) (option_map (fun f p => f (pof p)) unchanged)) R st).
Proof.
  intros l6 r6 g Hl Hr D. destruct (reach_sim _ _ _ _ Hl) as (l & SL & RL). destruct (reach_sim _ _ _ _ Hr) as (r & SR & RR).
  destruct (C13_diff_exact 128 IPW zeroT box Hbox goeq l r g RL RR (decides_num _ _ _ SL D)) as (R & A & B & C).
  exists R. split; [|split; [exact B|]].
  - intros q Q. rewrite (A (pnum q) (wf6_num q Q)). rewrite (proj1 (stored_at _ _ q SL Q)), (proj1 (stored_at _ _ q SR Q)). reflexivity.
  - intros peq6 P S ch le ri un st U.
    pose proof (tbl_Diff_sim zeroT peq6 (peqof peq6) (peqof_sim peq6) eq l6 l r6 r ch (option_map cb2of ch) le (option_map cbof le)
       ri (option_map cbof ri) un (option_map cbof un) st st SL SR (optsim_map _ _ _ cb2of_sim) (optsim_map _ _ _ cbof_sim)
       (optsim_map _ _ _ cbof_sim) (optsim_map _ _ _ cbof_sim) eq_refl) as X.
    rewrite (C (peqof peq6) (peqof_sound peq6 P)) in X by (destruct un; [discriminate|intros _; apply U; reflexivity]).
    destruct (rsim_ok_r _ _ _ _ X eq_refl) as ([x b] & E & [E1 E2]). cbn [fst snd] in *. rewrite E. f_equal.
    change (fun (f : prefix6 -> T -> S -> S * bool) p => f (pof p)) with (@cbof T S).
    change (fun (f : prefix6 -> T -> T -> S -> S * bool) p => f (pof p)) with (@cb2of T S).
    rewrite E1, E2. symmetry. apply surjective_pairing.
Qed.

(* the longest-match answer for an address: its value, if any *)
Definition value_at6 (t : tableX6 T) (a : u128) : option T :=
  let '(v, found, _) := LongestMatch6 t (Some (mkPrefix6 a 128)) in if found then Some v else None.
Lemma value_at_num t6 t a : tblsim t6 t -> wfu a -> value_at6 t6 a = value_at 128 zeroT t (num a).
Proof.
  intros S A. unfold value_at6, value_at.
  assert (P : osim (Some (mkPrefix6 a 128)) (Some (mkPrefix (num a) 128))) by (split; [exact A|reflexivity]).
  pose proof (LongestMatch_sim zeroT t6 t _ _ S P) as X.
  destruct (Table6.LongestMatch6 _ _ _) as [[v6 f6] p6], (LongestMatch _ _ _ _) as [[v f] p]. destruct X as [E _]. cbn [fst snd] in *. injection E as -> ->. reflexivity.
Qed.
(* Aggregate keeps which addresses are covered, and answers each with the value
   of an original entry containing it (cf. C16_aggregate_partial) *)
Theorem C48_aggregate : forall (peq : trie6 T -> trie6 T -> bool) (t t' : tableX6 T) (g : T -> T -> bool),
  (forall a b, peq a b = true -> a = b) -> reachable6 t -> decides6 t g -> equivalence g ->
  tbl_Aggregate6 peq t = Ok t' -> forall a, wfu a ->
  (value_at6 t' a = None <-> value_at6 t a = None) /\
  forall v', value_at6 t' a = Some v' ->
    exists p v, wf6 p /\ in_prefix6 p a /\ Get6 t (Some p) = (v, true) /\ g v v' = true.
Proof.
  intros peq6 t6 t6' g P Ht D Q E a A. destruct (reach_sim _ _ _ _ Ht) as (t & S & R).
  destruct (rsim_ok_l _ _ _ _ (tbl_Aggregate_sim peq6 (peqof peq6) (peqof_sim peq6) _ _ S) E) as (t' & E' & S').
  rewrite !(value_at_num _ _ _ S' A), (value_at_num _ _ _ S A).
  destruct (C16_aggregate_partial 128 IPW zeroT box Hbox goeq (peqof peq6) (peqof_sound peq6 P) t t' g R (decides_num _ _ _ S D) Q E' (num a) (num_lt a A)) as [C1 C2].
  split; [exact C1|]. intros v' V. destruct (C2 v' V) as (p & v & W & I & G & H). exists (pof p), v.
  split; [apply wf_pof; exact W|]. split; [unfold in_prefix6; rewrite pnum_pof; exact I|]. split; [|exact H]. rewrite <- (Get_at' _ _ p S W). exact G.
Qed.

(* Map keeps the prefixes and applies the mapper to each value, in order (cf.
   C19_map_partial: it is also called on prefixes with entries in both halves) *)
Theorem C48_map : forall (t t' : tableX6 T) (g : T -> T -> bool) (S : Type) (f : prefix6 -> T -> S -> S * T) (st st' : S),
  reachable6 t -> decides6 t g -> tbl_Map6 zeroT box t (Some f) st = Ok (st', t') ->
  exists calls : list (prefix * T),
    StronglySorted (fun x y => lex_lt 128 (fst x) (fst y)) calls /\
    Forall (fun x => wf_prefix 128 (fst x)) calls /\
    fst (calls_run (fun p => f (pof p)) calls st) = st' /\
    (forall p v, wf6 p /\ stored_at6 t p = Some (p, v) <-> wf6 p /\ In (pnum p, v) calls /\ snd (Get6 t (Some p)) = true) /\
    (forall p v x, wf6 p -> In ((pnum p, v), x) (combine calls (snd (calls_run (fun p => f (pof p)) calls st))) -> snd (Get6 t (Some p)) = true ->
        stored_at6 t' p = Some (p, if g v x then v else x)) /\
    (forall q, wf6 q -> snd (Get6 t' (Some q)) = snd (Get6 t (Some q))) /\
    tx_eq6 t' = tx_eq6 t /\
    (forall q, wf6 q ->
       ((exists p v, In (p, v) calls /\ pkey 128 p = pkey 128 (pnum q)) <-> snd (Get6 t (Some q)) = true \/
        exists q0 q1, wf6 q0 /\ wf6 q1 /\ snd (Get6 t (Some q0)) = true /\ snd (Get6 t (Some q1)) = true /\
           covers 128 (half 128 false (pnum q)) (pnum q0) /\ covers 128 (half 128 true (pnum q)) (pnum q1) /\ plen6 q < 128)).
Proof.
  intros t6 t6' g S f st st' Ht D E. destruct (reach_sim _ _ _ _ Ht) as (t & Sm & R).
  pose proof (tbl_Map_sim zeroT box eq t6 t (Some f) (Some (mapof f)) st st Sm (mapof_sim f) eq_refl) as X.
  destruct (rsim_ok_l _ _ _ _ X E) as ([st1 t'] & E' & [X1 S']). cbn [fst snd] in *. subst st1.
  destruct (C19_map_partial 128 IPW zeroT box Hbox goeq t t' g S (mapof f) st st' R (decides_num _ _ _ Sm D) E') as (calls & C1 & C2 & C3 & C4 & C5 & C6 & C7 & C8).
  change (mapof f) with (fun p => f (pof p)) in *.
  assert (ST : forall u6 u p v, tblsim u6 u -> wf6 p -> PropsTable.stored 128 zeroT u (pnum p) = Some (pnum p, v) <-> stored_at6 u6 p = Some (p, v)).
  { intros u6 u p v U W. destruct (stored_at u6 u p U W) as [A B]. rewrite A. split.
    - destruct (V6Hist.stored_at6 zeroT u6 p) as [[q w]|] eqn:EQ; [|discriminate]. cbn. unfold entry_num. cbn. intros H. injection H as H1 H2 H3.
      specialize (B _ eq_refl). cbn in B. assert (q = p).
      { rewrite <- (pof_sim _ _ B), <- (pof_sim _ _ (wf6_sim p W)). f_equal. unfold pnum. rewrite H1, H2. reflexivity. }
      subst. reflexivity.
    - intros ->. reflexivity. }
  exists calls. split; [exact C1|]. split; [exact C2|]. split; [exact C3|]. split; [|split; [|split; [|split]]].
  - intros p v. split.
    + intros [W H]. split; [exact W|]. apply (ST t6 t p v Sm W) in H. destruct (proj1 (C4 (pnum p) v) (conj (wf6_num p W) H)) as [A B].
      split; [exact A|]. rewrite (Get_at _ _ p Sm W). exact B.
    + intros (W & I & G). split; [exact W|]. apply (ST t6 t p v Sm W). apply C4. split; [exact I|]. rewrite <- (Get_at _ _ p Sm W). exact G.
  - intros p v x W I G. apply (ST t6' t' p _ S' W). apply (C5 (pnum p) v x I). rewrite <- (Get_at _ _ p Sm W). exact G.
  - intros q W. rewrite (Get_at _ _ q S' W), (Get_at _ _ q Sm W). apply C6. apply wf6_num. exact W.
  - destruct Sm as [_ Q1], S' as [_ Q2]. rewrite Q1, Q2. exact C7.
  - intros q Hq. rewrite (C8 _ (wf6_num q Hq)), (Get_at _ _ q Sm Hq), (join_at _ _ q Sm). reflexivity.
Qed.

(* the integrity check passes in every obtainable table (cf. C35) *)
Theorem C48_tables_valid : forall t, reachable6 t -> isValid6 (tx_trie6 t) = true.
Proof.
  intros t6 Ht. destruct (reach_sim _ _ _ _ Ht) as (t & S & R). unfold isValid6. rewrite (isValidLen_sim _ _ (proj1 S)).
  apply (C35_tables_valid 128 IPW zeroT box Hbox goeq t R).
Qed.
End Tables.

(* ---------------- sets ---------------- *)
Section Sets.
Let IPW : ip_width 128 := or_intror eq_refl.

Lemma sv_sim s : set_value6 s -> tsim s (tnum s) /\ set_value 128 (tnum s).
Proof. apply set_sim. Qed.
Lemma va_sim i : valid_arg6 i -> optsim sisim i (option_map argnum i) /\ valid_arg 128 (option_map argnum i).
Proof. apply set_sim. Qed.
Lemma pe_of peq : pointer_eq6 peq -> pointer_eq (peqof peq).
Proof. intros P. unfold pointer_eq. apply peqof_sound. exact P. Qed.
Lemma mem_sim s6 s a : tsim s6 s -> wfu a -> (mem 128 s (num a) <-> mem6 s6 a).
Proof. intros H A. rewrite <- (tnum_sim _ _ H). apply mem_num. exact A. Qed.

(* Union, Intersection and Difference are those of sets of addresses (cf. C23) *)
Theorem C48_union : forall peq s i, pointer_eq6 peq -> set_value6 s -> valid_arg6 i -> exact_arg6 i ->
  exists u, set_Union6 peq s i = Ok u /\ set_value6 u /\ forall a, wfu a -> (mem6 u a <-> mem6 s a \/ arg_mem6 i a).
Proof.
  intros peq s i P Hs V X. destruct (sv_sim s Hs) as [Ss SV]. destruct (va_sim i V) as [Si VV].
  destruct (C23_union 128 IPW (peqof peq) (tnum s) _ (pe_of peq P) SV VV) as (t & u & _ & EU & _ & _ & M).
  destruct (rsim_ok_r _ _ _ _ (set_Union_sim peq (peqof peq) (peqof_sim peq) _ _ _ _ Ss Si) EU) as (u6 & E6 & Su).
  exists u6. split; [exact E6|]. split; [exact (sv6_union peq s i u6 P Hs V E6)|]. intros a A.
  rewrite <- (mem_sim u6 u a Su A), <- (mem_num s a A), <- (arg_mem_num i a A V). apply M. apply exact_arg_num. exact X.
Qed.
Theorem C48_intersection : forall peq s i, pointer_eq6 peq -> set_value6 s -> valid_arg6 i -> exact_arg6 i ->
  exists u, set_Intersection6 peq s i = Ok u /\ set_value6 u /\ forall a, wfu a -> (mem6 u a <-> mem6 s a /\ arg_mem6 i a).
Proof.
  intros peq s i P Hs V X. destruct (sv_sim s Hs) as [Ss SV]. destruct (va_sim i V) as [Si VV].
  destruct (C23_intersection 128 IPW (peqof peq) (tnum s) _ (pe_of peq P) SV VV) as (t & u & _ & EU & _ & _ & M).
  destruct (rsim_ok_r _ _ _ _ (set_Intersection_sim peq (peqof peq) (peqof_sim peq) _ _ _ _ Ss Si) EU) as (u6 & E6 & Su).
  exists u6. split; [exact E6|]. split; [exact (sv6_inter peq s i u6 P Hs V E6)|]. intros a A.
  rewrite <- (mem_sim u6 u a Su A), <- (mem_num s a A), <- (arg_mem_num i a A V). apply M. apply exact_arg_num. exact X.
Qed.
Theorem C48_difference : forall peq s i, pointer_eq6 peq -> set_value6 s -> valid_arg6 i -> exact_arg6 i ->
  exists u, set_Difference6 peq s i = Ok u /\ set_value6 u /\ forall a, wfu a -> (mem6 u a <-> mem6 s a /\ ~ arg_mem6 i a).
Proof.
  intros peq s i P Hs V X. destruct (sv_sim s Hs) as [Ss SV]. destruct (va_sim i V) as [Si VV].
  destruct (C23_difference 128 IPW (peqof peq) (tnum s) _ (pe_of peq P) SV VV) as (t & u & _ & EU & _ & _ & M).
  destruct (rsim_ok_r _ _ _ _ (set_Difference_sim peq (peqof peq) (peqof_sim peq) _ _ _ _ Ss Si) EU) as (u6 & E6 & Su).
  exists u6. split; [exact E6|]. split; [exact (sv6_diff peq s i u6 P Hs V E6)|]. intros a A.
  rewrite <- (mem_sim u6 u a Su A), <- (mem_num s a A), <- (arg_mem_num i a A V). apply M. apply exact_arg_num. exact X.
Qed.
(* Insert and Remove are in-place union and difference *)
Theorem C48_insert_remove : forall peq s i,
  set__Insert6 peq (Some s) i = (u <- set_Union6 peq s i ;; Ok (Some u)) /\
  set__Remove6 peq (Some s) i = (u <- set_Difference6 peq s i ;; Ok (Some u)).
Proof.
  intros peq s i. unfold set__Insert6, set__Remove6, set_Union6, set_Difference6. split; destruct (setI6 peq i); cbn [bind]; reflexivity.
Qed.
(* any history of Insert and Remove on a fresh ipv6.Set_ (cf. C24) *)
Lemma set_history_from : forall os s0 Q,
  Forall (fun x => pointer_eq6 (fst x) /\ valid_arg6 (sop_arg6 (snd x)) /\ exact_arg6 (sop_arg6 (snd x))) os ->
  set_value6 s0 -> (forall a, wfu a -> (mem6 s0 a <-> Q a)) ->
  exists s, sop_runs6 (Some s0) os = Ok (Some s) /\ set_value6 s /\ forall a, wfu a -> (mem6 s a <-> fold_left sop_step6 (map snd os) Q a).
Proof.
  intros os s0 Q F. revert s0 Q. induction F as [|[peq o] os (P & V & X) F IH]; intros s0 Q Hs HQ; cbn [sop_runs6 map fold_left].
  - exists s0. auto.
  - cbn [fst snd] in P, V, X. destruct o as [i|i]; cbn [sop_arg6] in V, X; unfold sop_run6; cbn [fst snd].
    + destruct (C48_union peq s0 i P Hs V X) as (u & E & SU & M). rewrite (proj1 (C48_insert_remove peq s0 i)), E. cbn [bind]. apply IH; [exact SU|].
      intros a A. rewrite (M a A), (HQ a A). reflexivity.
    + destruct (C48_difference peq s0 i P Hs V X) as (u & E & SU & M). rewrite (proj2 (C48_insert_remove peq s0 i)), E. cbn [bind]. apply IH; [exact SU|].
      intros a A. rewrite (M a A), (HQ a A). reflexivity.
Qed.
Theorem C48_set_histories : forall os : list ((snode6 -> snode6 -> bool) * sop6),
  Forall (fun x => pointer_eq6 (fst x) /\ valid_arg6 (sop_arg6 (snd x)) /\ exact_arg6 (sop_arg6 (snd x))) os ->
  exists s, sop_runs6 NewSet_6 os = Ok (Some s) /\ set_value6 s /\ forall a, wfu a -> (mem6 s a <-> sop_spec6 (map snd os) a).
Proof.
  intros os F. unfold sop_spec6, NewSet_6. apply set_history_from; [exact F|apply sv6_empty|].
  intros a _. split; [intros (p & [] & _)|intros []].
Qed.
(* Contains, Equal, IsEmpty (cf. C28, C25, C27) *)
Theorem C48_contains : forall peq s i, pointer_eq6 peq -> set_value6 s -> valid_arg6 i -> exact_arg6 i ->
  exists b, set_Contains6 peq s i = Ok b /\ (b = true <-> forall a, wfu a -> arg_mem6 i a -> mem6 s a).
Proof.
  intros peq s i P Hs V X. destruct (sv_sim s Hs) as [Ss SV]. destruct (va_sim i V) as [Si VV].
  destruct (C28_contains 128 IPW (peqof peq) (tnum s) _ (pe_of peq P) SV VV) as (t & b & ET & EC & _ & MT & M).
  rewrite <- (rsim_eq_eq _ _ (set_Contains_sim peq (peqof peq) (peqof_sim peq) _ _ _ _ Ss Si)) in EC.
  exists b. split; [exact EC|]. specialize (M (proj2 (exact_arg_num i) X)). rewrite M. split.
  - intros H a A I. apply (mem_num s a A). apply H. apply (arg_mem_num i a A V). exact I.
  - intros H a I. assert (L : a < 2 ^ 128).
    { destruct (C23_argument 128 IPW (peqof peq) _ (pe_of peq P) VV) as (t' & _ & _ & M').
      apply (M' (proj2 (exact_arg_num i) X) a) in I. apply I. }
    pose proof (wfu_of_num a L) as A. rewrite <- (num_of_num a) in I |- *. apply (mem_num s _ A). apply H; [exact A|]. apply (arg_mem_num i _ A V). exact I.
Qed.
Theorem C48_equal : forall peq s t, pointer_eq6 peq -> set_value6 s -> set_value6 t ->
  exists b, set_Equal6 peq s t = Ok b /\ (b = true <-> stored6 s = stored6 t) /\
    (b = true -> forall a, mem6 s a <-> mem6 t a).
Proof.
  intros peq s t P Hs Ht. destruct (sv_sim s Hs) as [Ss SV]. destruct (sv_sim t Ht) as [St TV].
  destruct (C25_equal_stored 128 IPW (peqof peq) _ _ (pe_of peq P) SV TV) as (b & E & B).
  rewrite <- (rsim_eq_eq _ _ (set_Equal_sim peq (peqof peq) (peqof_sim peq) _ _ _ _ Ss St)) in E. exists b. split; [exact E|].
  assert (B' : b = true <-> stored6 s = stored6 t).
  { rewrite B. rewrite (stored6_tof _ _ Ss), (stored6_tof _ _ St). split; [intros ->; reflexivity|]. intros H.
    assert (H' : map pnum (map pof (stored (tnum s))) = map pnum (map pof (stored (tnum t)))) by (rewrite H; reflexivity).
    rewrite !map_map in H'. rewrite !(map_ext _ (fun x => x) pnum_pof), !map_id in H'. exact H'. }
  split; [exact B'|]. intros Hb a. unfold mem6. rewrite (proj1 B' Hb). reflexivity.
Qed.
Theorem C48_is_empty : forall s, set_value6 s -> (set_IsEmpty6 s = true <-> forall a, wfu a -> ~ mem6 s a).
Proof.
  intros s Hs. destruct (sv_sim s Hs) as [Ss SV]. rewrite (set_IsEmpty_sim _ _ Ss).
  destruct (C27_cardinality 128 IPW _ SV) as (_ & _ & ->). split.
  - intros H a A M. apply (H (num a)). apply mem_num; assumption.
  - intros H a M. pose proof (wfu_of_num a (proj1 M)) as A. apply (H (of_num a) A). apply (mem_num s _ A). rewrite num_of_num. exact M.
Qed.
(* WalkPrefixes reports the stored prefixes in order; they cover exactly the
   set, in increasing order, and are fewest (cf. C26) *)
Theorem C48_walk_prefixes : forall peq s {S} (cb : prefix6 -> S -> S * bool) (st : S), pointer_eq6 peq -> set_value6 s ->
  set_WalkPrefixes6 peq s cb st = Ok (until_false cb (stored6 s) st) /\
  Forall wf6 (stored6 s) /\
  StronglySorted (fun p q => forall a b, in_prefix6 p a -> in_prefix6 q b -> num a < num b) (stored6 s) /\
  (forall L, Forall wf6 L -> (forall a, wfu a -> ((exists p, In p L /\ in_prefix6 p a) <-> mem6 s a)) -> (length (stored6 s) <= length L)%nat).
Proof.
  intros peq s S cb st P Hs. destruct (sv_sim s Hs) as [Ss SV].
  destruct (C26_minimal 128 IPW _ SV) as (F & EX & SO & _ & MIN). rewrite stored_tnum in *.
  assert (F6 : Forall wf6 (stored6 s)).
  { rewrite (stored6_tof _ _ Ss). rewrite stored_tnum. rewrite Forall_map. eapply Forall_impl; [|exact F]. intros p. apply wf_pof. }
  split; [|split; [exact F6|split]].
  - pose proof (set_WalkPrefixes_sim peq (peqof peq) (peqof_sim peq) eq cb (fun p => cb (pof p)) s (tnum s) st st) as X.
    specialize (X ltac:(intros p6 p x6 x Q <-; rewrite (pof_sim _ _ Q); split; reflexivity) Ss eq_refl).
    rewrite (C26_walk_prefixes 128 IPW (peqof peq) _ _ st (pe_of peq P) SV) in X.
    destruct (rsim_ok_r _ _ _ _ X eq_refl) as ([x b] & E & [A B]). cbn [fst snd] in *. rewrite E, (stored6_tof _ _ Ss). f_equal.
    rewrite <- until_map. rewrite A, B. symmetry. apply surjective_pairing.
  - clear -SO. unfold in_prefix6. induction (stored6 s) as [|p l IH]; constructor; inversion SO as [|? ? S1 S2]; subst; auto.
    rewrite Forall_map in S2. eapply Forall_impl; [|exact S2]. intros q H a b A B. apply H; assumption.
  - intros L FL H. destruct (MIN (map pnum L)) as [M _].
    + rewrite Forall_map. eapply Forall_impl; [|exact FL]. intros p. apply wf6_num.
    + intros a A. pose proof (wfu_of_num a A) as A6. pose proof (num_of_num a) as NA. rewrite <- NA. rewrite (mem_num s _ A6), <- (H _ A6). split.
      * intros (p & I & X). apply in_map_iff in I. destruct I as (q & <- & I). exists q. split; [exact I|exact X].
      * intros (p & I & X). exists (pnum p). split; [apply in_map; exact I|exact X].
    + rewrite !map_length in M. exact M.
Qed.
(* WalkRanges: the maximal ranges, in order (cf. C30) *)
Theorem C48_walk_ranges : forall peq s, pointer_eq6 peq -> set_value6 s ->
  exists rs : list range, separated rs /\ Forall (wf_range 128) rs /\ (forall a, wfu a -> (in_ranges rs (num a) <-> mem6 s a)) /\
    forall S (cb : range6 -> S -> S * bool) (st : S), set_WalkRanges6 peq s cb st = Ok (until_false cb (map rof rs) st).
Proof.
  intros peq s P Hs. destruct (sv_sim s Hs) as [Ss SV].
  destruct (C30_walk_ranges 128 IPW (peqof peq) _ (pe_of peq P) SV) as (rs & A & B & C & D).
  exists rs. split; [exact A|]. split; [exact B|]. split; [intros a WA; rewrite (C (num a)); apply mem_num; exact WA|].
  intros S cb st. pose proof (set_WalkRanges_sim peq (peqof peq) (peqof_sim peq) eq cb (fun p => cb (rof p)) s (tnum s) st st) as X.
  specialize (X ltac:(intros p6 p x6 x Q <-; rewrite (rof_sim _ _ Q); split; reflexivity) Ss eq_refl). rewrite D in X.
  destruct (rsim_ok_r _ _ _ _ X eq_refl) as ([x b] & E & [E1 E2]). cbn [fst snd] in *. rewrite E. f_equal.
  rewrite <- until_map. rewrite E1, E2. symmetry. apply surjective_pairing.
Qed.
(* NumPrefixes (cf. C32) *)
Theorem C48_num_prefixes : forall peq s n, pointer_eq6 peq -> set_value6 s -> n <= 128 ->
  exists l c e, all_prefixes_in 128 (tnum s) n l /\ set6_NumPrefixes peq s n = Ok (c, e) /\
     (N.of_nat (length l) < 2 ^ 64 -> e = false /\ c = N.of_nat (length l)) /\
     (2 ^ 64 <= N.of_nat (length l) -> e = true).
Proof.
  intros peq s n P Hs Hn. destruct (sv_sim s Hs) as [Ss SV].
  destruct (C32_v6_partial 128 IPW (peqof peq) _ n (pe_of peq P) SV eq_refl) as (X & _). destruct (X Hn) as (l & c & e & A & B & C).
  exists l, c, e. split; [exact A|]. split; [|exact C]. rewrite <- B. apply rsim_eq_eq. apply set_NumPrefixes_sim; [apply peqof_sim|exact Ss].
Qed.
(* FindAvailablePrefix (cf. C33) *)
Theorem C48_find : forall peq s i n, pointer_eq6 peq -> set_value6 s -> valid_arg6 (Some i) -> exact_arg6 (Some i) -> n <= 128 ->
  exists x, set_FindAvailablePrefix6 peq s (Some i) n = Ok x /\
    (forall q, x = Some q ->
       plen6 q = n /\ wf6 q /\ num (paddr6 q) = net 128 (pnum q) /\ forall a, wfu a -> in_prefix6 q a -> mem6 s a /\ ~ arg_mem6 (Some i) a) /\
    (x = None <-> ~ exists q, wf6 q /\ plen6 q = n /\ forall a, wfu a -> in_prefix6 q a -> mem6 s a /\ ~ arg_mem6 (Some i) a).
Proof.
  intros peq s i n P Hs V X Hn. destruct (sv_sim s Hs) as [Ss SV]. destruct (va_sim _ V) as [Si VV].
  destruct (C33_find_sound_complete 128 IPW (peqof peq) (tnum s) (argnum i) n (pe_of peq P) SV VV (proj2 (exact_arg_num (Some i)) X) Hn) as (x & E & A & B).
  destruct (rsim_ok_r _ _ _ _ (set_FindAvailablePrefix_sim peq (peqof peq) (peqof_sim peq) _ _ _ _ n Ss Si) E) as (x6 & E6 & SX).
  exists x6. split; [exact E6|].
  assert (FREE : forall q6 q, psim q6 q -> plen q <= 128 ->
     ((forall a, in_prefix 128 q a -> mem 128 (tnum s) a /\ ~ arg_mem 128 (Some (argnum i)) a) <->
      (forall a, wfu a -> in_prefix6 q6 a -> mem6 s a /\ ~ arg_mem6 (Some i) a))).
  { intros q6 q [Wq ->] Ln. split.
    - intros H a Wa I. destruct (H (num a) I) as [M N]. split; [apply (mem_num s a Wa); exact M|]. intros G. apply N. apply (arg_mem_num (Some i) a Wa V). exact G.
    - intros H a I. assert (L : a < 2 ^ 128).
      { unfold in_prefix in I. cbn [pnum paddr plen] in I, Ln. pose proof (num_lt _ Wq) as LQ. set (k := 128 - plen6 q6) in *.
        assert (Ek : 2 ^ 128 = 2 ^ plen6 q6 * 2 ^ k) by (rewrite <- N.pow_add_r; f_equal; unfold k; lia).
        assert (D : num (paddr6 q6) / 2 ^ k < 2 ^ plen6 q6) by (apply N.div_lt_upper_bound; [apply N.pow_nonzero; discriminate|lia]).
        rewrite <- I in D. pose proof (N.div_mod a (2 ^ k) ltac:(apply N.pow_nonzero; discriminate)) as DM.
        pose proof (N.mod_lt a (2 ^ k) ltac:(apply N.pow_nonzero; discriminate)) as ML. nia. }
      pose proof (wfu_of_num a L) as Wa. assert (I' : in_prefix6 q6 (of_num a)) by (unfold in_prefix6; rewrite num_of_num; exact I).
      destruct (H _ Wa I') as [M N]. split; [rewrite <- (num_of_num a); apply (mem_num s _ Wa); exact M|].
      intros G. apply N. apply (arg_mem_num (Some i) _ Wa V). cbn [option_map]. rewrite num_of_num. exact G. }
  split.
  - intros q ->. destruct x as [q'|]; [|contradiction SX]. cbn in SX. destruct (A q' eq_refl) as (A1 & A2 & A3 & A4).
    pose proof SX as [Wq Eq]. assert (L6 : plen6 q = n) by (rewrite (psim_len _ _ SX); exact A1).
    split; [exact L6|]. split; [split; [exact Wq|lia]|]. split; [rewrite Eq in A3; exact A3|].
    apply (FREE q q' SX ltac:(lia)). exact A4.
  - assert (x6 = None <-> x = None) as -> by (destruct x6, x; try contradiction SX; split; congruence). rewrite B. split.
    + intros H (q & W & Lq & Fq). apply H. exists (pnum q). split; [apply wf6_num; exact W|]. split; [exact Lq|].
      apply (FREE q (pnum q) (wf6_sim q W) ltac:(cbn; lia)). exact Fq.
    + intros H (q & W & Lq & Fq). apply H. exists (pof q). split; [apply wf_pof; exact W|]. split; [exact Lq|].
      apply (FREE (pof q) q (sim_pof q W) ltac:(lia)). exact Fq.
Qed.
Theorem C48_sets_valid : forall s, set_value6 s -> set_isValid6 s = true.
Proof.
  intros s Hs. destruct (sv_sim s Hs) as [Ss SV]. unfold set_isValid6, isValid6. rewrite (isValidLen_sim _ _ Ss).
  apply (C35_sets_valid 128 IPW _ SV).
Qed.
End Sets.
