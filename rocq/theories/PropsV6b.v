(* PropsV6b.v - more of property C48: best fit, counting prefixes, order of
   Diff, Build, uninitialised handles and ranges of package ipv6, all at the
   level of its own pairs of words. *)
From Verif Require Export PropsV6.
From Verif Require Import PropsDiff PropsConc.
From Coq Require Import Arith Sorted Permutation ZifyBool ZifyNat ZifyN.

(* every address of the prefix has the property *)
Definition prefix_in6 (P : u128 -> Prop) (p : prefix6) : Prop := forall a, wfu a -> in_prefix6 p a -> P a.
(* a largest prefix with that *)
Definition maximal6 (P : u128 -> Prop) (p : prefix6) : Prop :=
  prefix_in6 P p /\ forall q, wf6 q -> prefix_in6 P q -> covers 128 (pnum q) (pnum p) -> plen6 q = plen6 p.
(* the prefixes of length n, without host bits, all of whose addresses are in s *)
Definition all_prefixes_in6 (s : snode6) (n : N) (l : list prefix6) : Prop :=
  NoDup l /\ forall q, In q l <-> plen6 q = n /\ num (paddr6 q) = net 128 (pnum q) /\ wf6 q /\ prefix_in6 (mem6 s) q.

Lemma in_prefix_bound q a : wf_prefix 128 q -> in_prefix 128 q a -> a < 2 ^ 128.
Proof.
  intros [LQ Ln] I. unfold in_prefix in I. set (k := 128 - plen q) in *.
  assert (Ek : 2 ^ 128 = 2 ^ plen q * 2 ^ k) by (rewrite <- N.pow_add_r; f_equal; unfold k; lia).
  assert (D : paddr q / 2 ^ k < 2 ^ plen q) by (apply N.div_lt_upper_bound; [apply N.pow_nonzero; discriminate|lia]).
  rewrite <- I in D. pose proof (N.div_mod a (2 ^ k) ltac:(apply N.pow_nonzero; discriminate)) as DM.
  pose proof (N.mod_lt a (2 ^ k) ltac:(apply N.pow_nonzero; discriminate)) as ML. nia.
Qed.
Lemma prefix_in_num (P : N -> Prop) (P6 : u128 -> Prop) q : (forall a, wfu a -> (P (num a) <-> P6 a)) -> wf6 q ->
  (prefix_in 128 P (pnum q) <-> prefix_in6 P6 q).
Proof.
  intros H Q. split.
  - intros A a Wa I. apply (H a Wa). apply A. exact I.
  - intros A a I. pose proof (in_prefix_bound _ _ (wf6_num q Q) I) as L. pose proof (wfu_of_num a L) as Wa.
    rewrite <- (num_of_num a). apply (H _ Wa). apply A; [exact Wa|]. unfold in_prefix6. rewrite num_of_num. exact I.
Qed.
Lemma maximal_num (P : N -> Prop) (P6 : u128 -> Prop) q : (forall a, wfu a -> (P (num a) <-> P6 a)) -> wf6 q ->
  (maximal 128 P (pnum q) <-> maximal6 P6 q).
Proof.
  intros H Q. unfold maximal, maximal6. rewrite (prefix_in_num P P6 q H Q). split; intros [A B]; (split; [exact A|]).
  - intros p Wp I C. apply (B (pnum p) (wf6_num p Wp)); [|exact C]. apply (prefix_in_num P P6 p H Wp). exact I.
  - intros p Wp I C. rewrite <- (pnum_pof p) in I, C. apply (B (pof p) (wf_pof p Wp)); [|exact C].
    apply (prefix_in_num P P6 _ H (wf_pof p Wp)). exact I.
Qed.

Section Sets.
Let IPW : ip_width 128 := or_intror eq_refl.

(* FindAvailablePrefix allocates from the smallest maximal free block that is
   large enough, the first one among those of the same size (cf. C34) *)
Theorem C48_best_fit : forall peq s i n q, pointer_eq6 peq -> set_value6 s -> valid_arg6 (Some i) -> exact_arg6 (Some i) -> n <= 128 ->
  set_FindAvailablePrefix6 peq s (Some i) n = Ok (Some q) ->
  let free := fun a => mem6 s a /\ ~ arg_mem6 (Some i) a in
  exists p, wf6 p /\ maximal6 free p /\ plen6 p <= n /\ num (paddr6 q) = net 128 (pnum p) /\
    forall p', wf6 p' -> maximal6 free p' -> plen6 p' <= n ->
      plen6 p' < plen6 p \/ (plen6 p' = plen6 p /\ net 128 (pnum p) <= net 128 (pnum p')).
Proof.
  intros peq s i n q P Hs V X Hn E free. destruct (sv_sim s Hs) as [Ss SV]. destruct (va_sim _ V) as [Si VV].
  destruct (rsim_ok_l _ _ _ _ (set_FindAvailablePrefix_sim peq (peqof peq) (peqof_sim peq) _ _ _ _ n Ss Si) E) as (x & EX & SX).
  destruct x as [q'|]; [|contradiction SX]. cbn in SX.
  destruct (C34_best_fit 128 IPW (peqof peq) (tnum s) (argnum i) n q' (pe_of peq P) SV VV (proj2 (exact_arg_num (Some i)) X) Hn EX) as (p & Wp & M & Lp & Ap & B).
  set (fr := fun a : N => mem 128 (tnum s) a /\ ~ arg_mem 128 (Some (argnum i)) a) in *.
  assert (F : forall a, wfu a -> (fr (num a) <-> free a)).
  { intros a Wa. unfold fr, free. rewrite (mem_num s a Wa). pose proof (arg_mem_num (Some i) a Wa V) as Y. cbn [option_map] in Y. rewrite Y. reflexivity. }
  exists (pof p). split; [apply wf_pof; exact Wp|]. split; [|split; [exact Lp|split]].
  - apply (maximal_num fr free _ F (wf_pof p Wp)). rewrite pnum_pof. exact M.
  - destruct SX as [_ ->]. rewrite pnum_pof. exact Ap.
  - intros p' W' M' L'. rewrite pnum_pof. apply (B (pnum p') (wf6_num p' W')); [|exact L']. apply (maximal_num fr free p' F W'). exact M'.
Qed.

(* NumPrefixes counts the prefixes of that length in the set, or reports an
   error when the count does not fit in 64 bits (cf. C32) *)
Theorem C48_count_prefixes : forall peq s n l, pointer_eq6 peq -> set_value6 s -> n <= 128 -> all_prefixes_in6 s n l ->
  (N.of_nat (length l) < 2 ^ 64 -> set6_NumPrefixes peq s n = Ok (N.of_nat (length l), false)) /\
  (2 ^ 64 <= N.of_nat (length l) -> exists c, set6_NumPrefixes peq s n = Ok (c, true)).
Proof.
  intros peq s n l P Hs Hn [ND A]. destruct (C48_num_prefixes peq s n P Hs Hn) as (l' & c & e & [ND' A'] & E & B1 & B2).
  assert (Q : length l = length l').
  { rewrite <- (map_length pnum l). apply Permutation_length. apply NoDup_Permutation; [|exact ND'|].
    - clear E B1 B2 A'. assert (Fw : forall q, In q l -> wf6 q) by (intros q I; apply A in I; tauto). clear A.
      induction ND as [|x l X ND IH]; cbn [map]; constructor; [|apply IH; intros; apply Fw; right; auto].
      intros I. apply in_map_iff in I. destruct I as (y & Ey & I). apply X. replace x with y; [exact I|].
      destruct (Fw x (or_introl eq_refl)) as [Wx _]. destruct (Fw y (or_intror I)) as [Wy _].
      destruct x as [xa xn], y as [ya yn]. unfold pnum in Ey. cbn [paddr6 plen6] in *. injection Ey as E1 E2. f_equal; [apply num_inj; assumption|exact E2].
    - intros q. rewrite A', in_map_iff. split.
      + intros (x & <- & I). apply A in I. destruct I as (I1 & I2 & I3 & I4). split; [exact I1|]. split; [exact I2|]. split; [apply wf6_num; exact I3|].
        apply (prefix_in_num _ (mem6 s) x (mem_num s) I3). exact I4.
      + intros (I1 & I2 & I3 & I4). exists (pof q). split; [apply pnum_pof|]. apply A. split; [exact I1|].
        rewrite pnum_pof. split; [cbn [pof paddr6]; rewrite num_of_num; exact I2|]. split; [apply wf_pof; exact I3|].
        apply (prefix_in_num _ (mem6 s) _ (mem_num s) (wf_pof q I3)). rewrite pnum_pof. exact I4. }
  rewrite Q. split; intros H.
  - destruct (B1 H) as [-> ->]. exact E.
  - exists c. rewrite (B2 H) in E. exact E.
Qed.
(* ... and there is such a list *)
Theorem C48_count_exists : forall s n, set_value6 s -> n <= 128 -> exists l, all_prefixes_in6 s n l.
Proof.
  intros s n Hs Hn. destruct (sv_sim s Hs) as [Ss SV]. destruct (all_in_exists 128 IPW (tnum s) n SV Hn) as [ND A].
  match type of ND with NoDup ?x => set (l := x) in * end. exists (map pof l). split.
  - clear A. induction ND as [|x k X ND IH]; cbn [map]; constructor; [|exact IH]. intros I. apply in_map_iff in I. destruct I as (y & Ey & I).
    apply X. replace x with y; [exact I|]. apply (f_equal pnum) in Ey. rewrite !pnum_pof in Ey. exact Ey.
  - intros q. rewrite in_map_iff. split.
    + intros (x & <- & I). apply A in I. destruct I as (I1 & I2 & I3 & I4). split; [exact I1|]. rewrite pnum_pof.
      split; [cbn [pof paddr6]; rewrite num_of_num; exact I2|]. split; [apply wf_pof; exact I3|].
      apply (prefix_in_num _ (mem6 s) _ (mem_num s) (wf_pof x I3)). rewrite pnum_pof. exact I4.
    + intros (I1 & I2 & I3 & I4). exists (pnum q). split; [apply pof_sim, wf6_sim; exact I3|]. apply A. split; [exact I1|]. split; [exact I2|].
      split; [apply wf6_num; exact I3|]. apply (prefix_in_num _ (mem6 s) q (mem_num s) I3). exact I4.
Qed.

(* Prefix.Contains and Range.Contains (cf. C28, C29) *)
Theorem C48_prefix_contains : forall peq p i, pointer_eq6 peq -> wf6 p -> valid_arg6 i -> exact_arg6 i ->
  exists b, prefix_Contains6 peq p i = Ok b /\ (b = true <-> forall a, wfu a -> arg_mem6 i a -> in_prefix6 p a).
Proof.
  intros peq p i P Hp V X. unfold prefix_Contains6. cbn [asSet6 bind].
  assert (SV : set_value6 (setNodeFromPrefix6 p)) by (apply (sv6_arg peq (Some (PrefixSet6 p))); [exact P|constructor; exact Hp|reflexivity]).
  destruct (C48_contains peq _ i P SV V X) as (b & E & B). exists b. split; [exact E|]. rewrite B.
  assert (M : forall a, mem6 (setNodeFromPrefix6 p) a <-> in_prefix6 p a).
  { intros a. unfold mem6. cbn. split; [intros (q & [<-|[]] & I); exact I|intros I; exists p; auto]. }
  split; intros H a Wa A; apply M; apply H; assumption.
Qed.
(* the set of a range that is not one of C29, and the set of one that is *)
Theorem C48_range_set : forall peq r, pointer_eq6 peq -> wfr6 r -> num (rfirst6 r) <= num (rlast6 r) ->
  exists t, asSet6 peq (RangeSet6 r) = Ok t /\ set_value6 t /\
    (~ centred 128 (rnum r) -> forall a, wfu a -> (mem6 t a <-> in_range6 r a)) /\
    (forall k b x, 0 < x -> x < 2 ^ (k - 1) -> 0 < k -> k <= 128 ->
       num (rfirst6 r) = b * 2 ^ k + x -> num (rlast6 r) + x + 1 = (b + 1) * 2 ^ k ->
       forall a, wfu a -> (mem6 t a <-> b * 2 ^ k <= num a /\ num a < (b + 1) * 2 ^ k)).
Proof.
  intros peq r P Hr Hle. assert (V : valid_arg6 (Some (RangeSet6 r))) by (constructor; assumption).
  destruct (va_sim _ V) as [Si VV]. assert (Wr : wf_range 128 (rnum r)) by (inversion VV; assumption).
  assert (RS : rgsim r (rnum r)) by (split; [exact Hr|reflexivity]).
  pose proof (asSet_sim peq (peqof peq) (peqof_sim peq) (RangeSet6 r) (RangeSet (rnum r)) Si) as SM.
  assert (G : exists t, asSet6 peq (RangeSet6 r) = Ok t).
  { destruct (arg_ok 128 (ip_HW 128 IPW) (peqof peq) _ (pe_of peq P) VV) as (t & E & _).
    destruct (rsim_ok_r _ _ _ _ SM E) as (t6 & E6 & _). exists t6. exact E6. }
  destruct G as (t6 & E6). exists t6. split; [exact E6|]. split; [apply (sv6_arg peq (Some (RangeSet6 r)) t6 P V); exact E6|].
  destruct (rsim_ok_l _ _ _ _ SM E6) as (t & E & St). split.
  - intros C a Wa. destruct (C29_range_set_partial 128 IPW (peqof peq) (rnum r) (pe_of peq P) Wr C) as (t' & E' & _ & M).
    rewrite E in E'. injection E' as <-. rewrite <- (mem_sim t6 t a St Wa), M. reflexivity.
  - intros k b x H1 H2 H3 H4 H5 H6 a Wa.
    destruct (C29_centred_becomes_block 128 IPW (peqof peq) (rnum r) k b x (pe_of peq P) Wr H1 H2 H3 H4 H5 H6) as (t' & E' & M).
    rewrite E in E'. injection E' as <-. rewrite <- (mem_sim t6 t a St Wa), M. reflexivity.
Qed.
Theorem C48_range_contains : forall peq r i, pointer_eq6 peq -> wfr6 r -> num (rfirst6 r) <= num (rlast6 r) -> ~ centred 128 (rnum r) ->
  valid_arg6 i -> exact_arg6 i ->
  exists b, range_Contains6 peq r i = Ok b /\ (b = true <-> forall a, wfu a -> arg_mem6 i a -> in_range6 r a).
Proof.
  intros peq r i P Hr Hle C V X. destruct (C48_range_set peq r P Hr Hle) as (t & E & SV & M & _). specialize (M C).
  unfold range_Contains6. rewrite E. cbn [bind]. destruct (C48_contains peq t i P SV V X) as (b & EC & B). exists b. split; [exact EC|].
  rewrite B. split; intros H a Wa A; apply (M a Wa); apply H; assumption.
Qed.

(* Prefix.NumPrefixes and Range.NumPrefixes (cf. C32, C29) *)
Theorem C48_prefix_num_prefixes : forall p n, wf6 p ->
  (128 < n -> prefix6_NumPrefixes p n = (0, true)) /\
  (n <= 128 -> forall l, NoDup l -> (forall q, In q l <-> plen6 q = n /\ num (paddr6 q) = net 128 (pnum q) /\ wf6 q /\ covers 128 (pnum p) (pnum q)) ->
     (N.of_nat (length l) < 2 ^ 64 -> prefix6_NumPrefixes p n = (N.of_nat (length l), false)) /\
     (2 ^ 64 <= N.of_nat (length l) -> snd (prefix6_NumPrefixes p n) = true)).
Proof.
  intros p n Hp. destruct (C32_prefix 128 IPW (pnum p) n (wf6_num p Hp)) as [A B]. split; [intros Hn; apply (A Hn)|].
  intros Hn l ND H. destruct (B Hn) as (l' & ND' & H' & _ & C1 & C2).
  assert (Q : length l = length l').
  { rewrite <- (map_length pnum l). apply Permutation_length. apply NoDup_Permutation; [|exact ND'|].
    - assert (Fw : forall q, In q l -> wf6 q) by (intros q I; apply H in I; tauto). clear H.
      induction ND as [|x l X ND IH]; cbn [map]; constructor; [|apply IH; intros; apply Fw; right; auto].
      intros I. apply in_map_iff in I. destruct I as (y & Ey & I). apply X. replace x with y; [exact I|].
      destruct (Fw x (or_introl eq_refl)) as [Wx _]. destruct (Fw y (or_intror I)) as [Wy _].
      destruct x as [xa xn], y as [ya yn]. unfold pnum in Ey. cbn [paddr6 plen6] in *. injection Ey as E1 E2. f_equal; [apply num_inj; assumption|exact E2].
    - intros q. rewrite H', in_map_iff. split.
      + intros (x & <- & I). apply H in I. destruct I as (I1 & I2 & I3 & I4). split; [exact I1|]. split; [exact I2|]. split; [apply wf6_num; exact I3|exact I4].
      + intros (I1 & I2 & I3 & I4). exists (pof q). split; [apply pnum_pof|]. apply H. split; [exact I1|].
        rewrite pnum_pof. split; [cbn [pof paddr6]; rewrite num_of_num; exact I2|]. split; [apply wf_pof; exact I3|exact I4]. }
  rewrite Q. split; [exact C1|exact C2].
Qed.
Theorem C48_range_num_prefixes : forall peq r n l, pointer_eq6 peq -> wfr6 r -> num (rfirst6 r) <= num (rlast6 r) -> ~ centred 128 (rnum r) ->
  n <= 128 -> NoDup l ->
  (forall q, In q l <-> plen6 q = n /\ num (paddr6 q) = net 128 (pnum q) /\ wf6 q /\ prefix_in6 (in_range6 r) q) ->
  (N.of_nat (length l) < 2 ^ 64 -> range_NumPrefixes6 peq r n = Ok (N.of_nat (length l), false)) /\
  (2 ^ 64 <= N.of_nat (length l) -> exists c, range_NumPrefixes6 peq r n = Ok (c, true)).
Proof.
  intros peq r n l P Hr Hle C Hn ND H. destruct (C48_range_set peq r P Hr Hle) as (t & E & SV & M & _). specialize (M C).
  unfold range_NumPrefixes6. rewrite E. cbn [bind]. apply (C48_count_prefixes peq t n l P SV Hn). split; [exact ND|].
  intros q. rewrite H. split; intros (A1 & A2 & A3 & A4); (split; [exact A1|]; split; [exact A2|]; split; [exact A3|]); intros a Wa I; apply (M a Wa); apply (A4 a Wa I).
Qed.

(* an uninitialised Set_ behaves as an empty one, and its writes panic; a nil
   SetI is the empty set (cf. C22) *)
Theorem C48_uninitialised_set : forall peq i, pointer_eq6 peq -> valid_arg6 i ->
  set__Set6 None = Nil6 /\ set__IsEmpty6 None = true /\
  set__Contains6 peq None i = set__Contains6 peq (Some Nil6) i /\
  (forall o, (forall s, o = Some s -> set_value6 s) -> set__Equal6 peq None o = set__Equal6 peq (Some Nil6) o) /\
  (forall a, wfu a -> exists u, set__Union6 peq None i = Ok u /\ (exact_arg6 i -> (mem6 u a <-> arg_mem6 i a))) /\
  set__Union6 peq None i = set__Union6 peq (Some Nil6) i /\
  set__Intersection6 peq None i = set__Intersection6 peq (Some Nil6) i /\
  set__Difference6 peq None i = set__Difference6 peq (Some Nil6) i /\
  set__Insert6 peq None i = Panic /\ set__Remove6 peq None i = Panic.
Proof.
  intros peq i P V. destruct (va_sim i V) as [Si VV]. destruct (C22_uninitialised_set 128 IPW (peqof peq) _ (pe_of peq P) VV) as (_ & _ & _ & C & E & U & I0 & D & _).
  assert (TS : forall (x6 y6 : res snode6) x y, rsim tsim x6 x -> rsim tsim y6 y -> x = y -> x6 = y6).
  { intros x6 y6 x y H1 H2 ->. destruct y as [t| |], x6 as [t1| |], y6 as [t2| |]; try contradiction; auto. cbn in *.
    rewrite <- (tof_sim _ _ H1), <- (tof_sim _ _ H2). reflexivity. }
  assert (SN : optsim (tsim (T := unit)) (Some Nil6) (Some Nil)) by constructor.
  assert (SO : optsim (tsim (T := unit)) None None) by exact Logic.I.
  assert (UU : set__Union6 peq None i = set__Union6 peq (Some Nil6) i).
  { apply (TS _ _ (set__Union 128 (peqof peq) None (option_map argnum i)) (set__Union 128 (peqof peq) (Some Nil) (option_map argnum i)));
      [apply set__Union_sim; auto using peqof_sim..|exact U]. }
  split; [reflexivity|]. split; [reflexivity|]. split; [|split; [|split; [|split; [exact UU|split; [|split; [|split; reflexivity]]]]]].
  - transitivity (set__Contains 128 (peqof peq) None (option_map argnum i)).
    + apply rsim_eq_eq. apply set__Contains_sim; auto using peqof_sim.
    + rewrite C. symmetry. apply rsim_eq_eq. apply set__Contains_sim; auto using peqof_sim.
  - intros o Ho. assert (So : optsim (tsim (T := unit)) o (option_map tnum o) /\ forall s, option_map tnum o = Some s -> set_value 128 s).
    { destruct o as [s|]; [|split; [exact SO|discriminate]]. destruct (sv_sim s (Ho s eq_refl)) as [A B]. split; [exact A|]. intros s' [= <-]. exact B. }
    destruct So as [So Vo]. transitivity (set__Equal 128 (peqof peq) None (option_map tnum o)).
    + apply rsim_eq_eq. apply set__Equal_sim; auto using peqof_sim.
    + rewrite (E _ Vo). symmetry. apply rsim_eq_eq. apply set__Equal_sim; auto using peqof_sim.
  - intros a Wa. rewrite UU. cbn [set__Union6].
    destruct (C23_union 128 IPW (peqof peq) Nil _ (pe_of peq P) (sv_empty 128) VV) as (t & u & _ & EU & _ & _ & M).
    assert (SN' : tsim (T := unit) Nil6 Nil) by constructor.
    destruct (rsim_ok_r _ _ _ _ (set_Union_sim peq (peqof peq) (peqof_sim peq) _ _ _ _ SN' Si) EU) as (u6 & E6 & Su).
    exists u6. split; [exact E6|]. intros XA. rewrite <- (mem_sim u6 u a Su Wa), <- (arg_mem_num i a Wa V).
    rewrite (M (proj2 (exact_arg_num i) XA)). split; [|auto]. intros [Z|Z]; [|exact Z]. destruct Z as [_ (q & [] & _)].
  - apply (TS _ _ (set__Intersection 128 (peqof peq) None (option_map argnum i)) (set__Intersection 128 (peqof peq) (Some Nil) (option_map argnum i)));
      [apply set__Intersection_sim; auto using peqof_sim..|exact I0].
  - apply (TS _ _ (set__Difference 128 (peqof peq) None (option_map argnum i)) (set__Difference 128 (peqof peq) (Some Nil) (option_map argnum i)));
      [apply set__Difference_sim; auto using peqof_sim..|exact D].
Qed.
(* the reads of an initialised Set_ are those of its Set; Build runs the builder
   on a handle with the same contents and keeps the result iff it says so *)
Theorem C48_set_handles : forall peq s i o (b : option snode6 -> res (option snode6 * bool)),
  set__Set6 (Set_6 s) = s /\ set__IsEmpty6 (Some s) = set_IsEmpty6 s /\ set__Contains6 peq (Some s) i = set_Contains6 peq s i /\
  set__Equal6 peq (Some s) (Some o) = set_Equal6 peq s o /\ set__Union6 peq (Some s) i = set_Union6 peq s i /\
  set__Intersection6 peq (Some s) i = set_Intersection6 peq s i /\ set__Difference6 peq (Some s) i = set_Difference6 peq s i /\
  (forall s' ok, b (Some s) = Ok (Some s', ok) -> set_Build6 s b = Ok (if ok then s' else s)).
Proof. intros. repeat split. intros s' ok E. unfold set_Build6, Set_6. rewrite E. destruct ok; reflexivity. Qed.
End Sets.

Section Tables.
Context {T : Type}.
Variable zeroT : T.
Variable box : T -> option T.
Hypothesis Hbox : forall v, unbox zeroT (box v) = v.
Variable goeq : T -> T -> res bool.
Notation reachable6 := (reachable6 zeroT box goeq).
Notation stored_at6 := (stored_at6 zeroT).
Let IPW : ip_width 128 := or_intror eq_refl.

(* the reports of a Diff in the order in which the callbacks are called; the
   prefixes are recorded as numbers *)
Definition diff_log6 (peq : trie6 T -> trie6 T -> bool) (l r : tableX6 T) : res (list (report T)) :=
  '(log, _) <- tbl_Diff6 zeroT peq l r
      (Some (fun p v v' s => (s ++ [RChanged (pnum p) v v'], true)))
      (Some (fun p v s => (s ++ [RRemoved (pnum p) v], true)))
      (Some (fun p v s => (s ++ [RAdded (pnum p) v], true)))
      (Some (fun p v s => (s ++ [RUnchanged (pnum p) v], true))) [] ;;
  Ok log.
Definition stored_in6 (t : tableX6 T) (p : prefix) : Prop := wf_prefix 128 p /\ exists v, stored_at6 t (pof p) = Some (pof p, v).

Lemma stored_in_num t6 t p : tblsim t6 t -> (PropsDiff.stored_in 128 zeroT t p <-> stored_in6 t6 p).
Proof.
  intros S. unfold PropsDiff.stored_in, stored_in6. split; intros [W (v & E)]; (split; [exact W|]); exists v.
  - destruct (stored_at zeroT t6 t (pof p) S (wf_pof p W)) as [X Y]. rewrite pnum_pof in X. rewrite E in X.
    destruct (stored_at6 t6 (pof p)) as [[p6 v6]|] eqn:E6; [|discriminate X]. injection X as -> ->. pose proof (Y _ eq_refl) as [Z _]. cbn in Z.
    do 2 f_equal. symmetry. apply pof_sim. split; [exact Z|reflexivity].
  - destruct (stored_at zeroT t6 t (pof p) S (wf_pof p W)) as [X _]. rewrite pnum_pof in X. rewrite E in X. cbn in X. unfold entry_num in X. cbn in X.
    rewrite pnum_pof in X. exact X.
Qed.
Lemma lex_ext (L L' R R' : prefix -> Prop) : (forall p, L p <-> L' p) -> (forall p, R p <-> R' p) ->
  forall x y : report T, diff_before 128 L R x y -> diff_before 128 L' R' x y.
Proof.
  intros HL HR x y. assert (S : forall p q, swapped 128 L R p q <-> swapped 128 L' R' p q).
  { intros p q. unfold swapped, tightest. setoid_rewrite HL. setoid_rewrite HR. reflexivity. }
  destruct x, y; cbn [diff_before rprefix]; auto; rewrite S; auto.
Qed.
Theorem C48_diff_order : forall (peq : trie6 T -> trie6 T -> bool) (l r : tableX6 T) (g : T -> T -> bool),
  (forall a b, peq a b = true -> a = b) -> reachable6 l -> reachable6 r -> decides6 box l g ->
  exists R, diff_log6 peq l r = Ok R /\ StronglySorted (diff_before 128 (stored_in6 l) (stored_in6 r)) R.
Proof.
  intros peq l6 r6 g P Hl Hr D. destruct (reach_sim _ _ _ _ Hl) as (l & SL & RL). destruct (reach_sim _ _ _ _ Hr) as (r & SR & RR).
  destruct (C14_diff_order_exact_partial 128 IPW zeroT box Hbox goeq (peqof peq) l r g (peqof_sound peq P) RL RR (decides_num _ _ _ _ SL D)) as (R & E & A).
  exists R. split.
  - rewrite <- E. unfold diff_log6, diff_log.
    match goal with |- bind ?x _ = bind ?y _ => assert (X : rsim (pairsim eq eq) x y) end.
    { apply tbl_Diff_sim; auto using peqof_sim; cbn [optsim]; unfold ukvsim, ukvvsim.
      - intros p6 p v v' s6 s [_ ->] ->. split; reflexivity.
      - intros p6 p v s6 s [_ ->] ->. split; reflexivity.
      - intros p6 p v s6 s [_ ->] ->. split; reflexivity.
      - intros p6 p v s6 s [_ ->] ->. split; reflexivity. }
    match type of X with rsim _ ?x ?y => destruct x as [[a b]| |], y as [[c d]| |]; try contradiction; auto end.
    destruct X as [X1 X2]. cbn [fst snd] in *. subst. reflexivity.
  - eapply SS_weaken with (P := fun _ => True); [apply Forall_forall; auto| |exact A]. intros x y _ _. apply lex_ext; intros p; apply stored_in_num; assumption.
Qed.

(* an uninitialised Table_ reads as empty and its writes panic (cf. C22) *)
Theorem C48_uninitialised_table : forall p v,
  tbl_Table6 None = zero_table6 (T := T) /\ tbl_NumEntries6 (T := T) None = 0 /\ tbl_Get6 zeroT None p = (zeroT, false) /\
  tbl_LongestMatch6 zeroT None p = (zeroT, false, mkPrefix6 (mkU 0 0) 0) /\
  tbl_Insert6 box None p v = Panic /\ tbl_Update6 box None p v = Panic /\ tbl_InsertOrUpdate6 box None p v = Panic /\
  tbl_GetOrInsert6 zeroT box None p v = Panic /\ tbl_Remove6 (T := T) None p = Panic.
Proof. repeat split. Qed.
(* the reads of an initialised Table_ are those of its Table *)
Theorem C48_table_handles : forall (t : tableX6 T) p,
  tbl_Table6 (Some t) = t /\ tbl_NumEntries6 (Some t) = NumEntries6 t /\ tbl_Get6 zeroT (Some t) p = Get6 zeroT t p /\
  tbl_LongestMatch6 zeroT (Some t) p = LongestMatch6 zeroT t p.
Proof.
  intros t p. split; [reflexivity|]. split; [reflexivity|]. unfold tbl_Get6, Get6, tbl_LongestMatch6, LongestMatch6, tx_Get6, tx_LongestMatch6.
  destruct (longestMatch6 t p) as [[v k] q]. destruct k; auto.
Qed.

(* Build, with a callback that makes the calls os on its handle and then decides
   by what they returned (cf. C21) *)
Hypothesis Hgoeq : forall x y, exists b, goeq x y = Ok b /\ (b = true <-> x = y).
Definition builder6 (os : list (op6 T)) (verdict : list (outcome T) -> bool) (h : option (tableX6 T)) : res (option (tableX6 T) * bool) :=
  bind (runs6 zeroT box h os) (fun x => Ok (fst x, verdict (snd x))).
Theorem C48_build : forall t os verdict, reachable6 t -> tx_eq6 t = None \/ tx_eq6 t = Some (defaultComparator goeq) ->
  Forall (fun o => wf6 (op_prefix6 o)) os ->
  exists g m outs u, is_equality g /\
    (forall q, wf6 q -> option_map entry_num (stored_at6 t q) = m (pkey 128 (pnum q))) /\
    Forall2 (fun '(o, s) x => agree o s x) (combine (map op_num os) (snd (sruns 128 g m (map op_num os)))) outs /\
    Build6 goeq t (builder6 os verdict) = Ok u /\
    if verdict outs
    then forall q, wf6 q -> option_map entry_num (stored_at6 u q) = fst (sruns 128 g m (map op_num os)) (pkey 128 (pnum q))
    else u = t.
Proof.
  intros t6 os verdict Ht He Ho. destruct (reach_sim _ _ _ _ Ht) as (t & S & R).
  assert (Ho' : Forall (fun o => wf_prefix 128 (op_prefix o)) (map op_num os)).
  { apply Forall_map. eapply Forall_impl; [|exact Ho]. intros o O. cbn. rewrite op_prefix_num. apply wf6_num. exact O. }
  assert (He' : tx_eq t = None \/ tx_eq t = Some (defaultComparator goeq)) by (destruct S as [_ <-]; exact He).
  destruct (C21_tables_build 128 IPW zeroT box Hbox goeq Hgoeq t (map op_num os) verdict R He' Ho') as (g & m & outs & u & Eg & M & A & B & C).
  assert (BS : rsim tblsim (Build6 goeq t6 (builder6 os verdict)) (Build goeq t (builder 128 zeroT box (map op_num os) verdict))).
  { apply Build_sim; [exact S|]. intros m6 m0 Hm. apply (rsim_bind (pairsim (optsim tblsim) eq)); [apply runs_sim; assumption|].
    intros [a6 o6] [a o] [X Y]. cbn [fst snd] in *. subst o6. split; [exact X|reflexivity]. }
  destruct (rsim_ok_r _ _ _ _ BS B) as (u6 & E6 & Su).
  exists g, m, outs, u6. split; [exact Eg|]. split; [|split; [exact A|split; [exact E6|]]].
  - intros q Q. rewrite <- (M (pnum q) (wf6_num q Q)). symmetry. apply stored_at; assumption.
  - destruct (verdict outs).
    + destruct C as [_ C]. intros q Q. rewrite <- (C (pnum q) (wf6_num q Q)). symmetry. apply stored_at; assumption.
    + subst u. destruct Su as [S1 S2], S as [S3 S4]. destruct u6 as [x y], t6 as [x' y']. cbn in *. f_equal; [|congruence].
      rewrite <- (tof_sim _ _ S1), <- (tof_sim _ _ S3). reflexivity.
Qed.
(* Table_ of a Table: the same entries, the same comparator, == if there is none *)
Theorem C48_clone : forall t : tableX6 T, exists m, Table_6 goeq t = Some m /\
  (forall q, stored_at6 m q = stored_at6 t q) /\ NumEntries6 m = NumEntries6 t /\
  tx_eq6 m = Some (match tx_eq6 t with Some e => e | None => defaultComparator goeq end).
Proof. intros t. eexists. split; [reflexivity|]. split; [reflexivity|]. split; [reflexivity|]. cbn. destruct (tx_eq6 t); reflexivity. Qed.
End Tables.
