(* V6Refine.v - every table and set an ipv6 program can obtain represents a
   width-128 one, and pointer comparisons and callbacks can be carried over. *)
From Verif Require Export V6Hist.
From Coq Require Import Arith Lia ZifyBool ZifyNat ZifyN.

Lemma num_of_num a : num (of_num a) = a.
Proof. unfold num, of_num. cbn [high low]. pose proof (N.div_mod a (2 ^ 64) ltac:(discriminate)). lia. Qed.
Lemma wfu_of_num a : a < 2 ^ 128 -> wfu (of_num a).
Proof.
  intros H. split; cbn [of_num high low]; [|apply N.mod_lt; discriminate].
  apply N.div_lt_upper_bound; [discriminate|]. replace (2 ^ 64 * 2 ^ 64) with (2 ^ 128) by (rewrite <- N.pow_add_r; reflexivity). exact H.
Qed.
Lemma of_num_num u : wfu u -> of_num (num u) = u.
Proof. intros H. apply num_inj; [apply wfu_of_num; apply num_lt; exact H|exact H|apply num_of_num]. Qed.
Lemma pnum_pof p : pnum (pof p) = p.
Proof. destruct p. unfold pnum, pof. cbn. rewrite num_of_num. reflexivity. Qed.
Lemma pof_sim p6 p : psim p6 p -> pof p = p6.
Proof. intros [H ->]. destruct p6 as [a n]. unfold pof, pnum. cbn. rewrite of_num_num by exact H. reflexivity. Qed.
Lemma sim_pof p : wf_prefix 128 p -> psim (pof p) p.
Proof. intros [A B]. split; [apply wfu_of_num; exact A|symmetry; apply pnum_pof]. Qed.
Lemma rof_sim r6 r : rgsim r6 r -> rof r = r6.
Proof. intros [[A B] ->]. destruct r6 as [a b]. unfold rof, rnum. cbn in *. rewrite !of_num_num by assumption. reflexivity. Qed.
Lemma wf6_num p : wf6 p -> wf_prefix 128 (pnum p).
Proof. intros [A B]. split; [apply num_lt; exact A|exact B]. Qed.
Lemma wf6_sim p : wf6 p -> psim p (pnum p).
Proof. intros [A B]. split; [exact A|reflexivity]. Qed.
Lemma wf_pof p : wf_prefix 128 p -> wf6 (pof p).
Proof. intros [A B]. split; [apply wfu_of_num; exact A|exact B]. Qed.

(* carrying a trie back *)
Fixpoint tof {T} (t : trie T) : trie6 T :=
  match t with Nil => Nil6 | Node p d s h a l r => Node6 (pof p) d s h a (tof l) (tof r) end.
Fixpoint tnum {T} (t : trie6 T) : trie T :=
  match t with Nil6 => Nil | Node6 p d s h a l r => Node (pnum p) d s h a (tnum l) (tnum r) end.
Lemma tnum_tof {T} (t : trie T) : tnum (tof t) = t.
Proof. induction t as [|p d s h a l IHl r IHr]; cbn; [reflexivity|]. rewrite pnum_pof, IHl, IHr. reflexivity. Qed.
Lemma tof_sim {T} (t6 : trie6 T) t : tsim t6 t -> tof t = t6.
Proof. induction 1 as [|p6 p d s h a l6 l r6 r P L IHL R IHR]; cbn; [reflexivity|]. rewrite (pof_sim _ _ P), IHL, IHR. reflexivity. Qed.
Lemma tnum_sim {T} (t6 : trie6 T) t : tsim t6 t -> tnum t6 = t.
Proof. intros H. rewrite <- (tof_sim _ _ H), tnum_tof. reflexivity. Qed.

(* pointer comparisons *)
Definition peqof {T} (peq6 : trie6 T -> trie6 T -> bool) (a b : trie T) : bool := peq6 (tof a) (tof b).
Lemma peqof_sim {T} (peq6 : trie6 T -> trie6 T -> bool) a6 a b6 b : tsim a6 a -> tsim b6 b -> peq6 a6 b6 = peqof peq6 a b.
Proof. intros A B. unfold peqof. rewrite (tof_sim _ _ A), (tof_sim _ _ B). reflexivity. Qed.
Lemma peqof_sound {T} (peq6 : trie6 T -> trie6 T -> bool) : (forall a b, peq6 a b = true -> a = b) -> forall a b, peqof peq6 a b = true -> a = b.
Proof. intros H a b E. apply H in E. rewrite <- (tnum_tof a), <- (tnum_tof b), E. reflexivity. Qed.

Lemma rsim_ok_l {A B} (R : A -> B -> Prop) x y a : rsim R x y -> x = Ok a -> exists b, y = Ok b /\ R a b.
Proof. intros H ->. destruct y as [b| |]; cbn in H; try contradiction. eauto. Qed.
Lemma rsim_ok_r {A B} (R : A -> B -> Prop) x y b : rsim R x y -> y = Ok b -> exists a, x = Ok a /\ R a b.
Proof. intros H ->. destruct x as [a| |]; cbn in H; try contradiction. eauto. Qed.
Lemma rsim_eq_eq {A} (x y : res A) : rsim eq x y -> x = y.
Proof. destruct x, y; cbn; try contradiction; congruence. Qed.

Section Tables.
Context {T : Type}.
Variable zeroT : T.
Variable box : T -> option T.
Variable goeq : T -> T -> res bool.
Local Notation mtsim := (optsim tblsim).

Lemma osim_num p : wf6 (the_prefix6 p) -> osim p (option_map pnum p).
Proof. destruct p; cbn; [apply wf6_sim|auto]. Qed.
Lemma op_prefix_num (o : op6 T) : op_prefix (op_num o) = pnum (op_prefix6 o).
Proof. destruct o as [[p|] v|[p|] v|[p|] v|[p|] v|[p|]]; reflexivity. Qed.
Lemma exec_sim m6 m o : mtsim m6 m -> wf6 (op_prefix6 o) -> rsim (pairsim mtsim eq) (exec6 zeroT box m6 o) (exec 128 zeroT box m (op_num o)).
Proof.
  intros M O. destruct o as [p v|p v|p v|p v|p]; cbn [op_prefix6] in O; apply osim_num in O; cbn [op_num exec6 exec].
  - apply (rsim_bind (pairsim mtsim eq)); [apply tbl_Insert_sim; assumption|]. intros [x6 b6] [x b] [X B]. cbn [fst snd] in *. subst. split; auto.
  - apply (rsim_bind (pairsim mtsim eq)); [apply tbl_Update_sim; assumption|]. intros [x6 b6] [x b] [X B]. cbn [fst snd] in *. subst. split; auto.
  - apply (rsim_bind mtsim); [apply tbl_InsertOrUpdate_sim; assumption|]. intros x6 x X. split; auto.
  - apply (rsim_bind (pairsim mtsim eq)); [apply tbl_GetOrInsert_sim; assumption|]. intros [x6 b6] [x b] [X B]. cbn [fst snd] in *. subst. split; auto.
  - apply (rsim_bind (pairsim mtsim eq)); [apply tbl_Remove_sim; assumption|]. intros [x6 b6] [x b] [X B]. cbn [fst snd] in *. subst. split; auto.
Qed.
Lemma runs_sim os : forall m6 m, mtsim m6 m -> Forall (fun o => wf6 (op_prefix6 o)) os ->
  rsim (pairsim mtsim eq) (runs6 zeroT box m6 os) (runs 128 zeroT box m (map op_num os)).
Proof.
  induction os as [|o os IH]; intros m6 m M F; cbn [runs6 runs map]; [split; auto|]. inversion F; subst.
  apply (rsim_bind (pairsim mtsim eq)); [apply exec_sim; assumption|]. intros [x6 b6] [x b] [X B]. cbn [fst snd] in *. subst.
  apply (rsim_bind (pairsim mtsim eq)); [apply IH; assumption|]. intros [y6 c6] [y c] [Y C]. cbn [fst snd] in *. subst. split; auto.
Qed.

Definition cbof {S} (f : prefix6 -> T -> S -> S * bool) : prefix -> T -> S -> S * bool := fun p => f (pof p).
Definition cb2of {S} (f : prefix6 -> T -> T -> S -> S * bool) : prefix -> T -> T -> S -> S * bool := fun p => f (pof p).
Definition mapof {S} (f : prefix6 -> T -> S -> S * T) : prefix -> T -> S -> S * T := fun p => f (pof p).
Lemma ssim_refl {S} (x : S * bool) : ssim eq x x.
Proof. split; reflexivity. Qed.
Lemma cbof_sim {S} (f : prefix6 -> T -> S -> S * bool) : ukvsim eq f (cbof f).
Proof. intros p6 p v x6 x P <-. unfold cbof. rewrite (pof_sim _ _ P). apply ssim_refl. Qed.
Lemma cb2of_sim {S} (f : prefix6 -> T -> T -> S -> S * bool) : ukvvsim eq f (cb2of f).
Proof. intros p6 p v w x6 x P <-. unfold cb2of. rewrite (pof_sim _ _ P). apply ssim_refl. Qed.
Lemma mapof_sim {S} (f : prefix6 -> T -> S -> S * T) : mapsim eq f (mapof f).
Proof. intros p6 p v x6 x P <-. unfold mapof. rewrite (pof_sim _ _ P). split; reflexivity. Qed.
Lemma optsim_map {A B} (R : A -> B -> Prop) g o : (forall a, R a (g a)) -> optsim R o (option_map g o).
Proof. destruct o; cbn; auto. Qed.

(* the width-128 table an ipv6 table represents *)
Lemma reach_sim t6 : reachable6 zeroT box goeq t6 -> exists t, tblsim t6 t /\ reachable 128 zeroT box goeq t.
Proof.
  induction 1 as [| t E | g t E | t6 o t6' x H IH O E | t6 t6' H IH E | peq6 t6 t6' P H IH E | S st st' mp t6 t6' H IH E].
  - exists zero_table. split; [apply zero_table_sim|constructor].
  - injection E as <-. eexists. split; [apply (NewTable_sim goeq)|]. eapply reach_new. reflexivity.
  - injection E as <-. eexists. split; [apply (NewTableCustom_sim g)|]. eapply reach_custom. reflexivity.
  - destruct IH as (t & Sm & R). pose proof (exec_sim (Some t6) (Some t) o Sm O) as X.
    destruct (rsim_ok_l _ _ _ _ X E) as ([m y] & E' & [M Y]). cbn [fst snd] in *. destruct m as [t'|]; [|contradiction M].
    exists t'. split; [exact M|]. eapply reach_op; [exact R| |exact E']. rewrite op_prefix_num. apply wf6_num. exact O.
  - destruct IH as (t & Sm & R). pose proof (Table__sim goeq _ _ Sm) as X. rewrite E in X. destruct (Table_ goeq t) as [t'|] eqn:E'; [|contradiction X].
    exists t'. split; [exact X|]. eapply reach_Table_; eauto.
  - destruct IH as (t & Sm & R). pose proof (tbl_Aggregate_sim peq6 (peqof peq6) (peqof_sim peq6) _ _ Sm) as X.
    destruct (rsim_ok_l _ _ _ _ X E) as (t' & E' & M). exists t'. split; [exact M|]. eapply reach_aggregate; [|exact R|exact E']. apply peqof_sound. exact P.
  - destruct IH as (t & Sm & R).
    pose proof (tbl_Map_sim zeroT box eq t6 t mp (option_map mapof mp) st st Sm (optsim_map _ _ _ mapof_sim) eq_refl) as X.
    destruct (rsim_ok_l _ _ _ _ X E) as ([st1 t'] & E' & [_ M]). cbn [fst snd] in *. exists t'. split; [exact M|]. eapply reach_map; eauto.
Qed.
Lemma tblsim_num (t6 : tableX6 T) t : tblsim t6 t -> t = {| tx_trie := tnum (tx_trie6 t6); tx_eq := tx_eq6 t6 |}.
Proof. intros [H E]. rewrite (tnum_sim _ _ H), E. destruct t; reflexivity. Qed.
End Tables.

(* ---- sets ---- *)
Scheme sv6_mut := Minimality for set_value6 Sort Prop
with va6_mut := Minimality for valid_arg6 Sort Prop.
Combined Scheme set6_mut from sv6_mut, va6_mut.

Definition argnum (i : SetI6) : SetI :=
  match i with
  | AddressSet6 a => AddressSet (num a)
  | PrefixSet6 p => PrefixSet (pnum p)
  | RangeSet6 r => RangeSet (rnum r)
  | TheSet6 s => TheSet (tnum s)
  | TheSet_6 m => TheSet_ (option_map tnum m)
  end.
Local Notation tsimS := (@tsim unit).
Lemma set_sim :
  (forall s6, set_value6 s6 -> tsim s6 (tnum s6) /\ set_value 128 (tnum s6)) /\
  (forall i6, valid_arg6 i6 -> optsim sisim i6 (option_map argnum i6) /\ valid_arg 128 (option_map argnum i6)).
Proof.
  assert (ONE : forall (peq6 : snode6 -> snode6 -> bool) (x6 : res snode6) x s6 , rsim tsimS x6 x -> x6 = Ok s6 -> tsim s6 (tnum s6) /\ x = Ok (tnum s6)).
  { intros peq6 x6 x s6 R E. destruct (rsim_ok_l _ _ _ _ R E) as (s & E' & M). rewrite (tnum_sim _ _ M). split; auto. }
  apply set6_mut.
  - split; constructor.
  - intros peq6 i s6 P V (SI & VI) E.
    destruct (ONE peq6 _ _ _ (setI_sim peq6 (peqof peq6) (peqof_sim peq6) _ _ SI) E) as [A B]. split; [exact A|].
    eapply sv_arg; [|exact VI|exact B]. unfold pointer_eq. apply peqof_sound. exact P.
  - intros peq6 a i s6 P Ha (SA & VA) V (SI & VI) E.
    destruct (ONE peq6 _ _ _ (set_Union_sim peq6 (peqof peq6) (peqof_sim peq6) _ _ _ _ SA SI) E) as [A B]. split; [exact A|].
    eapply sv_union; [|exact VA|exact VI|exact B]. unfold pointer_eq. apply peqof_sound. exact P.
  - intros peq6 a i s6 P Ha (SA & VA) V (SI & VI) E.
    destruct (ONE peq6 _ _ _ (set_Intersection_sim peq6 (peqof peq6) (peqof_sim peq6) _ _ _ _ SA SI) E) as [A B]. split; [exact A|].
    eapply sv_inter; [|exact VA|exact VI|exact B]. unfold pointer_eq. apply peqof_sound. exact P.
  - intros peq6 a i s6 P Ha (SA & VA) V (SI & VI) E.
    destruct (ONE peq6 _ _ _ (set_Difference_sim peq6 (peqof peq6) (peqof_sim peq6) _ _ _ _ SA SI) E) as [A B]. split; [exact A|].
    eapply sv_diff; [|exact VA|exact VI|exact B]. unfold pointer_eq. apply peqof_sound. exact P.
  - split; [exact I|constructor].
  - intros a A. split; [constructor; exact A|]. constructor. apply num_lt. exact A.
  - intros p A. split; [constructor; apply wf6_sim; exact A|]. constructor. apply wf6_num. exact A.
  - intros r A L. split; [constructor; split; [exact A|reflexivity]|]. constructor. split; [exact L|apply num_lt; apply A].
  - intros s H (A & B). split; [constructor; exact A|constructor; exact B].
  - split; [constructor; exact I|constructor].
  - intros s H (A & B). split; [constructor; exact A|]. apply va_set_. exact B.
Qed.
Lemma stored_tnum s6 : stored (tnum s6) = map pnum (stored6 s6).
Proof. induction s6 as [|p d s h a l IHl r IHr]; cbn; [reflexivity|]. rewrite !map_app, IHl, IHr. destruct a; reflexivity. Qed.
Lemma stored6_tof s6 s : tsimS s6 s -> stored6 s6 = map pof (stored s).
Proof.
  induction 1 as [|p6 p d z h a l6 l r6 r P L IHL R IHR]; cbn; [reflexivity|]. rewrite !map_app, IHL, IHR. destruct a; cbn [map]; [rewrite (pof_sim _ _ P)|]; reflexivity.
Qed.
Lemma mem_num s6 a : wfu a -> (mem 128 (tnum s6) (num a) <-> mem6 s6 a).
Proof.
  intros A. unfold mem, mem6, in_prefix6. rewrite stored_tnum. split.
  - intros (_ & p & I & X). apply in_map_iff in I. destruct I as (q & <- & I). eauto.
  - intros (p & I & X). split; [apply num_lt; exact A|]. exists (pnum p). split; [apply in_map; exact I|exact X].
Qed.
Lemma arg_mem_num i6 a : wfu a -> valid_arg6 i6 -> (arg_mem 128 (option_map argnum i6) (num a) <-> arg_mem6 i6 a).
Proof.
  intros A V. destruct i6 as [[b|p|r|s|[s|]]|]; cbn [option_map argnum arg_mem arg_mem6]; try reflexivity.
  - split; [|congruence]. inversion V; subst. intros E. apply num_inj; auto.
  - apply mem_num. exact A.
  - apply mem_num. exact A.
Qed.
Lemma exact_arg_num i6 : exact_arg 128 (option_map argnum i6) <-> exact_arg6 i6.
Proof. destruct i6 as [[b|p|r|s|[s|]]|]; reflexivity. Qed.
