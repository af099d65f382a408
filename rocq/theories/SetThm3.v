(* SetThm3.v - lemmas behind the set properties: address walks, counting
   prefixes, finding prefixes. *)
From Verif Require Export SetThm2.
From Coq Require Import Arith Sorted Permutation ZifyBool ZifyNat ZifyN.

Section SetThm3.
Variable W : N.
Hypothesis HW : 0 < W /\ W < 2 ^ 15.
Notation key := (key W).
Notation swf := (swf W).
Notation WN := (N.to_nat W).
Notation sound peq := (pointer_eq peq).
Notation mem := (mem W).
Notation size := (size W).
Notation before := (before W).

(* ---- WalkAddresses ---- *)
Definition count_up (a : N) (n : nat) : list N := map (fun i => a + N.of_nat i) (seq 0 n).
Lemma count_up_S a n : count_up a (S n) = a :: count_up (a + 1) n.
Proof.
  unfold count_up. cbn [seq map]. f_equal; [lia|]. rewrite <- seq_shift, map_map. apply map_ext. intros i. lia.
Qed.

(* the loop, when it does not run into the top of the address space *)
Lemma walk_addrs_stop {S} (cb : N -> S -> S * bool) n : forall fuel a last st, (n < fuel)%nat ->
  last + 1 = a + N.of_nat n -> last + 1 < 2 ^ W ->
  walk_addrs W fuel a last cb st = Ok (until_false cb (count_up a n) st).
Proof.
  induction n as [|n IH]; intros [|fuel] a last st F E L; try lia; cbn [walk_addrs].
  - destruct (N.leb_spec a last); [lia|]. reflexivity.
  - destruct (N.leb_spec a last); [|lia]. rewrite count_up_S. cbn [until_false]. destruct (cb a st) as [st' [|]]; cbn [negb]; [|reflexivity].
    unfold wadd. rewrite N.mod_small by lia. apply IH; lia.
Qed.

(* the endless sequence of addresses a, a+1, ... mod 2^W *)
Definition wrap_up (a : N) (n : nat) : list N := map (fun i => (a + N.of_nat i) mod 2 ^ W) (seq 0 n).
Lemma wrap_up_S a n : a < 2 ^ W -> wrap_up a (S n) = a :: wrap_up ((a + 1) mod 2 ^ W) n.
Proof.
  intros A. unfold wrap_up. cbn [seq map]. f_equal; [rewrite N.mod_small by lia; lia|]. rewrite <- seq_shift, map_map. apply map_ext. intros i.
  rewrite N.add_mod_idemp_l by lia. f_equal. lia.
Qed.
(* the loop up to the last address of the space never ends by itself *)
Lemma walk_addrs_wrap {S} (cb : N -> S -> S * bool) fuel : forall a st, a < 2 ^ W ->
  walk_addrs W fuel a (2 ^ W - 1) cb st =
  let (st', go) := until_false cb (wrap_up a fuel) st in if go then OutOfFuel else Ok (st', false).
Proof.
  induction fuel as [|fuel IH]; intros a st A; [reflexivity|]. cbn [walk_addrs]. rewrite wrap_up_S by auto. cbn [until_false].
  destruct (N.leb_spec a (2 ^ W - 1)); [|lia]. destruct (cb a st) as [st' [|]]; cbn [negb]; [|reflexivity].
  apply IH. apply N.mod_lt. lia.
Qed.

Lemma prefix_walk_eq {S} fuel p (cb : N -> S -> S * bool) st : wf_prefix W p ->
  prefix_walkAddresses W fuel p cb st = walk_addrs W fuel (net W p) (net W p + size p - 1) cb st.
Proof.
  intros Hp. unfold prefix_walkAddresses. rewrite Network_eq, Broadcast_eq by auto. cbn [paddr]. f_equal. fold (size p). pose proof (size_pos W p). lia.
Qed.

Lemma addrs_count p : addrs_of W p = count_up (net W p) (N.to_nat (size p)).
Proof. reflexivity. Qed.

Definition walk_cb {S} fuel (callback : N -> S -> S * bool) (p : prefix) (rst : res S) : res S * bool :=
  match rst with
  | Ok st => match prefix_walkAddresses W fuel p callback st with
             | Ok (st', b) => (Ok st', b)
             | Panic => (Panic, false)
             | OutOfFuel => (OutOfFuel, false)
             end
  | _ => (rst, false)
  end.
Definition walk_fin {S} (x : res S * bool) : res (S * bool) := let '(rst, b) := x in st' <- rst ;; Ok (st', b).

Lemma WalkAddresses_eq peq s {S} fuel (cb : N -> S -> S * bool) st : sound peq -> swf [] s ->
  set_WalkAddresses W peq fuel s cb st = walk_fin (until_false (walk_cb fuel cb) (stored s) (Ok st)).
Proof.
  intros P Hs. unfold set_WalkAddresses. rewrite (WalkPrefixes_eq W HW peq s _ _ P Hs). cbn [bind]. reflexivity.
Qed.

Lemma walk_list {S} fuel (cb : N -> S -> S * bool) L : forall st, Forall (wf_prefix W) L ->
  (forall p, In p L -> net W p + size p < 2 ^ W /\ (N.to_nat (size p) < fuel)%nat) ->
  until_false (walk_cb fuel cb) L (Ok st) = let (st', b) := until_false cb (flat_map (addrs_of W) L) st in (Ok st', b).
Proof.
  induction L as [|p L IH]; intros st F B; cbn [until_false flat_map]; [reflexivity|].
  inversion F as [|? ? Hp F']; subst. destruct (B p (or_introl eq_refl)) as [B1 B2]. pose proof (size_pos W p) as SP.
  unfold walk_cb at 1. rewrite prefix_walk_eq by auto.
  rewrite (walk_addrs_stop cb (N.to_nat (size p))) by lia. rewrite <- addrs_count, until_app.
  destruct (until_false cb (addrs_of W p) st) as [st' [|]]; [|reflexivity]. apply IH; auto. intros q I. apply B. right; auto.
Qed.

Lemma walk_stops s : swf [] s -> ~ mem s (2 ^ W - 1) -> forall p, In p (stored s) -> net W p + size p < 2 ^ W.
Proof.
  intros Hs M p I. pose proof (stored_wfp W s p Hs I) as Hp. pose proof (last_bound W p Hp) as B. pose proof (size_pos W p) as SP.
  destruct (N.eq_dec (net W p + size p) (2 ^ W)) as [E|E]; [|lia]. exfalso. apply M. apply (stored_in W HW s p I Hp).
  rewrite <- E. apply (in_last W HW).
Qed.

Lemma size_le p : size p <= 2 ^ W.
Proof. apply N.pow_le_mono_r; lia. Qed.

Lemma walk_addresses_ok peq s {S} fuel (cb : N -> S -> S * bool) st : sound peq -> swf [] s -> ~ mem s (2 ^ W - 1) ->
  (N.to_nat (2 ^ W) < fuel)%nat ->
  set_WalkAddresses W peq fuel s cb st = Ok (until_false cb (set_addrs W s) st).
Proof.
  intros P Hs M F. rewrite WalkAddresses_eq by auto. rewrite (walk_list fuel cb (stored s) st (stored_wfs W s Hs)).
  - unfold set_addrs. destruct (until_false cb (flat_map (addrs_of W) (stored s)) st); reflexivity.
  - intros p I. split; [eapply walk_stops; eauto|]. pose proof (size_le p). lia.
Qed.

(* when the last address is in the set, the last stored prefix ends there *)
Lemma last_split s : swf [] s -> mem s (2 ^ W - 1) ->
  exists L p, stored s = L ++ [p] /\ net W p + size p = 2 ^ W /\ forall q, In q L -> net W q + size q < 2 ^ W.
Proof.
  intros Hs [_ (p & I & A)]. pose proof (stored_wfp W s p Hs I) as Hp. pose proof (stored_before W HW [] s Hs) as SS.
  pose proof (last_bound W p Hp) as B. pose proof (size_pos W p) as SP. apply (in_prefix_bounds W) in A. fold (size p) in A.
  assert (E : net W p + size p = 2 ^ W) by lia.
  apply in_split in I. destruct I as (L1 & L2 & EL). pose proof (stored_wfs W s Hs) as F. rewrite EL in *.
  destruct L2 as [|q L2].
  - exists L1, p. split; [reflexivity|]. split; [exact E|]. intros q I. clear EL F A. induction L1 as [|r L1 IH]; [contradiction|].
    cbn [app] in SS. inversion SS as [|? ? SS' X]; subst. destruct I as [<-|I]; [|auto]. rewrite Forall_forall in X.
    assert (Ip : In p (L1 ++ [p])) by (apply in_or_app; right; left; reflexivity). specialize (X p Ip). unfold SetThm.before in X. lia.
  - exfalso. assert (X : before p q).
    { clear - SS. induction L1 as [|r L1 IH]; cbn [app] in SS; inversion SS as [|? ? SS' X]; subst; [|auto]. rewrite Forall_forall in X. apply X. left; auto. }
    rewrite Forall_forall in F. assert (Hq : wf_prefix W q) by (apply F; apply in_or_app; cbn; auto).
    pose proof (last_bound W q Hq). pose proof (size_pos W q). unfold SetThm.before in X. lia.
Qed.

(* what is visited when the last address is in the set: the set's addresses,
   then 0, 1, 2, ... again and again *)
Lemma wrap_split p m : wf_prefix W p -> net W p + size p = 2 ^ W ->
  wrap_up (net W p) (N.to_nat (size p) + m) = addrs_of W p ++ wrap_up 0 m.
Proof.
  intros Hp E. rewrite addrs_count. remember (N.to_nat (size p)) as n eqn:En. assert (E' : net W p + N.of_nat n = 2 ^ W) by lia.
  clear - E' HW. revert E'. generalize (net W p) as a. induction n as [|n IH]; intros a E.
  - cbn [Nat.add count_up seq map app]. unfold wrap_up. apply map_ext. intros i.
    replace (a + N.of_nat i) with (N.of_nat i + 1 * 2 ^ W) by lia. rewrite N.mod_add by lia. reflexivity.
  - cbn [Nat.add]. pose proof (pow2_pos W) as PW. rewrite wrap_up_S by lia. rewrite count_up_S. cbn [app]. f_equal.
    destruct n as [|n].
    + replace (a + 1) with (2 ^ W) by lia. rewrite N.mod_same by lia. reflexivity.
    + rewrite N.mod_small by lia. apply IH. lia.
Qed.

Lemma walk_addresses_wrap peq s {S} fuel (cb : N -> S -> S * bool) st : sound peq -> swf [] s -> mem s (2 ^ W - 1) ->
  (N.to_nat (2 ^ W) < fuel)%nat ->
  exists n, (fuel - N.to_nat (2 ^ W) <= n)%nat /\ set_WalkAddresses W peq fuel s cb st =
    let (st', go) := until_false cb (set_addrs W s ++ wrap_up 0 n) st in if go then OutOfFuel else Ok (st', false).
Proof.
  intros P Hs M FU. destruct (last_split s Hs M) as (L & p & E & EP & B). pose proof (stored_wfs W s Hs) as F. rewrite E in F.
  apply Forall_app in F. destruct F as [FL Fp]. inversion Fp as [|? ? Hp _]; subst. pose proof (size_le p) as SL. pose proof (size_pos W p) as SP.
  exists (fuel - N.to_nat (size p))%nat. split; [lia|]. rewrite WalkAddresses_eq by auto. unfold set_addrs. rewrite E.
  rewrite until_app, (walk_list fuel cb L st FL).
  2:{ intros q I. split; [auto|]. pose proof (size_le q). lia. }
  rewrite flat_map_app, <- app_assoc, until_app.
  destruct (until_false cb (flat_map (addrs_of W) L) st) as [st1 [|]]; [|reflexivity].
  cbn [flat_map]. rewrite app_nil_r, <- wrap_split by auto. replace (N.to_nat (size p) + (fuel - N.to_nat (size p)))%nat with fuel by lia.
  cbn [until_false]. unfold walk_cb. rewrite prefix_walk_eq by auto. rewrite EP, walk_addrs_wrap by lia.
  destruct (until_false cb (wrap_up (net W p) fuel) st1) as [st2 [|]]; reflexivity.
Qed.

(* ---- NumPrefixes ---- *)
Definition subs (n : N) (p : prefix) : list prefix :=
  if n <? plen p then [] else
  map (fun i => mkPrefix (net W p + N.of_nat i * 2 ^ (W - n)) n) (seq 0 (N.to_nat (2 ^ (n - plen p)))).

Lemma subs_In n p q : n <= W -> wf_prefix W p ->
  In q (subs n p) <-> plen q = n /\ canonical W q /\ wf_prefix W q /\ covers W p q.
Proof.
  intros Hn Hp. unfold subs. destruct (N.ltb_spec n (plen p)) as [G|G].
  { split; [intros []|]. intros (E & _ & _ & C & _). lia. }
  assert (PN : 2 ^ (W - plen p) = 2 ^ (n - plen p) * 2 ^ (W - n)) by (rewrite <- N.pow_add_r; f_equal; lia).
  pose proof (pow2_pos (W - n)) as P1. pose proof (pow2_pos (n - plen p)) as P2. pose proof (net_bound W p Hp) as NB.
  assert (NN : net W p = paddr p / 2 ^ (W - plen p) * 2 ^ (n - plen p) * 2 ^ (W - n)) by (unfold net at 1; rewrite PN at 2; lia).
  rewrite in_map_iff. split.
  - intros (i & <- & I). apply in_seq in I. cbn [plen]. split; [reflexivity|].
    assert (IB : N.of_nat i * 2 ^ (W - n) + 2 ^ (W - n) <= 2 ^ (W - plen p)).
    { rewrite PN. replace (N.of_nat i * 2 ^ (W - n) + 2 ^ (W - n)) with ((N.of_nat i + 1) * 2 ^ (W - n)) by lia. apply N.mul_le_mono_r. lia. }
    split; [|split].
    + unfold canonical, net at 2. cbn [paddr plen]. rewrite NN, <- N.mul_add_distr_r, N.div_mul by lia. reflexivity.
    + split; cbn [paddr plen]; lia.
    + split; [cbn; lia|]. apply in_prefix_bounds. cbn [paddr]. lia.
  - intros (<- & C & Hq & (_ & A)). apply (in_prefix_bounds W) in A. unfold canonical, net in C. rewrite C in A.
    set (m := paddr q / 2 ^ (W - plen q)) in *. set (b := paddr p / 2 ^ (W - plen p) * 2 ^ (plen q - plen p)) in *.
    rewrite NN, PN in A.
    assert (b <= m) by (apply (N.mul_le_mono_pos_r _ _ (2 ^ (W - plen q))); lia).
    assert (m < b + 2 ^ (plen q - plen p)) by (apply (N.mul_lt_mono_pos_r (2 ^ (W - plen q))); lia).
    exists (N.to_nat (m - b)). split.
    + destruct q as [qa ql]. cbn [paddr plen] in *. f_equal. rewrite NN, C, N2Nat.id. rewrite <- N.mul_add_distr_r. f_equal. lia.
    + apply in_seq. lia.
Qed.

Lemma subs_len n p : N.of_nat (length (subs n p)) = if n <? plen p then 0 else 2 ^ (n - plen p).
Proof. unfold subs. destruct (n <? plen p); [reflexivity|]. rewrite map_length, seq_length. lia. Qed.

Definition set_subs n s := flat_map (subs n) (stored s).

Lemma subs_NoDup n p : NoDup (subs n p).
Proof.
  unfold subs. destruct (n <? plen p); [constructor|]. generalize (N.to_nat (2 ^ (n - plen p))) as m. intros m. generalize O as k.
  induction m as [|m IH]; intros k; cbn [seq map]; constructor; [|apply IH].
  intros I. apply in_map_iff in I. destruct I as (i & E & I). injection E as E. apply in_seq in I. pose proof (pow2_pos (W - n)).
  assert (N.of_nat i = N.of_nat k) by (apply (N.mul_cancel_r _ _ (2 ^ (W - n))); lia). lia.
Qed.

Lemma set_subs_In n s q : n <= W -> swf [] s ->
  In q (set_subs n s) <-> plen q = n /\ canonical W q /\ wf_prefix W q /\ prefix_in W (mem s) q.
Proof.
  intros Hn Hs. unfold set_subs. rewrite in_flat_map. split.
  - intros (p & I & A). pose proof (stored_wfp W s p Hs I) as Hp. apply subs_In in A; auto. destruct A as (E & C & Hq & CV).
    split; [exact E|]. split; [exact C|]. split; [exact Hq|]. intros a A. apply (stored_in W HW s p I Hp). eapply (covers_in W HW); [| |exact CV|exact A]; auto.
  - intros (E & C & Hq & A). destruct (stored_full W HW s q Hs Hq A) as (p & I & CV). exists p. split; [exact I|]. apply subs_In; auto. eapply stored_wfp; eauto.
Qed.
Lemma NoDup_app' {A} (l m : list A) : NoDup l -> NoDup m -> (forall x, In x l -> ~ In x m) -> NoDup (l ++ m).
Proof.
  induction 1 as [|x l X N IH]; intros M D; cbn [app]; [exact M|]. constructor.
  - intros I. apply in_app_or in I. destruct I as [I|I]; [auto|]. apply (D x); [left; auto|exact I].
  - apply IH; [exact M|]. intros y I. apply D. right; auto.
Qed.
Lemma set_subs_NoDup n s : n <= W -> swf [] s -> NoDup (set_subs n s).
Proof.
  intros Hn Hs. unfold set_subs. pose proof (stored_NoDup W s Hs) as ND.
  assert (U : forall p q x, In p (stored s) -> In q (stored s) -> In x (subs n p) -> In x (subs n q) -> p = q).
  { intros p q x Ip Iq Xp Xq. pose proof (stored_wfp W s p Hs Ip) as Hp. pose proof (stored_wfp W s q Hs Iq) as Hq.
    apply subs_In in Xp; auto. apply subs_In in Xq; auto. destruct Xp as (_ & _ & _ & _ & A). destruct Xq as (_ & _ & _ & _ & B).
    eapply (stored_unique W HW s p q); eauto. }
  revert U. induction ND as [|p L X ND IH]; intros U; cbn [flat_map]; [constructor|]. apply NoDup_app'.
  - apply subs_NoDup.
  - apply IH. intros a b x Ia Ib. apply U; right; auto.
  - intros x I J. apply in_flat_map in J. destruct J as (q & Iq & Xq). apply X. rewrite (U p q x); cbn; auto.
Qed.

Definition total n L : N := N.of_nat (length (flat_map (subs n) L)).
Lemma total_cons n p L : total n (p :: L) = N.of_nat (length (subs n p)) + total n L.
Proof. unfold total. cbn [flat_map]. rewrite app_length. lia. Qed.

Lemma NumPrefixes4_eq peq s n : sound peq -> swf [] s -> n <= W ->
  set_NumPrefixes4 W peq s n = Ok (total n (stored s) mod 2 ^ 64, false).
Proof.
  intros P Hs Hn. unfold set_NumPrefixes4. rewrite (WalkPrefixes_eq W HW peq s _ _ P Hs). cbn [bind].
  set (f := fun (p : prefix) (count : N) => _).
  assert (G : forall L c, c < 2 ^ 64 -> until_false f L c = ((c + total n L) mod 2 ^ 64, true)).
  { induction L as [|p L IH]; intros c C; cbn [until_false].
    - unfold total. cbn [flat_map length]. rewrite N.add_0_r, N.mod_small by auto. reflexivity.
    - unfold f at 1. unfold prefix_num_prefixes4. destruct (N.ltb_spec W n); [lia|].
      assert (E : (let '(c0, _) := if n <? plen p then (0, false) else (2 ^ (n - plen p), false) in (wadd 64 c c0, true)) =
                  (wadd 64 c (N.of_nat (length (subs n p))), true)) by (rewrite subs_len; destruct (n <? plen p); reflexivity).
      rewrite E. unfold wadd. rewrite IH by (apply N.mod_lt; discriminate). rewrite total_cons. rewrite N.add_mod_idemp_l by discriminate. f_equal. f_equal. lia. }
  rewrite G by reflexivity. reflexivity.
Qed.

Lemma NumPrefixes4_big peq s n : sound peq -> swf [] s -> W < n -> set_NumPrefixes4 W peq s n = Ok (0, false).
Proof.
  intros P Hs Hn. unfold set_NumPrefixes4. rewrite (WalkPrefixes_eq W HW peq s _ _ P Hs). cbn [bind].
  set (f := fun (p : prefix) (count : N) => _). assert (G : forall L, until_false f L 0 = (0, true)); [|rewrite G; reflexivity].
  induction L as [|p L IH]; cbn [until_false]; [reflexivity|]. unfold f at 1. unfold prefix_num_prefixes4.
  destruct (N.ltb_spec W n); [|lia]. exact IH.
Qed.

Lemma NumPrefixes6_eq peq s n : sound peq -> swf [] s -> n <= W ->
  exists c, set_NumPrefixes6 W peq s n = Ok (c, 2 ^ 64 <=? total n (stored s)) /\ (total n (stored s) < 2 ^ 64 -> c = total n (stored s)).
Proof.
  intros P Hs Hn. unfold set_NumPrefixes6. rewrite (WalkPrefixes_eq W HW peq s _ _ P Hs). cbn [bind].
  set (f := fun (p : prefix) (x : N * bool) => _).
  assert (G : forall L c, c < 2 ^ 64 -> exists d b, until_false f L (c, false) = ((d, 2 ^ 64 <=? c + total n L), b) /\ (c + total n L < 2 ^ 64 -> d = c + total n L)).
  { induction L as [|p L IH]; intros c C; cbn [until_false].
    - unfold total. cbn [flat_map length]. rewrite N.add_0_r. exists c, true. destruct (N.leb_spec (2 ^ 64) c); [lia|]. split; [reflexivity|auto].
    - unfold f at 1. unfold prefix_num_prefixes6. destruct (N.ltb_spec W n); [lia|]. rewrite total_cons, subs_len.
      destruct (N.ltb_spec n (plen p)) as [G|G].
      + change (N.ones 64 - 0) with (2 ^ 64 - 1). destruct (N.ltb_spec (2 ^ 64 - 1) c); [lia|]. unfold wadd. rewrite N.add_0_r, N.mod_small by lia.
        destruct (IH c C) as (d & b & E & D). exists d, b. rewrite E. replace (c + (0 + total n L)) with (c + total n L) by lia. auto.
      + destruct (N.ltb_spec 63 (n - plen p)) as [G'|G'].
        * exists c, false. assert (2 ^ 64 <= 2 ^ (n - plen p)) by (apply N.pow_le_mono_r; lia).
          split; [|lia]. cbn. f_equal. f_equal. symmetry. apply N.leb_le. lia.
        * assert (PB : 2 ^ (n - plen p) <= 2 ^ 63) by (apply N.pow_le_mono_r; lia).
          assert (P64 : 2 ^ 64 = 2 * 2 ^ 63) by reflexivity. assert (PP := pow2_pos 63).
          rewrite N.ones_equiv, <- N.sub_1_r. set (k := 2 ^ (n - plen p)) in *.
          destruct (N.ltb_spec (2 ^ 64 - 1 - k) c) as [O|O].
          -- exists c, false. split; [|lia]. cbv beta iota. f_equal. f_equal. symmetry. apply N.leb_le. lia.
          -- unfold wadd. rewrite N.mod_small by lia. destruct (IH (c + k)) as (d & b & E & D); [lia|].
             exists d, b. cbv beta iota. rewrite E. rewrite N.add_assoc. auto. }
  destruct (G (stored s) 0 ltac:(reflexivity)) as (d & b & E & D). rewrite E. exists d. split; [|exact D]. reflexivity.
Qed.

Lemma NumPrefixes6_big peq s n : sound peq -> swf [] s -> W < n -> set_NumPrefixes6 W peq s n = Ok (0, match s with Nil => false | _ => true end).
Proof.
  intros P Hs Hn. unfold set_NumPrefixes6. rewrite (WalkPrefixes_eq W HW peq s _ _ P Hs). cbn [bind].
  assert (E : s = Nil \/ stored s <> []).
  { destruct s as [|p d z h a l r]; [left; reflexivity|right]. destruct (den_nonempty W [] _ Hs ltac:(discriminate)) as (x & _ & D).
    apply den_stored in D. destruct D as (q & I & _). intros E. rewrite E in I. contradiction. }
  destruct E as [->|E]; [reflexivity|]. destruct (stored s) as [|p L] eqn:EL; [congruence|]. cbn [until_false].
  unfold prefix_num_prefixes6. destruct (N.ltb_spec W n); [|lia]. cbn. destruct s; [discriminate|reflexivity].
Qed.

(* ---- FindAvailablePrefix ---- *)
Lemma Find_mem s t n : swf [] s -> swf [] t ->
  exists d, FindSmallestContainingPrefix W s t n = Ok (pick n (stored d)) /\ swf [] d /\ forall a, mem d a <-> mem s a /\ ~ mem t a.
Proof.
  intros Hs Ht. destruct (Find_ok W HW n s t Hs Ht) as (d & E & Sd & D). exists d. split; [exact E|]. split; [exact Sd|].
  apply (lt_dec_mem W); [apply mem_lt|intros a [M _]; apply mem_lt in M; exact M|].
  intros a A. rewrite !(mem_full W) by auto. apply D. apply full_len.
Qed.
End SetThm3.
