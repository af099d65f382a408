(* PropsDiff.v - C14 in full: the exact order of the reports of a Diff. *)
From Verif Require Export PropsTable DiffOrder DiffSpec.
From Coq Require Import Arith Sorted ZifyBool ZifyNat ZifyN.

Section PropsDiff.
Variable W : N.
Hypothesis IPW : ip_width W.
Context {T : Type}.
Variable zeroT : T.
Variable box : T -> option T.
Hypothesis Hbox : forall v, unbox zeroT (box v) = v.
Variable goeq : T -> T -> res bool.
Notation key := (key W).
Notation wf := (wf W).
Notation fk := (fk W).
Notation unbox := (unbox zeroT).
Notation reachable := (reachable W zeroT box goeq).
Notation decides := (decides box).
Notation stored := (PropsTable.stored W zeroT).
Let HW : 0 < W /\ W < 2 ^ 15 := ip_HW W IPW.

(* the prefixes stored in a table *)
Definition stored_in (t : tableX T) (p : prefix) : Prop := wf_prefix W p /\ exists v, stored t p = Some (p, v).

(* a block of any length around a prefix *)
Lemma cut_key p n : wf_prefix W p -> (n <= length (key p))%nat ->
  wf_prefix W (mkPrefix (paddr p) (N.of_nat n)) /\ key (mkPrefix (paddr p) (N.of_nat n)) = firstn n (key p).
Proof.
  intros [Ha Hl] Hn. rewrite key_length in Hn. split; [split; cbn; lia|].
  unfold Bits.key. cbn. rewrite Nat2N.id, top_firstn by lia. reflexivity.
Qed.
Lemma cut_pre p h : wf_prefix W p -> pre h (key p) ->
  exists b, wf_prefix W b /\ key b = h.
Proof.
  intros Hp P. pose proof (pre_length _ _ P) as L. destruct (cut_key p (length h) Hp L) as [A B].
  eexists. split; [exact A|]. rewrite B. apply pre_firstn. exact P.
Qed.

(* tightest block and longest common prefix are the same thing *)
Lemma tightest_hull (P : prefix -> Prop) (Q : list bool -> Prop) b :
  (forall e, P e -> wf_prefix W e) -> (exists e, P e) ->
  (forall k, Q k <-> exists e, P e /\ key e = k) -> wf_prefix W b ->
  tightest W P b <-> hullk Q (key b).
Proof.
  intros HP (e0 & He0) HQ Hb. split.
  - intros (_ & A & B). split.
    + intros k Hk. apply HQ in Hk. destruct Hk as (e & He & <-). apply covers_pre; auto.
    + intros h' Hh'. assert (pre h' (key e0)) as P0 by (apply Hh', HQ; eauto).
      destruct (cut_pre e0 h' (HP _ He0) P0) as (b' & Hb' & <-).
      rewrite !key_length. enough (plen b' <= plen b) by lia. apply B; [exact Hb'|].
      intros e He. apply covers_pre; auto. apply Hh', HQ. eauto.
  - intros [A B]. split; [exact Hb|]. split.
    + intros e He. apply covers_pre; auto. apply A, HQ. eauto.
    + intros b' Hb' C. specialize (B (key b')). rewrite !key_length in B.
      enough (N.to_nat (plen b') <= N.to_nat (plen b))%nat by lia. apply B.
      intros k Hk. apply HQ in Hk. destruct Hk as (e & He & <-). apply covers_pre; auto.
Qed.

Lemma inE_stored t k : wf [] (tx_trie t) ->
  inE W (tx_trie t) k <-> exists e, stored_in t e /\ key e = k.
Proof.
  intros Hw. unfold inE. split.
  - intros H. destruct (fk k (tx_trie t)) as [[p d]|] eqn:F; [|congruence].
    apply (fk_iff W [] _ _ _ Hw) in F. destruct F as [I E]. exists p.
    pose proof (ewf W (tx_trie t) _ Hw I) as Hp. cbn [fst] in Hp. split; [|exact E].
    split; [exact Hp|]. pose proof (In_fk W _ _ _ Hw I) as F. unfold ekey in F. cbn [fst] in F.
    rewrite (stored_fk W IPW zeroT t p Hw Hp), F. cbn. unfold ub. cbn. eauto.
  - intros (e & (He & v & S) & <-). rewrite (stored_fk W IPW zeroT t e Hw He) in S.
    destruct (fk (key e) (tx_trie t)); [discriminate|]. discriminate.
Qed.

Lemma hull_cut t m h p : wf [] (tx_trie t) -> wf_prefix W m -> stored_in t p -> covers W m p ->
  (exists b, wf_prefix W b /\ key b = h /\ tightest W (fun e => stored_in t e /\ covers W m e) b)
  <-> hullk (fun k => inE W (tx_trie t) k /\ pre (key m) k) h.
Proof.
  intros Hw Hm Hp C.
  assert (forall k, (inE W (tx_trie t) k /\ pre (key m) k) <->
                    exists e, (stored_in t e /\ covers W m e) /\ key e = k) as E.
  { intros k. rewrite (inE_stored t k Hw). split.
    - intros ((e & He & <-) & P). exists e. split; [|reflexivity]. split; [exact He|].
      apply covers_pre; auto. apply He.
    - intros (e & (He & Ce) & <-). split; [eauto|]. apply covers_pre; auto. apply He. }
  split.
  - intros (b & Hb & <- & T0). eapply (tightest_hull _ _ b); [| |exact E|exact Hb|exact T0].
    + intros e [He _]. apply He.
    + eauto.
  - intros H. assert (pre h (key p)) as P.
    { apply H. apply E. eauto. }
    destruct (cut_pre p h (proj1 Hp) P) as (b & Hb & <-). exists b. split; [exact Hb|]. split; [reflexivity|].
    eapply (tightest_hull _ _ b); [| |exact E|exact Hb|exact H].
    + intros e [He _]. apply He.
    + eauto.
Qed.

Lemma swapped_invk (l r : tableX T) p q : wf [] (tx_trie l) -> wf [] (tx_trie r) ->
  stored_in l p -> stored_in r q ->
  swapped W (stored_in l) (stored_in r) p q <-> invk W (tx_trie l) (tx_trie r) (key p) (key q).
Proof.
  intros Wl Wr Sp Sq. pose proof (proj1 Sp) as Hp. pose proof (proj1 Sq) as Hq. split.
  - intros (m & hl & hr & (Hm & Am & Bm) & Tl & Tr & L1 & L2).
    assert (covers W m p) as Cp by auto. assert (covers W m q) as Cq by auto.
    assert (plen hl <= plen p) as Lp by (apply (proj1 (proj2 Tl)); auto).
    assert (plen hr <= plen q) as Lq by (apply (proj1 (proj2 Tr)); auto).
    assert (covers W p p /\ covers W q q) as [Rp Rq].
    { split; apply covers_pre; auto using pre_refl. }
    exists (key m), (key hl), (key hr). split; [|split; [|split]].
    + destruct (fork_cases (key p) (key q)) as [E|[(c & u & E)|[(c & u & E)|(k & c & u & v & E1 & E2)]]].
      * exfalso. assert (plen p <= plen m); [|lia]. apply Bm; [exact Hp|]. intros e [->| ->]; [exact Rp|].
        apply covers_pre; auto. rewrite E. apply pre_refl.
      * exfalso. assert (plen p <= plen m); [|lia]. apply Bm; [exact Hp|]. intros e [->| ->]; [exact Rp|].
        apply covers_pre; auto. rewrite E. apply pre_app_r.
      * exfalso. assert (plen q <= plen m); [|lia]. apply Bm; [exact Hq|]. intros e [->| ->]; [|exact Rq].
        apply covers_pre; auto. rewrite E. apply pre_app_r.
      * assert (forked k (key p) (key q)) as F.
        { exists c. rewrite E1, E2. split; apply pre_snoc_cons. }
        assert (pre (key m) k) as P by (eapply forked_below; [exact F| |]; apply covers_pre; auto).
        assert (k = key m) as <-; [|exact F].
        symmetry. apply pre_eq_length; [exact P|].
        destruct (cut_pre p k Hp) as (b & Hb & Eb); [rewrite E1; apply pre_app_r|].
        pose proof (pre_length _ _ P) as LL. rewrite <- Eb, !key_length in *.
        assert (plen b <= plen m); [|lia]. apply Bm; [exact Hb|].
        intros e [->| ->]; apply covers_pre; auto; [rewrite E1|rewrite E2]; apply pre_app_r.
    + apply (hull_cut l m _ p Wl Hm Sp Cp). exists hl. split; [apply Tl|]. auto.
    + apply (hull_cut r m _ q Wr Hm Sq Cq). exists hr. split; [apply Tr|]. auto.
    + rewrite !key_length. lia.
  - intros (k & hl & hr & F & Al & Ar & L1 & L2). pose proof F as (c & P1 & P2).
    assert (pre k (key p)) as Kp by (eapply pre_app; exact P1).
    assert (pre k (key q)) as Kq by (eapply pre_app; exact P2).
    destruct (cut_pre p k Hp Kp) as (m & Hm & <-).
    assert (covers W m p) as Cp by (apply covers_pre; auto). assert (covers W m q) as Cq by (apply covers_pre; auto).
    apply (hull_cut l m hl p Wl Hm Sp Cp) in Al. destruct Al as (bl & Hbl & <- & Tl).
    apply (hull_cut r m hr q Wr Hm Sq Cq) in Ar. destruct Ar as (br & Hbr & <- & Tr).
    rewrite !key_length in L1, L2. exists m, bl, br. split; [|split; [exact Tl|split; [exact Tr|lia]]].
    split; [exact Hm|]. split; [intros e [->| ->]; assumption|].
    intros b' Hb' C. assert (pre (key b') (key m)) as P.
    { eapply forked_below; [exact F| |]; apply covers_pre; auto. }
    apply pre_length in P. rewrite !key_length in P. lia.
Qed.

(* The order of a Diff, exactly: it is lexicographic but for swapped pairs,
   which are always the wrong way round.  (C14 asks for no swapped pairs; see C14_refuted.) *)
Theorem C14_diff_order_exact_partial : forall (peq : trie T -> trie T -> bool) (l r : tableX T) (g : T -> T -> bool),
  (forall a b, peq a b = true -> a = b) -> reachable l -> reachable r -> decides l g ->
  exists R, diff_log W zeroT peq l r = Ok R /\
    StronglySorted (diff_before W (stored_in l) (stored_in r)) R.
Proof.
  intros peq l r g Hs Hl Hr Hd. exists (reports W zeroT g l r).
  split; [apply (diff_log_reports W IPW zeroT box); auto; apply (rinv W IPW zeroT box goeq); assumption|].
  pose proof (rwf W IPW zeroT box goeq _ Hl) as Wl. pose proof (rwf W IPW zeroT box goeq _ Hr) as Wr.
  set (D := devs W (fg zeroT g) (fuelW W) (tx_trie l) (tx_trie r)).
  pose proof (devs_wf W IPW zeroT box Hbox goeq g _ _ Wl Wr) as DW. fold D in DW.
  pose proof (devs_sides W HW (fg zeroT g) (fuelW W) _ _ (fuel_ok W IPW zeroT box Hbox goeq _ _ Wl Wr)) as (S1 & S2).
  assert (Forall (fun e => wf_prefix W (eprefix e) /\
      match e with ERemoved p _ => stored_in l p | EAdded p _ => stored_in r p | _ => True end) D) as DS.
  { rewrite Forall_forall in *. intros e He. split; [apply DW; exact He|].
    assert (SI : forall (t : tableX T) p d, wf [] (tx_trie t) -> In (p, d) (entries (tx_trie t)) -> stored_in t p).
    { intros t p d Hw I. pose proof (ewf W (tx_trie t) _ Hw I) as Hp. cbn [fst] in Hp.
      split; [exact Hp|]. pose proof (In_fk W _ _ _ Hw I) as F. unfold ekey in F. cbn [fst] in F.
      rewrite (stored_fk W IPW zeroT t p Hw Hp), F. cbn. unfold ub. cbn. eauto. }
    destruct e as [p d|p d|p1 p2 d d'|p1 p2 d d']; auto.
    - apply (SI l p d Wl). rewrite <- S1. apply in_flat_map. eexists. split; [exact He|]. cbn. auto.
    - apply (SI r p d Wr). rewrite <- S2. apply in_flat_map. eexists. split; [exact He|]. cbn. auto. }
  unfold reports. fold D.
  eapply (SS_map (rep zeroT) (ord W (tx_trie l) (tx_trie r))); [exact DS| |].
  - intros x y [Wx Sx] [Wy Sy].
    destruct x as [p d|p d|p1 p2 d d'|p1 p2 d d'], y as [p' d0|p' d0|p1' p2' d0 d0'|p1' p2' d0 d0'];
      cbn [eprefix rep diff_before rprefix ord evkey] in *; try (unfold evkey; cbn [eprefix]; apply blt_lex; assumption).
    + pose proof (swapped_invk l r p p' Wl Wr Sx Sy).
      pose proof (blt_lex W p p' Wx Wy). pose proof (blt_lex W p' p Wy Wx). tauto.
    + pose proof (swapped_invk l r p' p Wl Wr Sy Sx).
      pose proof (blt_lex W p p' Wx Wy). pose proof (blt_lex W p' p Wy Wx). tauto.
  - eapply (devs_ord W HW); eauto using fuel_ok.
Qed.
End PropsDiff.

(* A list of reports is determined by what is in it and this order. *)
Lemma diff_before_asym {T} W L R (x y : report T) : diff_before W L R x y -> diff_before W L R y x -> False.
Proof.
  assert (A : forall p q, lex_lt W p q -> lex_lt W q p -> False) by (unfold lex_lt; lia).
  destruct x as [p v|p v|p v v'|p v], y as [q u|q u|q u u'|q u]; cbn [diff_before rprefix]; try apply A.
  - pose proof (A p q) as H. tauto.
  - pose proof (A q p) as H. tauto.
Qed.
Theorem C14_order_determines : forall (T : Type) W (L R : prefix -> Prop) (xs ys : list (report T)),
  Permutation.Permutation xs ys ->
  StronglySorted (diff_before W L R) xs -> StronglySorted (diff_before W L R) ys -> xs = ys.
Proof.
  intros T W L R xs. induction xs as [|x xs IH]; intros ys P Sx Sy.
  - apply Permutation.Permutation_nil in P. auto.
  - destruct ys as [|y ys]; [apply Permutation.Permutation_sym, Permutation.Permutation_nil in P; discriminate|].
    apply StronglySorted_inv in Sx. apply StronglySorted_inv in Sy. destruct Sx as [Sx Fx], Sy as [Sy Fy].
    rewrite Forall_forall in Fx, Fy.
    assert (x = y) as ->.
    { assert (In x (y :: ys)) as Hx by (eapply Permutation.Permutation_in; [exact P|left; reflexivity]).
      assert (In y (x :: xs)) as Hy
        by (eapply Permutation.Permutation_in; [apply Permutation.Permutation_sym; exact P|left; reflexivity]).
      destruct Hx as [Hx|Hx]; [auto|]. destruct Hy as [Hy|Hy]; [auto|].
      exfalso. eapply diff_before_asym; [apply Fx; exact Hy|apply Fy; exact Hx]. }
    f_equal. apply IH; auto. eapply Permutation.Permutation_cons_inv; exact P.
Qed.
