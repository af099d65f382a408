(* HeapSet.v - the pointer-level set operations compute what the tree-level
   operations of SetNode.v compute, whatever nodes the operands share. *)
From Verif Require Import SetProof SetMore RangeProof.
From Verif Require Export HeapProof2.
From Coq Require Import Arith ZifyBool ZifyNat ZifyN.
Local Open Scope prog_scope.

Section RefineSet.
Variable W : N.
Hypothesis HW : 0 < W /\ W < 2 ^ 15.
Notation aset := (nat -> Prop).
Notation hp := (heap unit).
Notation key := (key W).
Notation swf := (swf W).
Notation room := (room W).
Notation nop := (@nop unit).
Implicit Types (S : aset) (h : hp) (t : snode).

Lemma cmp_self p : exists m, compare W p p = (compareSame, false, m, false).
Proof. unfold compare, contains. rewrite N.ltb_irrefl, !N.eqb_refl. simpl. eauto. Qed.
Lemma newHead_same k p d s hh l r : swf k (Node p d s hh false l r) -> newHead (mkPrefix (paddr p) (plen p)) l r = Ok (Node p d s hh false l r).
Proof.
  intros H. destruct (swf_inactive W _ _ _ _ _ _ _ H) as (E & Nl & Nr & _ & M & _). rewrite E.
  unfold newHead, mk_opt, flatten. destruct l as [|lp ld ls lh la ll lr]; [congruence|]. destruct r as [|rp rd rs rh ra rl rr]; [congruence|].
  unfold mergeable in M. cbn [active prefix_of] in M. cbn [plen].
  assert (EP : mkPrefix (paddr p) (plen p) = p) by (destruct p; reflexivity). rewrite EP.
  destruct (N.eqb_spec (plen lp) (plen rp)) as [E1|E1]; cbn [negb bind]; [|reflexivity].
  destruct (N.eqb_spec (plen lp) (plen p + 1)) as [E2|E2]; cbn [negb bind]; [|reflexivity].
  rewrite <- E1, E2, N.eqb_refl, !andb_true_r in M. destruct la, ra; cbn in *; try discriminate; reflexivity.
Qed.
Lemma NS : forall a b : snode, nop a b = true -> a = b. Proof. discriminate. Qed.
Definition rk := room_kid W HW nop NS.
Lemma union_self k t : swf k t -> forall fuel, (room t + room t < fuel)%nat -> union W nop fuel t t = Ok t.
Proof.
  revert k. induction t as [|p d s hh a l IHl r IHr]; intros k H fuel F; (destruct fuel as [|fuel]; [lia|]); [reflexivity|].
  cbn [union]. destruct (cmp_self p) as (m & C). rewrite C. unfold HeapProof2.nop at 1. destruct a; [reflexivity|].
  pose proof (swf_l W _ _ _ _ _ _ _ _ H) as Hl. pose proof (swf_r W _ _ _ _ _ _ _ _ H) as Hr.
  pose proof (rk _ _ _ _ _ _ _ _ false H) as R1. pose proof (rk _ _ _ _ _ _ _ _ true H) as R2. cbn [kid] in R1, R2.
  rewrite (IHl _ Hl), (IHr _ Hr) by lia. cbn [bind]. unfold HeapProof2.nop. cbn [andb].
  apply (newHead_same k). exact H.
Qed.
Lemma normal_key_eq p q : wf_prefix W p -> wf_prefix W q -> normal W p -> normal W q -> key p = key q -> p = q.
Proof.
  intros Wp Wq Np Nq E. rewrite <- (normal_clean W p Np), <- (normal_clean W q Nq). apply clean_key_eq; auto.
Qed.
Lemma Union_kids k p d s hh l r : swf k (Node p d s hh false l r) -> Union W nop l r = Ok (Node p d s hh false l r).
Proof.
  intros H. pose proof (newHead_same k _ _ _ _ _ _ H) as NH.
  destruct (swf_inactive W _ _ _ _ _ _ _ H) as (E & Nl & Nr & Np & M & _).
  pose proof (swf_l W _ _ _ _ _ _ _ _ H) as Hl. pose proof (swf_r W _ _ _ _ _ _ _ _ H) as Hr. pose proof (swf_prefix W _ _ _ _ _ _ _ _ H) as Pp.
  destruct l as [|lp ld ls lh la ll lr]; [congruence|]. destruct r as [|rp rd rs rh ra rl rr]; [congruence|].
  pose proof (swf_prefix W _ _ _ _ _ _ _ _ Hl) as Pl. pose proof (swf_prefix W _ _ _ _ _ _ _ _ Hr) as Pr.
  pose proof (swf_pre W _ _ _ _ _ _ _ _ Hl) as Kl. pose proof (swf_pre W _ _ _ _ _ _ _ _ Hr) as Kr.
  unfold Union. assert (FU : exists n, fuelW W = Datatypes.S n) by (exists (pred (fuelW W)); unfold fuelW; lia).
  destruct FU as [n ->]. cbn [union]. unfold HeapProof2.nop at 1.
  pose proof (Key.compare_spec W HW lp rp Pl Pr) as C.
  destruct C as [E0|c x E0|c x E0|q c xa xb rev E1 E2 Er]; cbn beta iota zeta.
  - exfalso. rewrite E0 in Kl. pose proof (pre_snoc_inj _ _ _ _ Kl Kr). discriminate.
  - exfalso. rewrite E0 in Kr. assert (Q : pre (key p ++ [false]) (key lp ++ c :: x)) by (eapply pre_trans; [exact Kl|apply pre_app_r]).
    pose proof (pre_snoc_inj _ _ _ _ Q Kr). discriminate.
  - exfalso. rewrite E0 in Kl. assert (Q : pre (key p ++ [true]) (key rp ++ c :: x)) by (eapply pre_trans; [exact Kr|apply pre_app_r]).
    pose proof (pre_snoc_inj _ _ _ _ Q Kl). discriminate.
  - assert (Q : q = key p /\ c = false).
    { destruct Kl as [ul Kl]. destruct Kr as [ur Kr]. rewrite <- app_assoc in Kl, Kr. cbn in Kl, Kr.
      rewrite Kl in E1. rewrite Kr in E2. clear -E1 E2. revert q E1 E2. induction (key p) as [|b kp IH]; intros [|b' q] E1 E2; cbn in *.
      - injection E1 as E1 _. auto.
      - injection E1 as E1 _. injection E2 as E2 _. congruence.
      - injection E1 as E1 _. injection E2 as E2 _. subst. destruct c; discriminate.
      - injection E1 as E1' E1. injection E2 as E2' E2. subst b'. destruct (IH q E1 E2) as [-> ->]. auto. }
    destruct Q as [-> ->].
    assert (Lq : nlen (key p) <= plen lp) by (rewrite <- (nlen_key W lp), E1, nlen_app; lia).
    destruct (join_prefix_spec W HW lp (nlen (key p)) Pl Lq) as (Wj & Lj & Kj & _).
    assert (Kq : key (join_prefix W lp (nlen (key p))) = key p).
    { rewrite Kj, E1. unfold nlen. rewrite Nat2N.id, firstn_app, Nat.sub_diag, firstn_all. cbn. apply app_nil_r. }
    replace (xorb (if rev then false else negb false) rev) with true by (destruct rev; reflexivity).
    assert (J : join_prefix W lp (nlen (key p)) = mkPrefix (paddr p) (plen p)).
    { replace (mkPrefix (paddr p) (plen p)) with p by (destruct p; reflexivity).
      apply normal_key_eq; auto. apply join_normal; auto. }
    rewrite J. exact NH.
Qed.

(* ---- the constructors ---- *)
Lemma wpi_setNodeFromPrefix S h p : dom S h ->
  wpi S h (h_setNodeFromPrefix p) (rel r_t (Ok (setNodeFromPrefix p))).
Proof.
  intros D. unfold h_setNodeFromPrefix. apply wpi_alloc; auto. intros l h1 Nl D1 E1 K1. apply wpi_ret.
  exists l, None, None. conj; auto; try reflexivity. left. reflexivity.
Qed.
Lemma wpi_newHead S h p pl pr l r : dom S h -> repr S h pl l -> repr S h pr r ->
  wpi S h (h_newHead p pl pr) (rel r_t (newHead p l r)).
Proof.
  intros D Rl Rr. unfold h_newHead. apply wpi_alloc; auto. intros z h1 Nz D1 E1 K1.
  assert (Iz : incl_s S (without z (plus1 z S))) by (apply without_plus1; auto).
  assert (Rl' : repr (without z (plus1 z S)) h1 pl l) by (eapply repr_keep; eauto).
  assert (Rr' : repr (without z (plus1 z S)) h1 pr r) by (eapply repr_keep; eauto).
  assert (Zs : plus1 z S z) by (left; reflexivity).
  apply wpi_mutate. unfold h_flatten. eapply wpi_load; [exact Zs|exact E1|]. cbn [fresh_kids hactive hc0 hc1 hPrefix].
  rewrite (repr_nilp _ _ _ _ Rl'), (repr_nilp _ _ _ _ Rr'). unfold newHead, mk_opt, flatten.
  destruct l as [|lp ld ls lh la ll lr]; [exact I|]. destruct r as [|rp rd rs rh ra rl rr]; [exact I|]. cbn [is_nil orb].
  pose proof Rl' as Rl2. pose proof Rr' as Rr2. cbn [repr] in Rl2, Rr2.
  destruct Rl2 as (i & i0 & i1 & -> & [Hi _] & Ei & _). destruct Rr2 as (j & j0 & j1 & -> & [Hj _] & Ej & _).
  eapply wpi_load; [exact Hi|exact Ei|]. eapply wpi_load; [exact Hj|exact Ej|]. cbn [hPrefix hactive].
  assert (STAY : wpi (plus1 z S) h1 (ret tt) (mpost z (rel r_t (Ok (mk p None false (Node lp ld ls lh la ll lr) (Node rp rd rs rh ra rl rr)))))).
  { apply wpi_ret. eexists _, (Node lp ld ls lh la ll lr), (Node rp rd rs rh ra rl rr). conj; eauto. }
  destruct (negb (plen lp =? plen rp)); [exact STAY|]. destruct (negb (plen lp =? plen p + 1)); [exact STAY|].
  destruct (negb la || negb ra); [exact STAY|]. cbn [bind].
  apply wpi_store_last; auto. intros h2 D2 E2 K2. eexists _, Nil, Nil. conj; eauto; try reflexivity.
Qed.

(* ---- Union ---- *)
Lemma wpi_union : forall fuel k me other pm po S h, dom S h -> repr S h pm me -> repr S h po other -> swf k me -> swf k other ->
  (room me + room other < fuel)%nat ->
  wpi S h (h_union W fuel pm po) (rel r_t (union W nop fuel me other)).
Proof.
  induction fuel as [|fuel IH]; intros k me other pm po S h D Rm Ro Hm Ho F; [lia|]. cbn [h_union].
  destruct (ptr_eqb pm po) eqn:PE.
  { assert (me = other) as <- by (eapply repr_ptr_eq; eauto). apply wpi_ret. rewrite (union_self k me Hm) by lia. exact Rm. }
  clear PE. rewrite (repr_nilp _ _ _ _ Rm), (repr_nilp _ _ _ _ Ro). cbn [union]. unfold HeapProof2.nop at 1.
  destruct other as [|op od os oh oa ol or]; [apply wpi_ret; destruct me; exact Rm|].
  destruct me as [|mp md ms mh ma ml mr]; [apply wpi_ret; exact Ro|]. cbn [is_nil].
  pose proof Rm as Rm2. pose proof Ro as Ro2. cbn [repr] in Rm2, Ro2.
  destruct Rm2 as (i & i0 & i1 & -> & Hi & Ei & M0 & M1). destruct Ro2 as (j & j0 & j1 & -> & Hj & Ej & O0 & O1).
  eapply wpi_load; [exact Hi|exact Ei|]. eapply wpi_load; [exact Hj|exact Ej|]. cbn [hPrefix hactive hc0 hc1].
  pose proof (swf_prefix W _ _ _ _ _ _ _ _ Hm) as Pm. pose proof (swf_prefix W _ _ _ _ _ _ _ _ Ho) as Po.
  pose proof (Key.compare_spec W HW mp op Pm Po) as C.
  (* the contained cases *)
  assert (SUPER : forall kk c sup sub ps pb x sp sd ss sh sa sl sr i0 i1, sup = Node sp sd ss sh sa sl sr -> ps = Some x ->
    S x -> nth_error h x = Some (mkH sp sd ss sh sa i0 i1) -> repr S h i0 sl -> repr S h i1 sr -> repr S h ps sup -> repr S h pb sub ->
    swf kk sup -> swf (key sp ++ [c]) sub -> (room sup + room sub <= fuel)%nat ->
    wpi S h (s <- load ps ;;
        if hactive s then ret ps
        else
          '(lft, rgt) <-
            (if c
             then (x <- h_union W fuel (hc1 s) pb ;; ret (hc0 s, x))
             else (x <- h_union W fuel (hc0 s) pb ;; ret (x, hc1 s))) ;;
          h_newHead (mkPrefix (paddr (hPrefix s)) (plen (hPrefix s))) lft rgt)
      (rel r_t (if active sup then Ok sup
          else
            bind (if c
               then bind (union W nop fuel (child1 sup) sub) (fun x => Ok (child0 sup, x))
               else bind (union W nop fuel (child0 sup) sub) (fun x => Ok (x, child1 sup)))
            (fun '(lft, rgt) => newHead (mkPrefix (paddr (prefix_of sup)) (plen (prefix_of sup))) lft rgt)))).
  { intros kk c sup sub ps pb x sp sd ss sh sa sl sr a0 a1 -> -> Hx Ex A0 A1 RS RB HS HB FB.
    eapply wpi_load; [exact Hx|exact Ex|]. cbn [hPrefix hactive hc0 hc1 active child0 child1 prefix_of].
    destruct sa; [apply wpi_ret; exact RS|].
    pose proof (rk _ _ _ _ _ _ _ _ c HS) as RK.
    pose proof (swf_kid W _ _ _ _ _ _ _ _ c HS) as SK.
    destruct c; cbn [kid] in *; apply pbind_assoc.
    - eapply wpi_call; [exact D|eapply ownp_owns; apply ownp_union|eapply (IH _ sr sub a1 pb S h D A1 RB SK HB); lia|].
      cbn beta. intros r1 S1 h1 X I1 D1 K1. destruct (union W nop fuel sr sub) as [y| |], r1 as [py| |]; try contradiction; cbn [bind]; try exact I.
      apply wpi_newHead; auto. eapply repr_keep; eauto.
    - eapply wpi_call; [exact D|eapply ownp_owns; apply ownp_union|eapply (IH _ sl sub a0 pb S h D A0 RB SK HB); lia|].
      cbn beta. intros r1 S1 h1 X I1 D1 K1. destruct (union W nop fuel sl sub) as [y| |], r1 as [py| |]; try contradiction; cbn [bind]; try exact I.
      apply wpi_newHead; auto. eapply repr_keep; eauto. }
  destruct C as [E|c x E|c x E|q c ra rb rev E1 E2 Er]; cbn beta iota zeta.
  - (* same *)
    destruct ma; [apply wpi_ret; exact Rm|]. destruct oa; [apply wpi_ret; exact Ro|].
    pose proof (swf_l W _ _ _ _ _ _ _ _ Hm) as Hml. pose proof (swf_r W _ _ _ _ _ _ _ _ Hm) as Hmr.
    pose proof (swf_l W _ _ _ _ _ _ _ _ Ho) as Hol. pose proof (swf_r W _ _ _ _ _ _ _ _ Ho) as Hor. rewrite <- E in Hol, Hor.
    pose proof (rk _ _ _ _ _ _ _ _ false Hm) as R1. pose proof (rk _ _ _ _ _ _ _ _ true Hm) as R2.
    pose proof (rk _ _ _ _ _ _ _ _ false Ho) as R3. pose proof (rk _ _ _ _ _ _ _ _ true Ho) as R4. cbn [kid] in R1, R2, R3, R4.
    eapply wpi_call; [exact D|eapply ownp_owns; apply ownp_union|eapply (IH _ ml ol i0 j0 S h D M0 O0 Hml Hol); lia|].
    cbn beta. intros r1 S1 h1 X1 I1 D1 K1. destruct (union W nop fuel ml ol) as [lft| |] eqn:EL, r1 as [pl| |]; try contradiction; cbn [bind]; try exact I.
    assert (M1' : repr S1 h1 i1 mr) by (eapply repr_keep; eauto). assert (O1' : repr S1 h1 j1 or) by (eapply repr_keep; eauto).
    eapply wpi_call; [exact D1|eapply ownp_owns; apply ownp_union|eapply (IH _ mr or i1 j1 S1 h1 D1 M1' O1' Hmr Hor); lia|].
    cbn beta. intros r2 S2 h2 X2 I2 D2 K2. destruct (union W nop fuel mr or) as [rgt| |] eqn:ER, r2 as [pr| |]; try contradiction; cbn [bind]; try exact I.
    cbn [rel] in X1, X2. unfold r_t in X1, X2. unfold HeapProof2.nop at 1. cbn [andb].
    assert (X1' : repr S2 h2 pl lft) by (eapply repr_keep; eauto).
    destruct (ptr_eqb pl i0 && ptr_eqb pr i1) eqn:PE; [|apply wpi_newHead; auto].
    apply andb_prop in PE. destruct PE as [PE1 PE2].
    assert (A0 : repr S2 h2 i0 ml) by (eapply repr_keep; [eapply repr_keep; [exact M0|exact I1|exact K1]|exact I2|exact K2]).
    assert (A1 : repr S2 h2 i1 mr) by (eapply repr_keep; eauto).
    assert (lft = ml) by (eapply repr_ptr_eq; [exact X1'|exact A0|exact PE1]). assert (rgt = mr) by (eapply repr_ptr_eq; [exact X2|exact A1|exact PE2]). subst lft rgt.
    apply wpi_ret. rewrite (newHead_same k _ _ _ _ _ _ Hm). cbn [rel]. unfold r_t.
    eapply repr_keep; [eapply repr_keep; [exact Rm|exact I1|exact K1]|exact I2|exact K2].
  - (* contains *)
    eapply (SUPER k c (Node mp md ms mh ma ml mr) (Node op od os oh oa ol or) (Some i) (Some j)); eauto; [|lia].
    eapply swf_rebase; [exact Ho|rewrite E; apply pre_snoc_cons].
  - eapply (SUPER k c (Node op od os oh oa ol or) (Node mp md ms mh ma ml mr) (Some j) (Some i)); eauto; [|lia].
    eapply swf_rebase; [exact Hm|rewrite E; apply pre_snoc_cons].
  - destruct (xorb _ rev); apply wpi_newHead; auto.
Qed.
Lemma wpi_Union k me other pm po S h : dom S h -> repr S h pm me -> repr S h po other -> swf k me -> swf k other ->
  wpi S h (h_Union W pm po) (rel r_t (Union W nop me other)).
Proof.
  intros. eapply wpi_union; eauto. pose proof (room_max W HW nop NS me). pose proof (room_max W HW nop NS other). unfold fuelW. lia.
Qed.

(* ---- ranges ---- *)
Lemma wpi_from_range : forall fuel a b S h, dom S h -> a <= b -> b < 2 ^ W -> (0 < fuel)%nat ->
  (forall q ra rb, fork W a b q ra rb -> (N.to_nat W - length q < fuel)%nat) ->
  wpi S h (h_from_range W fuel (mkRange a b)) (rel r_t (from_range W nop fuel (mkRange a b))).
Proof.
  induction fuel as [|fuel IH]; intros a b S h D AB B F0 F; [lia|].
  cbn [h_from_range from_range rfirst rlast]. destruct (_ =? _) eqn:TE; [apply wpi_setNodeFromPrefix; auto|].
  destruct (N.eq_dec a b) as [<-|NE].
  { exfalso. pose proof (step_point W HW nop fuel a B) as SP. cbn [from_range rfirst rlast] in SP. rewrite TE in SP.
    assert (C : clz W (N.lxor a a) = popcount (wnot W (N.lxor a a))); [|apply N.eqb_neq in TE; contradiction].
    rewrite N.lxor_nilpotent in *. apply point_test; auto. }
  assert (A : a < 2 ^ W) by lia.
  destruct (fork_exists W HW a b ltac:(lia) B) as (q & ra & rb & FK). pose proof (F q ra rb FK) as FL.
  destruct (step_facts W HW a b q ra rb A B FK) as (E1 & E2 & E3 & E4). rewrite E1, E2, E3.
  destruct (split_facts W HW fuel a b q ra rb B A FK FL) as (G1 & G2 & G3 & G4 & G5 & G6 & G7 & G8 & G9 & G10).
  eapply wpi_call; [exact D|eapply ownp_owns; apply ownp_from_range|apply (IH a (pivot W q - 1) S h D G1 ltac:(lia) G4 G5)|].
  cbn beta. intros r1 S1 h1 X1 I1 D1 K1.
  destruct (from_range_ok W HW nop NS fuel a (pivot W q - 1) G1 ltac:(lia) G4 G5) as (t1 & T1 & W1 & _). rewrite T1 in *.
  destruct r1 as [p1| |]; try contradiction. cbn [bind].
  eapply wpi_call; [exact D1|eapply ownp_owns; apply ownp_from_range|apply (IH (pivot W q) b S1 h1 D1 G2 B G4 G6)|].
  cbn beta. intros r2 S2 h2 X2 I2 D2 K2.
  destruct (from_range_ok W HW nop NS fuel (pivot W q) b G2 B G4 G6) as (t2 & T2 & W2 & _). rewrite T2 in *.
  destruct r2 as [p2| |]; try contradiction. cbn [bind]. cbn [rel] in X1, X2. unfold r_t in X1, X2.
  apply (wpi_Union q); auto.
  - eapply repr_keep; eauto.
  - eapply swf_snoc. apply W1; eassumption.
  - eapply swf_snoc. apply W2; eassumption.
Qed.
Lemma wpi_setNodeFromRange r S h : dom S h -> wf_range W r -> wpi S h (h_setNodeFromRange W r) (rel r_t (setNodeFromRange W nop r)).
Proof.
  intros D H. destruct r as [a b]. unfold h_setNodeFromRange, setNodeFromRange. unfold wf_range in H. cbn [rfirst rlast] in H. apply wpi_from_range; try tauto; [lia|]. intros q ra rb F. apply (fork_len W HW) in F. lia.
Qed.
Lemma wpi_halves S h p : dom S h -> wpi S h (h_halves W p)
  (rel (fun x y S h => repr S h (fst y) (fst x) /\ repr S h (snd y) (snd x)) (Ok (halves W p))).
Proof.
  intros D. unfold h_halves, halves. destruct (Halves W p) as [a b].
  eapply wpi_call; [exact D|eapply ownp_owns; apply ownp_setNodeFromPrefix|apply wpi_setNodeFromPrefix; auto|].
  cbn beta. intros r1 S1 h1 X1 I1 D1 K1. destruct r1 as [p1| |]; try contradiction.
  eapply wpi_call; [exact D1|eapply ownp_owns; apply ownp_setNodeFromPrefix|apply wpi_setNodeFromPrefix; auto|].
  cbn beta. intros r2 S2 h2 X2 I2 D2 K2. destruct r2 as [p2| |]; try contradiction. apply wpi_ret. split; [|exact X2].
  eapply repr_keep; [exact X1|exact I2|exact K2].
Qed.

(* ---- Difference ---- *)
Lemma wpi_difference : forall fuel k me other pm po S h, dom S h -> repr S h pm me -> repr S h po other -> swf k me -> swf [] other ->
  (room me + room other < fuel)%nat ->
  wpi S h (h_difference W fuel pm po) (rel r_t (difference W nop fuel me other)).
Proof.
  induction fuel as [|fuel IH]; intros k me other pm po S h D Rm Ro Hm Ho F; [lia|]. cbn [h_difference].
  rewrite (repr_nilp _ _ _ _ Rm), (repr_nilp _ _ _ _ Ro). cbn [difference].
  destruct me as [|mp md ms mh ma ml mr]; [apply wpi_ret; exact Rm|].
  destruct other as [|op od os oh oa ol or]; [apply wpi_ret; exact Rm|]. cbn [is_nil orb].
  pose proof Rm as Rm2. pose proof Ro as Ro2. cbn [repr] in Rm2, Ro2.
  destruct Rm2 as (i & i0 & i1 & -> & Hi & Ei & M0 & M1). destruct Ro2 as (j & j0 & j1 & -> & Hj & Ej & O0 & O1).
  eapply wpi_load; [exact Hi|exact Ei|]. eapply wpi_load; [exact Hj|exact Ej|]. cbn [hPrefix hactive hc0 hc1].
  pose proof (swf_prefix W _ _ _ _ _ _ _ _ Hm) as Pm. pose proof (swf_prefix W _ _ _ _ _ _ _ _ Ho) as Po.
  pose proof (swf_pre W _ _ _ _ _ _ _ _ Hm) as Km.
  pose proof (Key.compare_spec W HW mp op Pm Po) as C.
  assert (INACT : ma = false ->
    wpi S h (lft <- h_difference W fuel i0 (Some j) ;; rgt <- h_difference W fuel i1 (Some j) ;;
             if ptr_eqb lft i0 && ptr_eqb rgt i1 then ret (Some i) else h_Union W lft rgt)
     (rel r_t (bind (difference W nop fuel ml (Node op od os oh oa ol or)) (fun lft => bind (difference W nop fuel mr (Node op od os oh oa ol or)) (fun rgt =>
         if nop lft ml && nop rgt mr then Ok (Node mp md ms mh ma ml mr) else Union W nop lft rgt))))).
  { intros ->. pose proof (swf_l W _ _ _ _ _ _ _ _ Hm) as Hml. pose proof (swf_r W _ _ _ _ _ _ _ _ Hm) as Hmr.
    pose proof (rk _ _ _ _ _ _ _ _ false Hm) as R1. pose proof (rk _ _ _ _ _ _ _ _ true Hm) as R2. cbn [kid] in R1, R2.
    eapply wpi_call; [exact D|eapply ownp_owns; apply ownp_difference|eapply (IH _ ml _ i0 (Some j) S h D M0 Ro Hml Ho); lia|].
    cbn beta. intros r1 S1 h1 X1 I1 D1 K1.
    destruct (difference_ok W HW nop NS fuel _ ml (Node op od os oh oa ol or) ltac:(lia) Hml Ho) as (lft & EL & Sl & _). rewrite EL in *.
    destruct r1 as [pl| |]; try contradiction. cbn [bind].
    assert (M1' : repr S1 h1 i1 mr) by (eapply repr_keep; eauto). assert (Ro' : repr S1 h1 (Some j) (Node op od os oh oa ol or)) by (eapply repr_keep; eauto).
    eapply wpi_call; [exact D1|eapply ownp_owns; apply ownp_difference|eapply (IH _ mr _ i1 (Some j) S1 h1 D1 M1' Ro' Hmr Ho); lia|].
    cbn beta. intros r2 S2 h2 X2 I2 D2 K2.
    destruct (difference_ok W HW nop NS fuel _ mr (Node op od os oh oa ol or) ltac:(lia) Hmr Ho) as (rgt & ER & Sr & _). rewrite ER in *.
    destruct r2 as [pr| |]; try contradiction. cbn [bind]. unfold HeapProof2.nop at 1. cbn [andb].
    cbn [rel] in X1, X2. unfold r_t in X1, X2. assert (X1' : repr S2 h2 pl lft) by (eapply repr_keep; eauto).
    destruct (ptr_eqb pl i0 && ptr_eqb pr i1) eqn:PE.
    - apply andb_prop in PE. destruct PE as [PE1 PE2].
      assert (A0 : repr S2 h2 i0 ml) by (eapply repr_keep; [eapply repr_keep; [exact M0|exact I1|exact K1]|exact I2|exact K2]).
      assert (A1 : repr S2 h2 i1 mr) by (eapply repr_keep; eauto).
      assert (lft = ml) by (eapply repr_ptr_eq; [exact X1'|exact A0|exact PE1]). assert (rgt = mr) by (eapply repr_ptr_eq; [exact X2|exact A1|exact PE2]). subst lft rgt.
      apply wpi_ret. rewrite (Union_kids k _ _ _ _ _ _ Hm). cbn [rel]. unfold r_t.
      eapply repr_keep; [eapply repr_keep; [exact Rm|exact I1|exact K1]|exact I2|exact K2].
    - apply (wpi_Union (key mp)); auto; eapply swf_snoc; eassumption. }
  destruct C as [E|c x E|c x E|q c ra rb rev E1 E2 Er]; cbn beta iota zeta.
  - (* same *)
    destruct ma; cbn [negb]; [|apply INACT; reflexivity].
    destruct oa; [apply wpi_ret; reflexivity|].
    destruct (swf_inactive W _ _ _ _ _ _ _ Ho) as (_ & _ & _ & _ & _ & Lo).
    assert (EL : plen mp = plen op) by (rewrite <- !(nlen_key W), E; reflexivity).
    assert (Lm : plen mp < W) by lia.
    pose proof (swf_half W false mp Pm Lm) as H0. pose proof (swf_half W true mp Pm Lm) as H1.
    pose proof (room_half W HW false mp Pm Lm) as RH0. pose proof (room_half W HW true mp Pm Lm) as RH1.
    pose proof (rk _ _ _ _ _ _ _ _ false Ho) as R3. pose proof (rk _ _ _ _ _ _ _ _ true Ho) as R4. cbn [kid] in R3, R4.
    pose proof (swf_weaken W _ _ _ (pre_nil _) (swf_l W _ _ _ _ _ _ _ _ Ho)) as Hol. pose proof (swf_weaken W _ _ _ (pre_nil _) (swf_r W _ _ _ _ _ _ _ _ Ho)) as Hor.
    eapply wpi_call; [exact D|eapply ownp_owns; apply ownp_halves|apply wpi_halves; exact D|].
    cbn beta. intros r1 S1 h1 X1 I1 D1 K1. destruct r1 as [[pa pb]| |]; try contradiction. cbn [rel] in X1. rewrite (halves_eq W mp Pm Lm) in *.
    cbn [fst snd] in X1. destruct X1 as [XA XB].
    assert (O0' : repr S1 h1 j0 ol) by (eapply repr_keep; eauto). assert (O1' : repr S1 h1 j1 or) by (eapply repr_keep; eauto).
    eapply wpi_call; [exact D1|eapply ownp_owns; apply ownp_difference|eapply (IH _ _ ol pa j0 S1 h1 D1 XA O0' H0 Hol); cbn [SetProof.room] in *; lia|].
    cbn beta. intros r2 S2 h2 X2 I2 D2 K2.
    destruct (difference_ok W HW nop NS fuel _ (setNodeFromPrefix (half W false mp)) ol ltac:(cbn [SetProof.room] in *; lia) H0 Hol) as (a & EA & Sa & _). rewrite EA in *.
    destruct r2 as [px| |]; try contradiction. cbn [bind].
    assert (XB' : repr S2 h2 pb (setNodeFromPrefix (half W true mp))) by (eapply repr_keep; eauto).
    assert (O1'' : repr S2 h2 j1 or) by (eapply repr_keep; eauto).
    eapply wpi_call; [exact D2|eapply ownp_owns; apply ownp_difference|eapply (IH _ _ or pb j1 S2 h2 D2 XB' O1'' H1 Hor); cbn [SetProof.room] in *; lia|].
    cbn beta. intros r3 S3 h3 X3 I3 D3 K3.
    destruct (difference_ok W HW nop NS fuel _ (setNodeFromPrefix (half W true mp)) or ltac:(cbn [SetProof.room] in *; lia) H1 Hor) as (b & EB & Sb & _). rewrite EB in *.
    destruct r3 as [py| |]; try contradiction. cbn [bind]. cbn [rel] in X2, X3. unfold r_t in X2, X3.
    apply (wpi_Union (key mp)); auto; try (eapply swf_snoc; eassumption). eapply repr_keep; eauto.
  - (* contains *)
    destruct ma; cbn [negb]; [|apply INACT; reflexivity].
    assert (Lm : plen mp < W). { destruct Po as [_ Po]. rewrite <- (nlen_key W op), E, nlen_app, nlen_cons, nlen_key in Po. lia. }
    pose proof (swf_half W c mp Pm Lm) as Hc. pose proof (room_half W HW c mp Pm Lm) as RH. pose proof (swf_half W (negb c) mp Pm Lm) as Hn.
    eapply wpi_call; [exact D|eapply ownp_owns; apply ownp_halves|apply wpi_halves; exact D|].
    cbn beta. intros r1 S1 h1 X1 I1 D1 K1. destruct r1 as [[pa pb]| |]; try contradiction. cbn [rel] in X1. rewrite (halves_eq W mp Pm Lm) in *.
    cbn [fst snd] in X1. destruct X1 as [XA XB].
    assert (Ro' : repr S1 h1 (Some j) (Node op od os oh oa ol or)) by (eapply repr_keep; eauto).
    assert (XC : repr S1 h1 (if c then pb else pa) (setNodeFromPrefix (half W c mp))) by (destruct c; assumption).
    assert (XN : repr S1 h1 (if c then pa else pb) (setNodeFromPrefix (half W (negb c) mp))) by (destruct c; assumption).
    assert (EC : (if c then setNodeFromPrefix (half W true mp) else setNodeFromPrefix (half W false mp)) = setNodeFromPrefix (half W c mp)) by (destruct c; reflexivity).
    assert (EN : (if c then setNodeFromPrefix (half W false mp) else setNodeFromPrefix (half W true mp)) = setNodeFromPrefix (half W (negb c) mp)) by (destruct c; reflexivity).
    rewrite EC, EN.
    eapply wpi_call; [exact D1|eapply ownp_owns; apply ownp_difference|eapply (IH _ _ _ _ (Some j) S1 h1 D1 XC Ro' Hc Ho); cbn [SetProof.room] in *; lia|].
    cbn beta. intros r2 S2 h2 X2 I2 D2 K2.
    destruct (difference_ok W HW nop NS fuel _ (setNodeFromPrefix (half W c mp)) (Node op od os oh oa ol or) ltac:(cbn [SetProof.room] in *; lia) Hc Ho) as (a & EA & Sa & _). rewrite EA in *.
    destruct r2 as [px| |]; try contradiction. cbn [bind]. cbn [rel] in X2. unfold r_t in X2.
    apply (wpi_Union (key mp)); auto; try (eapply swf_snoc; eassumption). eapply repr_keep; eauto.
  - (* contained *)
    destruct oa; [apply wpi_ret; reflexivity|].
    pose proof (rk _ _ _ _ _ _ _ _ c Ho) as RK.
    eapply (IH k); eauto.
    + apply repr_kid; auto.
    + eapply swf_weaken; [apply pre_nil|exact (swf_kid W _ _ _ _ _ _ _ _ c Ho)].
    + lia.
  - apply wpi_ret. exact Rm.
Qed.
Lemma wpi_Difference k me other pm po S h : dom S h -> repr S h pm me -> repr S h po other -> swf k me -> swf [] other ->
  wpi S h (h_Difference W pm po) (rel r_t (Difference W nop me other)).
Proof.
  intros. eapply wpi_difference; eauto. pose proof (room_max W HW nop NS me). pose proof (room_max W HW nop NS other). unfold fuelW. lia.
Qed.

(* ---- Intersect ---- *)
Lemma wpi_intersect : forall fuel me other pm po S h, dom S h -> repr S h pm me -> repr S h po other -> swf [] me -> swf [] other ->
  (room me + room other < fuel)%nat ->
  wpi S h (h_intersect W fuel pm po) (rel r_t (intersect W nop fuel me other)).
Proof.
  induction fuel as [|fuel IH]; intros me other pm po S h D Rm Ro Hm Ho F; [lia|]. cbn [h_intersect].
  rewrite (repr_nilp _ _ _ _ Rm), (repr_nilp _ _ _ _ Ro). cbn [intersect].
  destruct me as [|mp md ms mh ma ml mr]; [apply wpi_ret; reflexivity|].
  destruct other as [|op od os oh oa ol or]; [apply wpi_ret; reflexivity|]. cbn [is_nil orb].
  pose proof Rm as Rm2. pose proof Ro as Ro2. cbn [repr] in Rm2, Ro2.
  destruct Rm2 as (i & i0 & i1 & -> & Hi & Ei & M0 & M1). destruct Ro2 as (j & j0 & j1 & -> & Hj & Ej & O0 & O1).
  eapply wpi_load; [exact Hi|exact Ei|]. eapply wpi_load; [exact Hj|exact Ej|]. cbn [hPrefix hactive hc0 hc1].
  (* one operand kept, the other split *)
  assert (SPLIT : forall keep spl pk p d s hh l r c0 c1, repr S h pk keep -> spl = Node p d s hh false l r ->
     repr S h c0 l -> repr S h c1 r -> swf [] keep -> swf [] spl -> (room keep + room spl <= fuel)%nat ->
     wpi S h (x <- h_intersect W fuel pk c0 ;; y <- h_intersect W fuel pk c1 ;; h_Union W x y)
       (rel r_t (bind (intersect W nop fuel keep l) (fun x => bind (intersect W nop fuel keep r) (fun y => Union W nop x y))))).
  { intros keep spl pk p d s hh l r c0 c1 RK -> A0 A1 HK HS FF.
    pose proof (rk _ _ _ _ _ _ _ _ false HS) as R1. pose proof (rk _ _ _ _ _ _ _ _ true HS) as R2. cbn [kid] in R1, R2.
    pose proof (swf_weaken W _ _ _ (pre_nil _) (swf_l W _ _ _ _ _ _ _ _ HS)) as Hl. pose proof (swf_weaken W _ _ _ (pre_nil _) (swf_r W _ _ _ _ _ _ _ _ HS)) as Hr.
    eapply wpi_call; [exact D|eapply ownp_owns; apply ownp_intersect|eapply (IH keep l pk c0 S h D RK A0 HK Hl); lia|].
    cbn beta. intros r1 S1 h1 X1 I1 D1 K1.
    destruct (intersect_ok W HW nop NS fuel keep l ltac:(lia) HK Hl) as (x & EX & Sx & _). rewrite EX in *.
    destruct r1 as [px| |]; try contradiction. cbn [bind].
    assert (RK' : repr S1 h1 pk keep) by (eapply repr_keep; eauto). assert (A1' : repr S1 h1 c1 r) by (eapply repr_keep; eauto).
    eapply wpi_call; [exact D1|eapply ownp_owns; apply ownp_intersect|eapply (IH keep r pk c1 S1 h1 D1 RK' A1' HK Hr); lia|].
    cbn beta. intros r2 S2 h2 X2 I2 D2 K2.
    destruct (intersect_ok W HW nop NS fuel keep r ltac:(lia) HK Hr) as (y & EY & Sy & _). rewrite EY in *.
    destruct r2 as [py| |]; try contradiction. cbn [bind]. cbn [rel] in X1, X2. unfold r_t in X1, X2.
    apply (wpi_Union []); auto. eapply repr_keep; eauto. }
  assert (REST : forall reversed : bool, wpi S h (if negb ma then
          x <- h_intersect W fuel (Some j) i0 ;; y <- h_intersect W fuel (Some j) i1 ;; h_Union W x y
        else if negb oa then
          x <- h_intersect W fuel (Some i) j0 ;; y <- h_intersect W fuel (Some i) j1 ;; h_Union W x y
        else if reversed then ret (Some i)
        else ret (Some j))
    (rel r_t (if negb ma then bind (intersect W nop fuel (Node op od os oh oa ol or) ml) (fun x => bind (intersect W nop fuel (Node op od os oh oa ol or) mr) (fun y => Union W nop x y))
       else if negb oa then bind (intersect W nop fuel (Node mp md ms mh ma ml mr) ol) (fun x => bind (intersect W nop fuel (Node mp md ms mh ma ml mr) or) (fun y => Union W nop x y))
       else if reversed then Ok (Node mp md ms mh ma ml mr) else Ok (Node op od os oh oa ol or)))).
  { intros reversed. destruct ma; cbn [negb].
    - destruct oa; cbn [negb]; [destruct reversed; apply wpi_ret; assumption|].
      eapply SPLIT; eauto. lia.
    - eapply SPLIT; eauto. lia. }
  destruct (compare W mp op) as [[[result reversed] common] child]. destruct result; try (apply REST). apply wpi_ret. reflexivity.
Qed.
Lemma wpi_Intersect me other pm po S h : dom S h -> repr S h pm me -> repr S h po other -> swf [] me -> swf [] other ->
  wpi S h (h_Intersect W pm po) (rel r_t (Intersect W nop me other)).
Proof.
  intros. eapply wpi_intersect; eauto. pose proof (room_max W HW nop NS me). pose proof (room_max W HW nop NS other). unfold fuelW. lia.
Qed.
End RefineSet.
