(* PropsAgg.v - the properties C16-C19 of Aggregate and Map as theorems. *)
From Verif Require Export PropsTable.
From Coq Require Import Arith Sorted Permutation ZifyBool ZifyNat ZifyN.

Lemma blt_asym k l : blt k l -> blt l k -> False.
Proof.
  intros [(c & r & ->)|(p & r & s & -> & ->)] [(c' & r' & E)|(p' & r' & s' & E1 & E2)].
  - apply (f_equal (@length bool)) in E. rewrite !app_length in E. cbn in E. lia.
  - destruct (Nat.le_gt_cases (length k) (length p')) as [L|L].
    + apply (f_equal (@length bool)) in E2. rewrite app_length in E2. cbn in E2. lia.
    + assert (P : pre (p' ++ [true]) k) by (rewrite E2; apply pre_snoc_cons).
      assert (P2 : pre (p' ++ [false]) (k ++ c :: r)) by (rewrite E1; apply pre_snoc_cons).
      assert (P3 : pre (p' ++ [true]) (k ++ c :: r)) by (eapply pre_trans; [exact P|apply pre_app_r]).
      pose proof (pre_snoc_inj _ _ _ _ P2 P3). discriminate.
  - assert (P1 : pre (p ++ [true]) (p ++ true :: s)) by apply pre_snoc_cons.
    assert (P2 : pre (p ++ [false]) (p ++ false :: r)) by apply pre_snoc_cons.
    destruct (Nat.le_gt_cases (length p) (length (p ++ true :: s))) as [L|L]; [|rewrite app_length in L; lia].
    assert (P3 : pre (p ++ [true]) (p ++ false :: r)) by (rewrite E; eapply pre_trans; [exact P1|apply pre_app_r]).
    pose proof (pre_snoc_inj _ _ _ _ P2 P3). discriminate.
  - destruct (Nat.le_gt_cases (length p) (length p')) as [L|L].
    + assert (Q : pre p p').
      { eapply (pre_comparable p p' (p ++ false :: r)); [apply pre_app_r|rewrite E2; apply pre_app_r|auto]. }
      destruct Q as [m ->]. rewrite <- app_assoc in E1, E2.
      apply app_inv_head in E1. apply app_inv_head in E2. destruct m; cbn in *; congruence.
    + assert (Q : pre p' p).
      { eapply (pre_comparable p' p (p ++ false :: r)); [rewrite E2; apply pre_app_r|apply pre_app_r|lia]. }
      destruct Q as [m ->]. rewrite <- app_assoc in E1, E2.
      apply app_inv_head in E1. apply app_inv_head in E2. destruct m; cbn in *; congruence.
Qed.

Lemma lastm_max W {T} (L : list (prefix * option T)) kk e :
  StronglySorted (@elt W T) L -> lastm W L kk = Some e ->
  forall e', In e' L -> pre (ekey W e') kk -> pre (ekey W e') (ekey W e).
Proof.
  induction L as [|x L IH]; cbn; [tauto|]. intros S E. inversion S as [|? ? S' F]; subst.
  destruct (lastm W L kk) as [y|] eqn:E'.
  - injection E as ->. intros e' [<-|I] P; auto.
    destruct (lastm_In _ _ _ _ E') as [I P'].
    rewrite Forall_forall in F. specialize (F _ I). unfold elt in F.
    destruct (Nat.le_gt_cases (length (ekey W x)) (length (ekey W e))).
    + eapply pre_comparable; eauto.
    + exfalso. eapply blt_asym; [exact F|]. left.
      assert (Q : pre (ekey W e) (ekey W x)) by (eapply pre_comparable; eauto; lia).
      destruct Q as [[|c m] Q]; [rewrite app_nil_r in Q; rewrite Q in H; lia|]. eauto.
  - destruct (preb (ekey W x) kk) eqn:B; [|discriminate]. injection E as ->.
    intros e' [<-|I] P; [apply pre_refl|].
    exfalso. rewrite (lastm_none W) in E'. eapply E'; eauto.
Qed.

Lemma Match_lastm W (HW : 0 < W /\ W < 2 ^ 15) {T} (t : trie T) q : wf W [] t -> wf_prefix W q ->
  Match W t q = lastm W (entries t) (key W q).
Proof.
  intros H Hq. pose proof (Match_spec W HW t [] q H Hq) as M.
  destruct (Match W t q) as [e|].
  - destruct M as (I & P & B). destruct (lastm W (entries t) (key W q)) as [e'|] eqn:E.
    + destruct (lastm_In _ _ _ _ E) as [I' P']. f_equal.
      pose proof (lastm_max W _ _ _ (entries_sorted W _ _ H) E e I P) as Q1.
      pose proof (B e' I' P') as Q2. pose proof (pre_antisym _ _ Q1 Q2) as Q.
      pose proof (In_fk W _ _ _ H I) as F1. pose proof (In_fk W _ _ _ H I') as F2. rewrite Q in F1. congruence.
    + exfalso. rewrite (lastm_none W) in E. eapply E; eauto.
  - destruct (lastm W (entries t) (key W q)) as [e'|] eqn:E; auto.
    destruct (lastm_In _ _ _ _ E) as [I' P']. exfalso. eapply M; eauto.
Qed.

Lemma full_onto W kk : nlen kk = W -> exists a, a < 2 ^ W /\ full W a = kk.
Proof.
  intros H. exists (val kk). assert (L : val kk < 2 ^ W) by (rewrite <- H; apply val_lt).
  split; auto. unfold full. apply val_inj.
  - fold (full W (val kk)). rewrite full_length. unfold nlen in H. lia.
  - rewrite val_top by (auto; lia). replace (W - N.of_nat (N.to_nat W)) with 0 by lia.
    change (2 ^ 0) with 1. apply N.div_1_r.
Qed.

Lemma parent W p : wf_prefix W p -> forall k c, key W p = k ++ [c] ->
  exists m, wf_prefix W m /\ plen m < W /\ key W m = k.
Proof.
  intros [Ha Hl] k c E. pose proof (f_equal nlen E) as L. rewrite (nlen_key W), nlen_app in L.
  change (nlen [c]) with 1 in L.
  exists (mkPrefix (paddr p) (plen p - 1)). cbn. split; [split; cbn; auto; lia|]. split; [lia|].
  assert (P : pre (key W (mkPrefix (paddr p) (plen p - 1))) (key W p)).
  { unfold key; cbn. apply top_pre. lia. }
  eapply pre_eq_length.
  - eapply (pre_comparable _ _ (key W p)); [exact P|rewrite E; apply pre_app_r|].
    pose proof (nlen_key W (mkPrefix (paddr p) (plen p - 1))) as Q. cbn in Q. unfold nlen in *. lia.
  - pose proof (nlen_key W (mkPrefix (paddr p) (plen p - 1))) as Q. cbn in Q. unfold nlen in *. lia.
Qed.

Section Props.
Variable W : N.
Hypothesis IPW : ip_width W.
Context {T : Type}.
Variable zeroT : T.
Variable box : T -> option T.
Hypothesis Hbox : forall v, unbox zeroT (box v) = v.
Variable goeq : T -> T -> res bool.
Notation key := (key W).
Notation wf := (wf W).
Notation fk := (fk W).
Notation unbox := (unbox zeroT).
Notation isbox := (isbox box).
Notation boxed := (boxed isbox).
Notation Get := (Get W zeroT).
Notation LongestMatch := (LongestMatch W zeroT).
Notation reachable := (reachable W zeroT box goeq).
Notation decides := (decides box).
Notation stored := (stored W zeroT).
Notation fg := (fg zeroT).
Let HW : 0 < W /\ W < 2 ^ 15 := ip_HW W IPW.

Definition equivalence (g : T -> T -> bool) : Prop :=
  (forall x, g x x = true) /\ (forall x y, g x y = true -> g y x = true) /\
  (forall x y z, g x y = true -> g y z = true -> g x z = true).

(* the longest-match answer for a host address: its value, if any *)
Definition value_at (t : tableX T) (a : N) : option T :=
  let '(v, found, _) := LongestMatch t (Some (mkPrefix a W)) in if found then Some v else None.

Lemma host_wf a : a < 2 ^ W -> wf_prefix W (mkPrefix a W).
Proof. intros H. split; cbn; [auto|lia]. Qed.

Lemma value_lastm (t : tableX T) a : wf [] (tx_trie t) -> a < 2 ^ W ->
  value_at t a = option_map (fun e => unbox (snd e)) (lastm W (entries (tx_trie t)) (full W a)).
Proof.
  intros Hw Ha. unfold value_at. rewrite LongestMatch_eq.
  rewrite (Match_lastm W HW) by auto using host_wf. rewrite key_full.
  destruct (lastm W (entries (tx_trie t)) (full W a)) as [[p d]|]; reflexivity.
Qed.

Lemma nlen_full a : nlen (full W a) = W.
Proof. unfold nlen. rewrite full_length. lia. Qed.

Section Agg.
Variable peq : trie T -> trie T -> bool.
Hypothesis Hs : forall a b, peq a b = true -> a = b.
Variables (t t' : tableX T) (g : T -> T -> bool).
Hypothesis Ht : reachable t.
Hypothesis Hd : decides t g.
Hypothesis Hg : equivalence g.
Hypothesis HA : tbl_Aggregate peq t = Ok t'.

Lemma agg_trie : Aggregate peq (tx_trie t) (ceq (tx_eq t)) = Ok (tx_trie t').
Proof.
  unfold tbl_Aggregate in HA. destruct (Aggregate _ _ _) as [n| |]; cbn in HA; try discriminate.
  injection HA as <-. reflexivity.
Qed.
Lemma agg_eq : forall x y b, isbox x -> isbox y -> ceq (tx_eq t) x y = Ok b -> b = fg g x y.
Proof. intros x y b [v ->] [w ->] E. unfold PropsTable.fg. rewrite !Hbox. rewrite Hd in E. congruence. Qed.
Lemma fg_refl : forall x, isbox x -> fg g x x = true.
Proof. intros x _. destruct Hg as (R & _ & _). apply R. Qed.
Lemma fg_sym : forall x y, isbox x -> isbox y -> fg g x y = true -> fg g y x = true.
Proof. intros x y _ _. destruct Hg as (_ & R & _). apply R. Qed.
Lemma fg_trans : forall x y z, isbox x -> isbox y -> isbox z -> fg g x y = true -> fg g y z = true -> fg g x z = true.
Proof. intros x y z _ _ _. destruct Hg as (_ & _ & R). apply R. Qed.
Lemma tinv : inv W box t.
Proof. eapply reach_inv; eauto. Qed.
Lemma tinv' : inv W box t'.
Proof. eapply (reach_inv W HW zeroT box goeq). eapply reach_aggregate; eauto. Qed.

(* Aggregate never loses or gains a covered address, and the answer for an
   address is (up to the comparator) the value of some original entry that
   contains the address. *)
Theorem C16_aggregate_partial : forall a, a < 2 ^ W ->
  (value_at t' a = None <-> value_at t a = None) /\
  forall v', value_at t' a = Some v' ->
    exists p v, wf_prefix W p /\ in_prefix W p a /\ Get t (Some p) = (v, true) /\ g v v' = true.
Proof.
  intros a Ha. destruct tinv as (Hw & Hb). destruct tinv' as (Hw' & Hb').
  rewrite !value_lastm by auto. pose proof agg_trie as A. unfold Aggregate in A.
  pose proof (aggregate_sound W peq Hs _ isbox (fg g) agg_eq fg_refl fg_sym fg_trans _ [] None _ Hw Hb I A) as So.
  pose proof (aggregate_covers W peq Hs _ _ _ _ Hw A) as Co.
  split.
  - destruct (lastm W (entries (tx_trie t')) (full W a)) as [e'|] eqn:E';
    destruct (lastm W (entries (tx_trie t)) (full W a)) as [e|] eqn:E; cbn; split; auto; try discriminate.
    + intros _. destruct (lastm_In _ _ _ _ E') as [I' P'].
      destruct (So _ _ I' P' (nlen_full a)) as (e0 & I0 & P0 & _).
      rewrite (lastm_none W) in E. exfalso. eapply E; eauto.
    + intros _. destruct (lastm_In _ _ _ _ E) as [I0 P0].
      destruct (Co _ _ I0 P0 (nlen_full a)) as (e1 & I1 & P1).
      rewrite (lastm_none W) in E'. exfalso. eapply E'; eauto.
  - intros v' E. destruct (lastm W (entries (tx_trie t')) (full W a)) as [e'|] eqn:E'; [|discriminate].
    cbn in E. injection E as <-. destruct (lastm_In _ _ _ _ E') as [I' P'].
    destruct (So _ _ I' P' (nlen_full a)) as (e0 & I0 & P0 & F0).
    pose proof (ewf W _ _ Hw I0) as W0. exists (fst e0), (unbox (snd e0)). split; auto. split.
    { apply in_prefix_pre; auto. }
    split; auto. rewrite (Get_fk W HW) by auto. change (key (fst e0)) with (ekey W e0).
    rewrite (In_fk W _ _ _ Hw I0). destruct e0; reflexivity.
Qed.

(* Aggregate is exact whenever no two halves of a prefix would be merged
   although one of them holds a more specific entry of another value: if an
   entry (at half c of m) has a more specific entry with a different value, then
   some address of the other half of m is not covered, from within that half, by
   the value of the entry. *)
Definition mergeable_only_if_uniform : Prop :=
  forall m c p v q w,
    wf_prefix W m -> plen m < W -> wf_prefix W p -> wf_prefix W q ->
    pkey W p = pkey W (half W c m) ->
    Get t (Some p) = (v, true) -> Get t (Some q) = (w, true) -> covers W p q -> g v w = false ->
    exists a, a < 2 ^ W /\ in_prefix W (half W (negb c) m) a /\
      forall q' w', wf_prefix W q' -> Get t (Some q') = (w', true) ->
        covers W (half W (negb c) m) q' -> in_prefix W q' a -> g v w' = false.

Theorem C16_aggregate_exact_partial : mergeable_only_if_uniform ->
  forall a, a < 2 ^ W ->
  match value_at t' a, value_at t a with
  | Some v', Some v => g v' v = true
  | None, None => True
  | _, _ => False
  end.
Proof.
  intros HC a Ha. destruct tinv as (Hw & Hb). destruct tinv' as (Hw' & Hb').
  rewrite !value_lastm by auto. pose proof agg_trie as A. unfold Aggregate in A.
  assert (HL : lossless W (fg g) (entries (tx_trie t))).
  { intros k c e e' He He' Hk Hp F.
    pose proof (ewf W _ _ Hw He) as We. pose proof (ewf W _ _ Hw He') as We'.
    destruct (parent W (fst e) We k c Hk) as (m & Wm & Lm & Km).
    assert (G : forall e, In e (entries (tx_trie t)) -> Get t (Some (fst e)) = (unbox (snd e), true)).
    { intros x Hx. pose proof (ewf W _ _ Hw Hx). rewrite (Get_fk W HW) by auto. change (key (fst x)) with (ekey W x).
      rewrite (In_fk W _ _ _ Hw Hx). destruct x; reflexivity. }
    destruct (HC m c (fst e) (unbox (snd e)) (fst e') (unbox (snd e'))) as (a0 & La & Ia & Na); auto.
    { apply (key_eq_iff W); auto using half_wf. rewrite key_half by auto. rewrite Km. exact Hk. }
    { apply covers_pre; auto. }
    exists (full W a0). split; [apply nlen_full|]. split.
    { rewrite <- Km, <- key_half by auto. apply in_prefix_pre; auto using half_wf. }
    intros e1 I1 P1 Q1. pose proof (ewf W _ _ Hw I1) as W1.
    apply (Na (fst e1) (unbox (snd e1))); auto.
    - apply covers_half; auto. rewrite Km. exact P1.
    - apply in_prefix_pre; auto. }
  pose proof (aggregate_exact W peq Hs _ isbox (fg g) agg_eq fg_refl fg_sym fg_trans _ HL
     (fun e He => boxed_entries isbox _ _ Hb He) _ [] None _ Hw Hb I (incl_refl _) A (full W a) (nlen_full a)) as X.
  unfold sem in X.
  destruct (lastm W (entries (tx_trie t')) (full W a)) as [e'|];
  destruct (lastm W (entries (tx_trie t)) (full W a)) as [e|]; cbn in *; auto.
Qed.

(* A simple sufficient condition: no entry lies inside an entry of another value. *)
Corollary C16_aggregate_unnested_partial :
  (forall p v q w, wf_prefix W p -> wf_prefix W q -> Get t (Some p) = (v, true) -> Get t (Some q) = (w, true) ->
     covers W p q -> g v w = true) ->
  forall a, a < 2 ^ W ->
  match value_at t' a, value_at t a with
  | Some v', Some v => g v' v = true
  | None, None => True
  | _, _ => False
  end.
Proof.
  intros HU. apply C16_aggregate_exact_partial. intros m c p v q w Hm Lm Hp Hq Hk Gp Gq Hc Hv.
  rewrite (HU p v q w) in Hv; auto. discriminate.
Qed.

(* Aggregate never increases the number of entries. *)
Theorem C17_not_larger_partial : forall L L' : list (N * N),
  NoDup L -> (forall k, In k L <-> exists p, wf_prefix W p /\ pkey W p = k /\ snd (Get t (Some p)) = true) ->
  NoDup L' -> (forall k, In k L' <-> exists p, wf_prefix W p /\ pkey W p = k /\ snd (Get t' (Some p)) = true) ->
  (length L' <= length L)%nat.
Proof.
  intros L L' N1 H1 N2 H2. destruct tinv as (Hw & Hb). destruct tinv' as (Hw' & Hb').
  assert (X : forall (tt : tableX T) (M : list (N * N)), wf [] (tx_trie tt) -> NoDup M ->
     (forall k, In k M <-> exists p, wf_prefix W p /\ pkey W p = k /\ snd (Get tt (Some p)) = true) ->
     length M = length (entries (tx_trie tt))).
  { intros tt M Ht0 ND HL. rewrite <- (map_length (fun e => pkey W (fst e))). apply Permutation_length.
    apply NoDup_Permutation; auto.
    - pose proof (entries_sorted W _ _ Ht0) as S. pose proof (entries_wf _ _ _ Ht0) as F.
      clear -S F. induction S as [|x l S IH G]; cbn; [constructor|].
      inversion F as [|? ? [Fx _] Fl]; subst. constructor; auto.
      intros I. apply in_map_iff in I. destruct I as (y & E & I).
      rewrite Forall_forall in *. destruct (Fl _ I) as [Fy _]. apply (key_eq_iff W) in E; auto.
      specialize (G _ I). unfold elt, ekey in G. rewrite E in G. apply (blt_irrefl _ G).
    - intros k. rewrite HL, in_map_iff. split.
      + intros (p & Hp & <- & G). rewrite (Get_fk W HW) in G by auto.
        destruct (fk (key p) (tx_trie tt)) as [e|] eqn:F; [|discriminate].
        apply (fk_In W) in F. destruct F as [I K]. exists e. split; auto. apply (key_eq_iff W); auto.
        eapply ewf; eauto.
      + intros (e & <- & I). exists (fst e). pose proof (ewf W _ _ Ht0 I). split; auto. split; auto.
        rewrite (Get_fk W HW) by auto. change (key (fst e)) with (ekey W e). rewrite (In_fk W _ _ _ Ht0 I). destruct e; auto. }
  rewrite (X t L), (X t' L') by auto. pose proof agg_trie as A. unfold Aggregate in A.
  apply (aggregate_size W peq Hs (ceq (tx_eq t)) isbox (fg g) agg_eq fg_refl fg_sym fg_trans (tx_trie t) [] None (tx_trie t') Hw A).
Qed.
End Agg.

(* Aggregate does not panic when the comparator never does (as the default
   comparator of a comparable type; a custom comparator does on nil, see C18). *)
Theorem C16_aggregate_total : forall peq (t : tableX T),
  (forall x y, exists b, ceq (tx_eq t) x y = Ok b) -> exists t', tbl_Aggregate peq t = Ok t'.
Proof.
  intros peq t H. unfold tbl_Aggregate, Aggregate.
  destruct (aggregate_total peq (ceq (tx_eq t)) (tx_trie t) H None) as [n ->]. cbn. eauto.
Qed.

(* ---------------- C18 ---------------- *)

(* What an aggregated table is: it has no comparator, so Map and (when the two
   tables share a prefix) Diff panic, while its Table_ falls back to ==; if the
   original used == that is the comparator of the original. *)
Theorem C18_aggregated_table_partial : forall peq (t t' : tableX T), tbl_Aggregate peq t = Ok t' ->
  tx_eq t' = None /\
  (exists m, Table_ goeq t' = Some m /\ tx_trie m = tx_trie t' /\ tx_eq m = Some (defaultComparator goeq)) /\
  (tx_trie t' <> Nil -> forall (S : Type) f (st : S), tbl_Map zeroT box t' (Some f) st = Panic).
Proof.
  intros peq t t' HA. unfold tbl_Aggregate in HA. destruct (Aggregate _ _ _) as [n| |]; cbn in HA; try discriminate.
  injection HA as <-. split; auto. split; [eexists; split; [reflexivity|]; auto|].
  cbn. intros Hn S f st. destruct n as [|p d s h a l r]; [congruence|].
  cbn. destruct (f p (unbox d) st). reflexivity.
Qed.

(* ---------------- C19 ---------------- *)

Lemma thread_calls {S} (f : prefix -> T -> S -> S * T) L : forall st : S,
  thread (fun p d s => let (s', v) := f p (unbox d) s in (s', box v)) L st =
  (fst (calls_run f (map (ub zeroT) L) st), map box (snd (calls_run f (map (ub zeroT) L) st))).
Proof.
  induction L as [|[p d] L IH]; intros st; cbn; auto.
  destruct (f p (unbox d) st) as [s' v]. rewrite IH.
  destruct (calls_run f (map (ub zeroT) L) s') as [s2 xs]. reflexivity.
Qed.

Lemma nodes_filter (t0 : trie T) : forall k, wf k t0 ->
  filter (fun e => match fk (key (fst e)) t0 with Some _ => true | None => false end) (nodes t0) = entries t0.
Proof.
  induction t0 as [|p d s h a l IHl r IHr]; intros k H; auto.
  pose proof H as (Hp & Hk & _ & _ & Hn & Hl & Hr).
  rewrite nodes_node. cbn [filter fst]. rewrite (fk_here W) by auto.
  cbn [entries]. rewrite filter_app.
  assert (Hin : forall c, filter (fun e => match fk (key (fst e)) (Node p d s h a l r) with Some _ => true | None => false end) (nodes (kid c l r)) =
        filter (fun e => match fk (key (fst e)) (kid c l r) with Some _ => true | None => false end) (nodes (kid c l r))).
  { intros c. apply filter_ext_in. intros e0 Hi. pose proof (wf_kid _ _ _ _ _ _ _ _ _ c H) as Wk. apply act_wf in Wk.
    apply entries_wf in Wk. rewrite Forall_forall in Wk. apply Wk in Hi. destruct Hi as [_ [x Hx]].
    unfold ekey in Hx. rewrite Hx, <- app_assoc. cbn [app]. rewrite (fk_below W) by auto. reflexivity. }
  pose proof (Hin false) as H0. pose proof (Hin true) as H1. cbn [kid] in *. rewrite H0, H1.
  rewrite (IHl _ Hl), (IHr _ Hr). destruct a; reflexivity.
Qed.

Lemma del_nodes (t0 : trie T) : forall k q, wf k t0 -> wf_prefix W q -> pre k (key q) ->
  (snd (del W t0 q) = None <-> exists e, In e (nodes t0) /\ ekey W e = key q).
Proof.
  induction t0 as [|p d s h a l IHl r IHr]; intros k q H Hq Hk.
  { cbn. split; [discriminate|]. intros (e & [] & _). }
  pose proof H as (Hp & Hkp & _ & _ & Hn & Hl & Hr).
  assert (Hc : forall c e, In e (nodes (kid c l r)) -> pre (key p ++ [c]) (ekey W e)).
  { intros c e I. pose proof (wf_kid _ _ _ _ _ _ _ _ _ c H) as Wk. apply act_wf in Wk.
    apply entries_wf in Wk. rewrite Forall_forall in Wk. apply Wk in I. apply I. }
  assert (Hall : forall e, In e (nodes (Node p d s h a l r)) <-> e = (p, d) \/ exists c, In e (nodes (kid c l r))).
  { intros e. rewrite nodes_node. cbn [In]. rewrite in_app_iff. split.
    - intros [E|[I|I]]; [left; auto|right; exists false; auto|right; exists true; auto].
    - intros [E|([|] & I)]; [left; auto|right; right; auto|right; left; auto]. }
  assert (Hpre : forall e, In e (nodes (Node p d s h a l r)) -> pre (key p) (ekey W e)).
  { intros e I. apply Hall in I. destruct I as [->|(c & I)]; [apply pre_refl|]. eapply pre_trans; [|exact (Hc _ _ I)]. apply pre_app_r. }
  cbn [del]. pose proof (compare_spec W HW p q Hp Hq) as C.
  destruct (compare W p q) as [[[res rev] cm] child]. inversion C as [E|c x E|c x E|u c x y rv E1 E2]; subst.
  - assert (S0 : snd (if is_nil l then (r, None) else if is_nil r then (l, None) else (mk p None false l r, @None terr)) = None).
    { destruct (is_nil l); auto. destruct (is_nil r); auto. }
    rewrite S0. split; auto. intros _. exists (p, d). split; [apply Hall; auto|exact E].
  - assert (Hk' : pre (key p ++ [child]) (key q)) by (rewrite E; apply pre_snoc_cons).
    assert (Hsub : snd (let '(newChild, err) := del W (kid child l r) q in
        match err with Some e => (Node p d s h a l r, Some e)
        | None => if is_nil newChild && negb a then (kid (negb child) l r, None)
                  else (mk p d a (setl child newChild l) (setr child newChild r), None) end) = snd (del W (kid child l r) q)).
    { destruct (del W (kid child l r) q) as [nc err]. destruct err; auto. destruct (is_nil nc && negb a); auto. }
    rewrite Hsub.
    assert (IH : snd (del W (kid child l r) q) = None <-> exists e, In e (nodes (kid child l r)) /\ ekey W e = key q).
    { destruct child; [eapply IHr|eapply IHl]; eauto. }
    rewrite IH. split; intros (e & I & K); exists e; (split; [|exact K]); [apply Hall; eauto|].
    apply Hall in I. destruct I as [->|(c & I)].
    + exfalso. cbn in K. unfold ekey in K. cbn in K. apply pre_length in Hk'. rewrite <- K, app_length in Hk'. cbn in Hk'. lia.
    + replace child with c; [exact I|]. eapply pre_snoc_inj; [apply (Hc _ _ I)|]. rewrite K. exact Hk'.
  - cbn [snd]. split; [discriminate|]. intros (e & I & K). exfalso. pose proof (Hpre e I) as P. rewrite K in P.
    apply pre_length in P. rewrite E, app_length in P. cbn in P. lia.
  - cbn [snd]. split; [discriminate|]. intros (e & I & K). exfalso. pose proof (Hpre e I) as P. rewrite K in P.
    destruct P as [z P]. rewrite E1, E2, <- app_assoc in P. apply app_inv_head in P. destruct c; cbn in P; discriminate.
Qed.

(* Map keeps exactly the prefixes; the calls of the mapper are strictly in
   lexicographic order (so no prefix twice) and contain every entry with its
   value; the calls for entries are exactly the entries in Walk order; the new
   value of an entry is the mapper's result, or the old value when the
   comparator takes them to be equal.  The prefixes the mapper is called for are
   exactly the entries and the prefixes with entries in both halves.  Missing:
   the latter should not be there (C19_refuted). *)
Theorem C19_map_partial : forall (t t' : tableX T) (g : T -> T -> bool) (S : Type) (f : prefix -> T -> S -> S * T) (st st' : S),
  reachable t -> decides t g -> tbl_Map zeroT box t (Some f) st = Ok (st', t') ->
  exists calls : list (prefix * T),
    StronglySorted (fun x y => lex_lt W (fst x) (fst y)) calls /\
    Forall (fun x => wf_prefix W (fst x)) calls /\
    fst (calls_run f calls st) = st' /\
    (forall p v, wf_prefix W p /\ stored t p = Some (p, v) <->
                 In (p, v) calls /\ snd (Get t (Some p)) = true) /\
    (forall p v x, In ((p, v), x) (combine calls (snd (calls_run f calls st))) -> snd (Get t (Some p)) = true ->
        stored t' p = Some (p, if g v x then v else x)) /\
    (forall q, wf_prefix W q -> snd (Get t' (Some q)) = snd (Get t (Some q))) /\
    tx_eq t' = tx_eq t /\
    (forall q, wf_prefix W q ->
       ((exists p v, In (p, v) calls /\ pkey W p = pkey W q) <->
        snd (Get t (Some q)) = true \/
        exists q0 q1, wf_prefix W q0 /\ wf_prefix W q1 /\
          snd (Get t (Some q0)) = true /\ snd (Get t (Some q1)) = true /\
          covers W (half W false q) q0 /\ covers W (half W true q) q1 /\ plen q < W)).
Proof.
  intros t t' g S f st st' Ht Hd HM.
  pose proof (reach_inv W HW zeroT box goeq _ Ht) as (Hw & Hb).
  assert (Ht' : reachable t') by (eapply reach_map; eauto).
  pose proof (reach_inv W HW zeroT box goeq _ Ht') as (Hw' & Hb').
  unfold tbl_Map in HM.
  destruct (Map _ _ _ _) as [[s' n]| |] eqn:M; cbn [bind] in HM; try discriminate.
  injection HM as <- <-. cbn [tx_trie tx_eq] in *.
  destruct (Map_spec W HW zeroT goeq _ _ _ _ _ _ _ Hw M) as (_ & _ & E1 & E2 & E3).
  rewrite thread_calls in E1, E2. cbn [fst snd] in *.
  exists (map (ub zeroT) (nodes (tx_trie t))).
  assert (Nw : wf [] (act (tx_trie t))) by (apply act_wf; auto).
  pose proof (nodes_filter _ _ Hw) as NF.
  split; [|split; [|split; [|split; [|split; [|split; [|split]]]]]]; auto.
  - eapply (SS_map (ub zeroT) (@elt W T) _ (fun e => wf_prefix W (fst e))).
    + apply entries_wf in Nw. eapply Forall_impl; [|exact Nw]. intros e [He _]. exact He.
    + intros x y Hx Hy H. apply blt_lex; auto.
    + apply (entries_sorted W []); auto.
  - apply Forall_map. apply entries_wf in Nw. eapply Forall_impl; [|exact Nw]. intros e [He _]. exact He.
  - intros p v. split.
    + intros (Hp & E). rewrite (stored_fk W IPW) in E by auto.
      rewrite (Get_fk W HW) by auto.
      destruct (fk (key p) (tx_trie t)) as [e|] eqn:F; [|discriminate].
      cbn [option_map] in E. assert (E4 : ub zeroT e = (p, v)) by congruence. split; [|destruct e; auto].
      apply in_map_iff. exists e. split; auto. apply (fk_In W) in F. destruct F as [F _].
      rewrite <- NF in F. apply filter_In in F. tauto.
    + intros (I & G). apply in_map_iff in I. destruct I as (e & E & I).
      pose proof (ewf W _ _ Nw I) as Hp. unfold ub in E. injection E as E4 E5. subst p. split; auto.
      rewrite (stored_fk W IPW) by auto. rewrite (Get_fk W HW) in G by auto.
      assert (I' : In e (entries (tx_trie t))).
      { rewrite <- NF. apply filter_In. split; auto. destruct (fk (key (fst e)) (tx_trie t)); auto. }
      change (key (fst e)) with (ekey W e). rewrite (In_fk W _ _ _ Hw I'). cbn. unfold ub. congruence.
  - intros p v x I G. 
    assert (X : exists d, unbox d = v /\ In ((p, d), box x) (combine (nodes (tx_trie t)) (map box (snd (calls_run f (map (ub zeroT) (nodes (tx_trie t))) st))))).
    { revert I. generalize (snd (calls_run f (map (ub zeroT) (nodes (tx_trie t))) st)).
      generalize (nodes (tx_trie t)) as NL. clear. induction NL as [|[p0 d0] NL IH]; intros [|y ys]; cbn; try tauto.
      intros [E|I].
      - injection E as -> <- ->. exists d0. auto.
      - destruct (IH _ I) as (d & E & I'). eauto. }
    destruct X as (d & <- & X). specialize (E2 _ _ X). cbn [fst snd] in E2.
    pose proof (in_combine_l _ _ _ _ X) as IN. pose proof (ewf W _ _ Nw IN) as Hp. cbn in Hp.
    rewrite (Get_fk W HW) in G by auto. rewrite (stored_fk W IPW) by auto. cbn [tx_trie]. rewrite E2.
    destruct (fk (key p) (tx_trie t)) as [e|] eqn:F; [|discriminate]. cbn. unfold ub, mapped; cbn.
    assert (I' : In (p, d) (entries (tx_trie t))).
    { rewrite <- NF. apply filter_In. split; auto. cbn. rewrite F. auto. }
    destruct (boxed_entries _ _ _ Hb I') as [v Ev]. cbn in Ev. subst d. rewrite !Hbox. rewrite Hd.
    destruct (g v x); rewrite ?Hbox; auto.
  - intros q Hq. rewrite !(Get_fk W HW) by auto. cbn [tx_trie].
    specialize (E3 (key q)). destruct (fk (key q) n) as [[? ?]|], (fk (key q) (tx_trie t)) as [[? ?]|]; cbn; auto.
    + destruct E3 as [_ E3]. discriminate (E3 eq_refl).
    + destruct E3 as [E3 _]. discriminate (E3 eq_refl).
  - intros q Hq. destruct (C09_remove_partial W IPW zeroT box Hbox goeq t q Ht Hq) as (t2 & b & ER & _ & _ & BC). rewrite <- BC.
    assert (B : b = true <-> snd (del W (tx_trie t) q) = None).
    { unfold tbl_Remove in ER. cbn [prefixI] in ER. destruct (del W (tx_trie t) q) as [tr err]. injection ER as <- <-. cbn [snd]. destruct err; split; congruence. }
    rewrite B, (del_nodes _ [] q Hw Hq (pre_nil _)). split.
    + intros (p & v & I & K). apply in_map_iff in I. destruct I as (e & E & I). exists e. split; [exact I|].
      pose proof (ewf W _ _ Nw I) as Hp. unfold ub in E. injection E as E4 E5. subst p. apply (key_eq_iff W) in K; auto.
    + intros (e & I & K). pose proof (ewf W _ _ Nw I) as Hp. exists (fst e), (unbox (snd e)). split.
      * apply in_map_iff. exists e. split; [reflexivity|exact I].
      * apply (key_eq_iff W); auto.
Qed.
End Props.
