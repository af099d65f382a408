(* SetThm2.v - lemmas behind the set properties: minimal families, ranges,
   address walks, counting prefixes, finding prefixes. *)
From Verif Require Export SetThm.
From Coq Require Import Arith Sorted Permutation ZifyBool ZifyNat ZifyN.

(* the maximal runs of consecutive addresses, starting with the run r *)
Section SetThm2.
Variable W : N.
Hypothesis HW : 0 < W /\ W < 2 ^ 15.
Notation key := (key W).
Notation swf := (swf W).
Notation WN := (N.to_nat W).
Notation sound peq := (pointer_eq peq).
Notation mem := (mem W).
Notation size := (size W).
Notation before := (before W).

Lemma until_app {A S} (f : A -> S -> S * bool) l m st :
  until_false f (l ++ m) st = let (st', go) := until_false f l st in if go then until_false f m st' else (st', false).
Proof.
  revert st. induction l as [|x l IH]; intros st; cbn [until_false app]; [destruct (until_false f m st); reflexivity|].
  destruct (f x st) as [st' [|]]; auto.
Qed.

(* ---- covers ---- *)
Lemma covers_antisym p q : wf_prefix W p -> wf_prefix W q -> covers W p q -> covers W q p -> pkey W p = pkey W q.
Proof.
  intros Hp Hq A B. apply key_eq_iff; auto. apply (covers_pre W) in A; auto. apply (covers_pre W) in B; auto.
  apply pre_eq_length; auto. apply pre_length in A, B. lia.
Qed.
Lemma covers_refl p : covers W p p.
Proof. split; [lia|reflexivity]. Qed.
Lemma covers_trans p q r : wf_prefix W p -> wf_prefix W q -> wf_prefix W r -> covers W p q -> covers W q r -> covers W p r.
Proof. intros Hp Hq Hr A B. apply (covers_pre W) in A; auto. apply (covers_pre W) in B; auto. apply (covers_pre W); auto. eapply pre_trans; eauto. Qed.
Lemma covers_all p q : wf_prefix W p -> wf_prefix W q -> (forall a, in_prefix W q a -> in_prefix W p a) -> covers W p q.
Proof.
  intros Hp Hq H. apply (covers_pre W); auto. apply (pre_full_inj W); try (apply wf_key_len; auto).
  intros x Lx Px. destruct (full_of W HW x Lx) as (a & A & <-). apply in_prefix_pre; auto. apply H. apply in_prefix_pre; auto.
Qed.
Lemma pkey_in p q a : pkey W p = pkey W q -> in_prefix W p a <-> in_prefix W q a.
Proof. intros E. rewrite !in_prefix_bounds. unfold pkey in E. injection E as E1 E2. rewrite E1, E2. reflexivity. Qed.

(* ---- maximal prefixes ---- *)
Lemma maximal_ext (P Q : N -> Prop) p : (forall a, P a <-> Q a) -> maximal W P p <-> maximal W Q p.
Proof. intros E. unfold maximal, prefix_in. setoid_rewrite E. reflexivity. Qed.

Lemma maximal_stored s p : swf [] s -> wf_prefix W p -> maximal W (mem s) p <-> exists q, In q (stored s) /\ pkey W q = pkey W p.
Proof.
  intros Hs Hp. split.
  - intros [A B]. destruct (stored_full W HW s p Hs Hp A) as (q & I & C). pose proof (stored_wfp W s q Hs I) as Hq.
    exists q. split; [exact I|]. specialize (B q Hq (stored_in W HW s q I Hq) C).
    apply key_eq_iff; auto. apply (covers_pre W) in C; auto. apply pre_eq_length; auto. rewrite !key_length. lia.
  - intros (q & I & E). pose proof (stored_wfp W s q Hs I) as Hq. split.
    + intros a A. apply (stored_in W HW s q I Hq). rewrite (pkey_in q p a E). exact A.
    + intros r Hr R C. destruct (stored_full W HW s r Hs Hr R) as (q' & I' & C'). pose proof (stored_wfp W s q' Hs I') as Hq'.
      assert (q' = q).
      { eapply (stored_unique W HW s q' q (net W p)); eauto.
        - eapply (covers_in W HW); [| |exact C'|]; auto. eapply (covers_in W HW); [| |exact C|]; auto. apply (in_net W HW).
        - rewrite (pkey_in q p _ E). apply (in_net W HW). }
      subst q'. destruct C as [C _]. destruct C' as [C' _]. unfold pkey in E. injection E as _ E. lia.
Qed.

(* ---- minimal families ---- *)
Lemma owners s L : swf [] s -> Forall (wf_prefix W) L -> (forall q, In q L -> prefix_in W (mem s) q) ->
  exists M, Forall2 (fun q p => In p (stored s) /\ covers W p q) L M.
Proof.
  intros Hs F X. induction F as [|q L Hq F IH]; [exists []; constructor|].
  destruct IH as (M & HM); [intros; apply X; right; auto|].
  destruct (stored_full W HW s q Hs Hq (X q (or_introl eq_refl))) as (p & I & C). exists (p :: M). constructor; auto.
Qed.

Lemma Forall2_nth {A B} (R : A -> B -> Prop) l m : Forall2 R l m -> forall i x, nth_error l i = Some x -> exists y, nth_error m i = Some y /\ R x y.
Proof.
  induction 1 as [|a b l m H F IH]; intros [|i] x E; cbn in *; try discriminate; [injection E as <-; eauto|eauto].
Qed.

Lemma Forall2_len {A B} (R : A -> B -> Prop) l m : Forall2 R l m -> length l = length m.
Proof. induction 1; cbn; congruence. Qed.

Lemma family_covers s L a : exactly W L (mem s) -> mem s a -> exists q, In q L /\ in_prefix W q a.
Proof. intros E M. apply E; [eapply mem_lt; eauto|exact M]. Qed.

Lemma family_inside s L q : Forall (wf_prefix W) L -> exactly W L (mem s) -> In q L -> prefix_in W (mem s) q.
Proof.
  intros F E I a A. apply E; [|eauto]. eapply (in_lt W HW); [|exact A]. rewrite Forall_forall in F. auto.
Qed.

Lemma minimal s L : swf [] s -> Forall (wf_prefix W) L -> exactly W L (mem s) ->
  (length (stored s) <= length L)%nat /\
  (length L = length (stored s) -> Permutation (map (pkey W) (stored s)) (map (pkey W) L)).
Proof.
  intros Hs F E. destruct (owners s L Hs F (fun q => family_inside s L q F E)) as (M & HM).
  pose proof (Forall2_len _ _ _ HM) as LM. rewrite Forall_forall in F.
  assert (HIT : forall p a, In p (stored s) -> in_prefix W p a -> exists i q, nth_error L i = Some q /\ in_prefix W q a /\ nth_error M i = Some p).
  { intros p a I A. destruct (family_covers s L a E) as (q & Iq & Aq); [apply (stored_in W HW s p); auto; eapply stored_wfp; eauto|].
    apply In_nth_error in Iq. destruct Iq as (i & Ei). destruct (Forall2_nth _ _ _ HM i q Ei) as (p' & Ep & I' & C).
    exists i, q. split; [exact Ei|]. split; [exact Aq|].
    assert (p' = p); [|subst; exact Ep]. eapply (stored_unique W HW s p' p a); eauto.
    eapply (covers_in W HW); [| |exact C|exact Aq]; [eapply stored_wfp; eauto|]. apply F. eapply nth_error_In; eauto. }
  assert (INC : incl (stored s) M).
  { intros p I. destruct (HIT p _ I (in_net W HW p)) as (i & q & _ & _ & X). eapply nth_error_In; eauto. }
  pose proof (stored_NoDup W s Hs) as ND.
  split; [rewrite LM; apply NoDup_incl_length; auto|].
  intros EL. assert (NM : NoDup M) by (apply (NoDup_incl_NoDup ND); auto; lia).
  apply NoDup_Permutation_bis.
  - pose proof (stored_nodup W [] s (proj1 Hs)) as NK.
    assert (G : forall l, Forall (wf_prefix W) l -> NoDup (map key l) -> NoDup (map (pkey W) l)).
    { clear. intros l F. induction F as [|x l Hx F IH]; cbn [map]; intros N; [constructor|]. inversion N as [|? ? X Y]; subst. constructor; [|auto].
      intros I. apply X. apply in_map_iff in I. destruct I as (y & Ey & I). apply in_map_iff. exists y. split; [|exact I].
      apply key_eq_iff; auto. rewrite Forall_forall in F; auto. }
    apply G; [rewrite Forall_forall; intros; eapply stored_wfp; eauto|exact NK].
  - rewrite !map_length. lia.
  - intros x I. apply in_map_iff in I. destruct I as (p & <- & I). apply in_map_iff.
    pose proof (stored_wfp W s p Hs I) as Hp.
    destruct (HIT p _ I (in_net W HW p)) as (i & q & Ei & _ & Mi). exists q. assert (Iq : In q L) by (eapply nth_error_In; eauto).
    split; [|exact Iq]. apply covers_antisym; auto.
    + apply covers_all; auto. intros a A. destruct (HIT p a I A) as (j & q' & Ej & Aq & Mj).
      assert (i = j); [|subst; congruence]. eapply NoDup_nth_error; [exact NM| |congruence]. apply nth_error_Some. congruence.
    + destruct (Forall2_nth _ _ _ HM i q Ei) as (p' & Ep & _ & C). congruence.
Qed.

(* ---- WalkRanges ---- *)
Fixpoint runs_from (r : range) (L : list prefix) : list range :=
  match L with
  | [] => [r]
  | p :: L' =>
    if rlast r + 1 =? net W p then runs_from (mkRange (rfirst r) (net W p + size p - 1)) L'
    else r :: runs_from (mkRange (net W p) (net W p + size p - 1)) L'
  end.
Definition runs_of (L : list prefix) : list range :=
  match L with [] => [] | p :: L' => runs_from (mkRange (net W p) (net W p + size p - 1)) L' end.

Lemma prefix_range_eq p : wf_prefix W p -> prefix_range W p = mkRange (net W p) (net W p + size p - 1).
Proof.
  intros Hp. unfold prefix_range. rewrite Network_eq, Broadcast_eq by auto. cbn [paddr]. unfold RangeFromAddresses, addr_lt.
  fold (size p). pose proof (size_pos W p). destruct (N.ltb_spec (net W p + (size p - 1)) (net W p)); [lia|]. cbn. f_equal. lia.
Qed.

Lemma last_bound p : wf_prefix W p -> net W p + size p <= 2 ^ W.
Proof. apply net_bound. Qed.

Lemma range_plus_eq r p : rfirst r <= rlast r -> rlast r < net W p -> wf_prefix W p ->
  range_plus W (prefix_range W p) r =
  if rlast r + 1 =? net W p then [mkRange (rfirst r) (net W p + size p - 1)]
  else [r; mkRange (net W p) (net W p + size p - 1)].
Proof.
  intros R L Hp. pose proof (last_bound p Hp) as B. pose proof (size_pos W p) as SP. rewrite prefix_range_eq by auto.
  unfold range_plus, addr_lt, range_next, wadd, maxAddress. cbn [rfirst rlast].
  destruct (N.ltb_spec (net W p) (rfirst r)); [lia|]. rewrite N.mod_small by lia. unfold addr_lt.
  destruct (N.eqb_spec (rlast r + 1) (net W p)); destruct (N.ltb_spec (rlast r + 1) (net W p)); try lia; [|reflexivity].
  destruct (N.ltb_spec (rlast r) (net W p + size p - 1)); [reflexivity|lia].
Qed.

Definition walk_step {S} (callback : range -> S -> S * bool) (p : prefix) (x : list range * S) : list range * S * bool :=
  let '(ranges, st) := x in
  let ranges1 := match ranges with
                 | [] => [prefix_range W p]
                 | r0 :: _ => range_plus W (prefix_range W p) r0
                 end in
  match ranges1 with
  | [a; b] => let '(st', go) := callback a st in if negb go then ((ranges1, st'), false) else (([b], st'), true)
  | _ => ((ranges1, st), true)
  end.
Definition walk_end {S} (callback : range -> S -> S * bool) (x : list range * S * bool) : S * bool :=
  let '((ranges, st1), finished) := x in
  if negb finished then (st1, false)
  else match ranges with
       | [a] => let '(st2, go) := callback a st1 in if negb go then (st2, false) else (st2, true)
       | _ => (st1, true)
       end.

Lemma WalkRanges_steps peq s {S} (cb : range -> S -> S * bool) st : sound peq -> swf [] s ->
  set_WalkRanges W peq s cb st = Ok (walk_end cb (until_false (walk_step cb) (stored s) ([], st))).
Proof.
  intros P Hs. unfold set_WalkRanges. rewrite (WalkPrefixes_eq W HW peq s _ _ P Hs). cbn [bind].
  change (fun (p : prefix) (x : list range * S) => _) with (walk_step cb).
  destruct (until_false (walk_step cb) (stored s) ([], st)) as [[ranges st1] fin]. cbn [walk_end].
  destruct fin; cbn [negb]; [|reflexivity]. destruct ranges as [|a [|b ranges]]; try reflexivity.
  destruct (cb a st1) as [st2 [|]]; reflexivity.
Qed.

Lemma walk_runs {S} (cb : range -> S -> S * bool) L : forall r st, Forall (wf_prefix W) L -> StronglySorted before L ->
  rfirst r <= rlast r -> (forall p, In p L -> rlast r < net W p) ->
  walk_end cb (until_false (walk_step cb) L ([r], st)) = until_false cb (runs_from r L) st.
Proof.
  induction L as [|p L IH]; intros r st F SS R B; cbn [until_false runs_from].
  - cbn. destruct (cb r st) as [st' [|]]; reflexivity.
  - inversion F as [|? ? Hp F']; subst. inversion SS as [|? ? SS' X]; subst. rewrite Forall_forall in X.
    pose proof (size_pos W p) as SP.
    unfold walk_step at 1. rewrite range_plus_eq by (auto; apply B; left; auto).
    destruct (N.eqb_spec (rlast r + 1) (net W p)) as [E|E].
    + apply IH; auto; cbn [rfirst rlast]; [specialize (B p (or_introl eq_refl)); lia|].
      intros q I. specialize (X q I). unfold SetThm.before in X. lia.
    + cbn [until_false]. destruct (cb r st) as [st' [|]]; cbn [negb]; [|reflexivity].
      apply IH; auto; cbn [rfirst rlast]; [lia|]. intros q I. specialize (X q I). unfold SetThm.before in X. lia.
Qed.

Lemma runs_from_spec L : forall r, Forall (wf_prefix W) L -> StronglySorted before L ->
  wf_range W r -> (forall p, In p L -> rlast r < net W p) ->
  separated (runs_from r L) /\ Forall (wf_range W) (runs_from r L) /\
  (exists t, exists x, runs_from r L = mkRange (rfirst r) t :: x) /\
  (forall a, in_ranges (runs_from r L) a <-> in_range r a \/ exists p, In p L /\ in_prefix W p a).
Proof.
  induction L as [|p L IH]; intros r F SS R B; cbn [runs_from].
  - split; [exact I|]. split; [constructor; auto|]. split; [destruct r; eauto|]. intros a. unfold in_ranges. split.
    + intros (x & [<-|[]] & A). auto.
    + intros [A|(p & [] & _)]. exists r. split; [left; auto|auto].
  - inversion F as [|? ? Hp F']; subst. inversion SS as [|? ? SS' X]; subst. rewrite Forall_forall in X.
    pose proof (size_pos W p) as SP. pose proof (last_bound p Hp) as LB. destruct R as [R1 R2].
    assert (BP : rlast r < net W p) by (apply B; left; auto).
    assert (IP : forall a, in_prefix W p a <-> net W p <= a /\ a <= net W p + size p - 1).
    { intros a. rewrite in_prefix_bounds. fold (size p). lia. }
    assert (BL : forall q, In q L -> net W p + size p - 1 < net W q).
    { intros q I. specialize (X q I). unfold SetThm.before in X. lia. }
    destruct (N.eqb_spec (rlast r + 1) (net W p)) as [E|E].
    + destruct (IH (mkRange (rfirst r) (net W p + size p - 1)) F' SS') as (A1 & A2 & A3 & A4); [split; cbn; lia|exact BL|].
      split; [exact A1|]. split; [exact A2|]. split; [exact A3|]. intros a. rewrite (A4 a). unfold in_range; cbn [rfirst rlast]. split.
      * intros [G|(q & I & G)]; [|eauto 6 using in_cons]. destruct (N.le_gt_cases a (rlast r)); [left; lia|right; exists p; split; [left; auto|apply IP; lia]].
      * intros [G|(q & [<-|I] & G)]; [left; lia|apply IP in G; left; lia|right; eauto].
    + destruct (IH (mkRange (net W p) (net W p + size p - 1)) F' SS') as (A1 & A2 & (t & x & A3) & A4); [split; cbn; lia|exact BL|].
      split.
      { cbn [separated]. rewrite A3 in *. cbn [rfirst]. split; [lia|exact A1]. }
      split; [constructor; [split; auto|exact A2]|]. split; [destruct r; cbn; eauto|].
      intros a. unfold in_ranges in *. split.
      * intros (y & [<-|I] & A); [auto|]. destruct (proj1 (A4 a)) as [G|(q & I' & G)]; [eauto| |right; exists q; split; [right; auto|auto]].
        right. exists p. split; [left; auto|]. apply IP. exact G.
      * intros [A|(q & [<-|I] & A)].
        -- exists r. split; [left; auto|auto].
        -- destruct (proj2 (A4 a)) as (y & I & G); [left; apply IP in A; exact A|]. exists y. split; [right; auto|auto].
        -- destruct (proj2 (A4 a)) as (y & I' & G); [right; eauto|]. exists y. split; [right; auto|auto].
Qed.

Lemma stored_wfs s : swf [] s -> Forall (wf_prefix W) (stored s).
Proof. intros Hs. apply Forall_forall. intros p I. eapply stored_wfp; eauto. Qed.

Lemma WalkRanges_eq peq s {S} (cb : range -> S -> S * bool) st : sound peq -> swf [] s ->
  set_WalkRanges W peq s cb st = Ok (until_false cb (runs_of (stored s)) st).
Proof.
  intros P Hs. rewrite WalkRanges_steps by auto. f_equal. pose proof (stored_wfs s Hs) as F. pose proof (stored_before W HW [] s Hs) as SS.
  destruct (stored s) as [|p L]; [reflexivity|]. inversion F as [|? ? Hp F']; subst. inversion SS as [|? ? SS' X]; subst. rewrite Forall_forall in X.
  cbn [until_false walk_step]. rewrite prefix_range_eq by auto. unfold runs_of. pose proof (size_pos W p). apply walk_runs; auto; cbn [rfirst rlast]; [lia|].
  intros q I. specialize (X q I). unfold SetThm.before in X. lia.
Qed.

Lemma runs_of_spec s : swf [] s ->
  separated (runs_of (stored s)) /\ Forall (wf_range W) (runs_of (stored s)) /\ forall a, in_ranges (runs_of (stored s)) a <-> mem s a.
Proof.
  intros Hs. pose proof (stored_wfs s Hs) as F. pose proof (stored_before W HW [] s Hs) as SS.
  assert (M : forall a, mem s a <-> exists p, In p (stored s) /\ in_prefix W p a).
  { intros a. split; [intros [_ M]; exact M|]. intros (p & I & A). split; [|eauto]. eapply (in_lt W HW); [|exact A]. rewrite Forall_forall in F; auto. }
  destruct (stored s) as [|p L]; cbn [runs_of].
  - split; [exact I|]. split; [constructor|]. intros a. rewrite M. split; [intros (r & [] & _)|intros (p & [] & _)].
  - inversion F as [|? ? Hp F']; subst. inversion SS as [|? ? SS' X]; subst. rewrite Forall_forall in X.
    pose proof (size_pos W p) as SP. pose proof (last_bound p Hp) as LB.
    destruct (runs_from_spec L (mkRange (net W p) (net W p + size p - 1)) F' SS') as (A1 & A2 & _ & A4); [split; cbn; lia| |].
    { intros q I. specialize (X q I). unfold SetThm.before in X. cbn. lia. }
    split; [exact A1|]. split; [exact A2|]. intros a. rewrite (A4 a), (M a). unfold in_range; cbn [rfirst rlast].
    assert (IP : in_prefix W p a <-> net W p <= a /\ a <= net W p + size p - 1).
    { rewrite in_prefix_bounds. fold (size p). lia. }
    rewrite <- IP. split; [intros [G|(q & I & G)]; [exists p; split; [left|]; auto|exists q; split; [right|]; auto]|].
    intros (q & [<-|I] & G); [auto|right; eauto].
Qed.
End SetThm2.
