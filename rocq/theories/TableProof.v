(* TableProof.v - the invariant of reachable tables, and the table operations
   in terms of lookup by key; proofs. *)
From Verif Require Export Hist AggProof.
From Coq Require Import Arith Sorted ZifyBool ZifyNat ZifyN.

Section TableProof.
Variable W : N.
Hypothesis HW : 0 < W /\ W < 2 ^ 15.
Context {T : Type}.
Variable zeroT : T.
Variable box : T -> option T.
Hypothesis Hbox : forall v, unbox zeroT (box v) = v.
Variable goeq : T -> T -> res bool.
Notation key := (key W).
Notation wf := (wf W).
Notation fk := (fk W).
Definition isbox (d : option T) : Prop := exists v, d = box v.
Notation boxed := (boxed isbox).
Notation unbox := (unbox zeroT).

Lemma box_unbox d : isbox d -> box (unbox d) = d.
Proof. intros [v ->]. rewrite Hbox. auto. Qed.

Lemma wf_zero : wf_prefix W zero_prefix.
Proof. split; cbn; [|lia]. apply N.neq_0_lt_0. apply N.pow_nonzero. lia. Qed.

Lemma the_prefix_eq p : prefixI p = the_prefix p.
Proof. destruct p; reflexivity. Qed.

(* ---- boxedness is preserved ---- *)
Lemma boxed_setl c (x l : trie T) : boxed x -> boxed l -> boxed (setl c x l).
Proof. destruct c; auto. Qed.
Lemma boxed_setr c (x l : trie T) : boxed x -> boxed l -> boxed (setr c x l).
Proof. destruct c; auto. Qed.
Lemma boxed_kid c (x l : trie T) : boxed x -> boxed l -> boxed (kid c x l).
Proof. destruct c; auto. Qed.

Lemma insert_boxed (t : trie T) np nd o t' e : o_flatten o = false -> boxed t -> isbox nd ->
  insert W t np nd o = Ok (t', e) -> boxed t'.
Proof.
  intros Hfl. revert t' e. induction t as [|p d s h a l IHl r IHr]; intros t' e Hb Hn.
  { cbn. unfold insert_nil. destruct (negb (o_insert o)); intros [= <- <-]; [exact I|].
    apply boxed_mk; cbn; auto. }
  assert (Hm : boxed (Node p d s h a l r)) by auto.
  cbn [insert]. destruct Hb as (B1 & B2 & B3 & B4).
  destruct (compare W p np) as [[[res rev] common] child].
  rewrite Hfl. unfold mk_opt. destruct res; cbn [andb].
  - destruct (a && negb (o_update o)); [intros [= <- <-]; auto|].
    destruct (negb a && negb (o_insert o)); [intros [= <- <-]; auto|].
    destruct a.
    + destruct (o_eq o d nd) as [b| |]; cbn [bind]; try discriminate.
      intros [= <- <-]. apply boxed_mk; auto; destruct b; auto.
    + cbn [bind]. intros [= <- <-]. apply boxed_mk; auto.
  - destruct (insert W (kid child l r) np nd o) as [[nc err]| |] eqn:E; cbn [bind]; try discriminate.
    destruct err; [intros [= <- <-]; auto|]. cbn [bind]. intros [= <- <-].
    assert (boxed nc) by (destruct child; eauto).
    apply boxed_mk; auto; [apply boxed_setl|apply boxed_setr]; auto.
  - destruct (negb (o_insert o)); [intros [= <- <-]; auto|]. cbn [bind]. intros [= <- <-].
    apply boxed_mk; auto; [apply boxed_setl|apply boxed_setr]; auto; exact I.
  - unfold insert_nil. destruct (negb (o_insert o)); [intros [= <- <-]; auto|].
    assert (boxed (mk np nd true Nil Nil)) by (apply boxed_mk; cbn; auto).
    destruct (xorb child rev); cbn [bind]; intros [= <- <-]; apply boxed_mk; auto; discriminate.
Qed.

Lemma goi_boxed (t : trie T) np nd t' x : boxed t -> isbox nd -> goi_insert W t np nd = Ok (t', x) -> boxed t'.
Proof.
  intros Hb Hn. unfold goi_insert, Insert.
  destruct (insert _ _ _ _ _) as [[h e]| |] eqn:E; cbn [bind]; try discriminate.
  destruct e; try discriminate. intros [= <- <-]. eapply insert_boxed in E; eauto.
Qed.
Lemma GetOrInsert_boxed (t : trie T) np nd t' x : boxed t -> isbox nd -> GetOrInsert W t np nd = Ok (t', x) -> boxed t'.
Proof.
  revert t' x. induction t as [|p d s h a l IHl r IHr]; intros t' x Hb Hn; cbn [GetOrInsert].
  { apply goi_boxed; auto. }
  destruct (plen np <? plen p); [apply goi_boxed; auto|].
  destruct (contains W p np) as [[[m e] c] child].
  destruct (negb m); [apply goi_boxed; auto|].
  destruct (negb e).
  - destruct (GetOrInsert W (kid child l r) np nd) as [[nc y]| |] eqn:E; cbn [bind]; try discriminate.
    intros [= <- <-]. destruct Hb as (B1 & B2 & B3 & B4).
    assert (boxed nc) by (destruct child; eauto).
    apply boxed_mk; auto; [apply boxed_setl|apply boxed_setr]; auto.
  - destruct (negb a); [apply goi_boxed; auto|]. intros [= <- <-]; auto.
Qed.
Lemma del_boxed (t : trie T) q : boxed t -> boxed (fst (del W t q)).
Proof.
  induction t as [|p d s h a l IHl r IHr]; intros Hb; cbn [del]; [exact I|].
  assert (Hm : boxed (Node p d s h a l r)) by auto.
  destruct Hb as (B1 & B2 & B3 & B4).
  destruct (compare W p q) as [[[res rev] common] child]. destruct res; auto.
  - destruct (is_nil l); auto. destruct (is_nil r); auto. cbn [fst]. apply boxed_mk; auto; discriminate.
  - destruct (del W (kid child l r) q) as [nc err] eqn:E.
    assert (boxed nc) by (replace nc with (fst (del W (kid child l r) q)) by (rewrite E; auto); destruct child; auto).
    destruct err; auto. destruct (is_nil nc && negb a); cbn [fst].
    + apply boxed_kid; auto.
    + apply boxed_mk; auto; [apply boxed_setl|apply boxed_setr]; auto.
Qed.

(* ---- Map ---- *)
Fixpoint act (t : trie T) : trie T :=
  match t with Nil => Nil | Node p d _ _ _ l r => mk p d true (act l) (act r) end.
Definition nodes (t : trie T) : list (prefix * option T) := entries (act t).

Lemma act_wf t0 : forall k, wf k t0 -> wf k (act t0).
Proof.
  induction t0 as [|p d s h a l IHl r IHr]; intros k H; [exact I|].
  destruct H as (Hp & Hk & _ & _ & _ & Hl & Hr). apply wf_mk; auto. discriminate.
Qed.
Lemma nodes_node p d s h a l r : nodes (Node p d s h a l r) = (p, d) :: nodes l ++ nodes r.
Proof. reflexivity. Qed.

(* run the mapper over a list of calls, collecting its results *)
Fixpoint thread {S} (m : prefix -> option T -> S -> S * option T) (L : list (prefix * option T)) (st : S)
  : S * list (option T) :=
  match L with
  | [] => (st, [])
  | (p, d) :: L' => let (st1, x) := m p d st in let (st2, xs) := thread m L' st1 in (st2, x :: xs)
  end.
Lemma thread_app {S} (m : prefix -> option T -> S -> S * option T) xs ys st :
  thread m (xs ++ ys) st =
  let (st1, a) := thread m xs st in let (st2, b) := thread m ys st1 in (st2, a ++ b).
Proof.
  revert st. induction xs as [|[p d] xs IH]; intros st; cbn.
  - destruct (thread m ys st); auto.
  - destruct (m p d st). rewrite IH. destruct (thread m xs s). destruct (thread m ys s0). auto.
Qed.
Lemma thread_length {S} (m : prefix -> option T -> S -> S * option T) xs st : length (snd (thread m xs st)) = length xs.
Proof.
  revert st. induction xs as [|[p d] xs IH]; intros st; cbn; auto.
  destruct (m p d st). specialize (IH s). destruct (thread m xs s). cbn in *. auto.
Qed.

(* the mapped data: the old one when the comparator takes it to be equal *)
Definition mapped (eq : comparator T) (d nd : option T) : option T :=
  match eq d nd with Ok true => d | _ => nd end.

Lemma Map_spec {S} (t0 : trie T) (m : prefix -> option T -> S -> S * option T) eq :
  forall k st st' t', wf k t0 -> Map t0 m eq st = Ok (st', t') ->
  wf k t' /\ (t0 <> Nil -> t' <> Nil) /\ fst (thread m (nodes t0) st) = st' /\
  (forall e x, In (e, x) (combine (nodes t0) (snd (thread m (nodes t0) st))) ->
     fk (key (fst e)) t' =
     match fk (key (fst e)) t0 with Some _ => Some (fst e, mapped eq (snd e) x) | None => None end) /\
  (forall k', fk k' t' = None <-> fk k' t0 = None).
Proof.
  induction t0 as [|p d s h a l IHl r IHr]; intros k st st' t' H Ht.
  { cbn in Ht. injection Ht as <- <-. cbn. repeat split; auto; tauto. }
  cbn [Map] in Ht. rewrite nodes_node. cbn [thread].
  destruct (m p d st) as [st1 nd]. 
  destruct (eq d nd) as [e| |] eqn:Ee; cbn [bind] in Ht; try discriminate.
  destruct (Map l m eq st1) as [[st2 l']| |] eqn:El; cbn [bind] in Ht; try discriminate.
  destruct (Map r m eq st2) as [[st3 r']| |] eqn:Er; cbn [bind] in Ht; try discriminate.
  injection Ht as <- <-.
  pose proof H as (Hp & Hk & _ & _ & Hn & Hl & Hr).
  destruct (IHl _ _ _ _ Hl El) as (Wl & Nl & Sl & Cl & Fl).
  destruct (IHr _ _ _ _ Hr Er) as (Wr & Nr & Sr & Cr & Fr).
  rewrite thread_app. pose proof (thread_length m (nodes l) st1) as Ln.
  destruct (thread m (nodes l) st1) as [sa xa]. cbn in Sl. subst sa. cbn [fst snd] in *.
  destruct (thread m (nodes r) st2) as [sb xb]. cbn in Sr. subst sb. cbn [fst snd] in *.
  assert (D' : (if e then d else nd) = mapped eq d nd) by (unfold mapped; rewrite Ee; destruct e; auto).
  rewrite D'.
  assert (Wt : wf k (mk p (mapped eq d nd) a l' r')).
  { apply wf_mk; auto. intros Ha. destruct (Hn Ha). auto. }
  split; auto. split; [discriminate|]. split; auto.
  assert (Hin : forall e0 c, In e0 (nodes (kid c l r)) -> exists x, key (fst e0) = key p ++ c :: x).
  { intros e0 c Hi. pose proof (wf_kid _ _ _ _ _ _ _ _ _ c H) as Wk. apply act_wf in Wk.
    apply entries_wf in Wk. rewrite Forall_forall in Wk. apply Wk in Hi. destruct Hi as [_ [x Hx]].
    exists x. unfold ekey in Hx. rewrite Hx, <- app_assoc. reflexivity. }
  split.
  - intros e0 x Hi.
    assert (Hsplit : combine (nodes l ++ nodes r) (xa ++ xb) = combine (nodes l) xa ++ combine (nodes r) xb).
    { clear - Ln. revert xa Ln. induction (nodes l) as [|y ys IH]; intros [|z zs] Ln; cbn in *; try discriminate; auto.
      f_equal. apply IH. lia. }
    cbn [combine] in Hi. rewrite Hsplit in Hi. destruct Hi as [Hi|Hi].
    + injection Hi as <- <-. cbn [fst snd].
      unfold mk at 1. rewrite !(fk_here W); auto. destruct a; auto.
    + apply in_app_iff in Hi. destruct Hi as [Hi|Hi].
      * destruct (Hin e0 false) as [y Hy]. { apply in_combine_l in Hi. auto. }
        specialize (Cl _ _ Hi). rewrite Hy in *. unfold mk at 1. rewrite !(fk_below W); auto.
      * destruct (Hin e0 true) as [y Hy]. { apply in_combine_l in Hi. auto. }
        specialize (Cr _ _ Hi). rewrite Hy in *. unfold mk at 1. rewrite !(fk_below W); auto.
  - intros k'. rewrite (fk_mk W), (fk_node W).
    specialize (Fl k'). specialize (Fr k').
    destruct (if a then if keq (key p) k' then _ else _ else _) eqn:Q;
    destruct (if a then if keq (key p) k' then Some (p, d) else _ else _) eqn:Q'.
    + split; discriminate.
    + destruct a; [|discriminate]. destruct (keq (key p) k'); discriminate.
    + destruct a; [|discriminate]. destruct (keq (key p) k'); discriminate.
    + destruct (fk k' l'), (fk k' l); try tauto; try (split; discriminate);
      try (exfalso; destruct Fl as [F1 F2]; try specialize (F1 eq_refl); try specialize (F2 eq_refl); discriminate).
Qed.

Lemma Map_boxed {S} (t0 : trie T) (m : prefix -> option T -> S -> S * option T) eq :
  (forall p d st, isbox (snd (m p d st))) ->
  forall st st' t', boxed t0 -> Map t0 m eq st = Ok (st', t') -> boxed t'.
Proof.
  intros Hm. induction t0 as [|p d s h a l IHl r IHr]; intros st st' t' Hb Ht.
  { cbn in Ht. injection Ht as <- <-. exact I. }
  cbn [Map] in Ht. pose proof (Hm p d st) as Hnd.
  destruct (m p d st) as [st1 nd]. cbn in Hnd.
  destruct (eq d nd) as [e| |] eqn:Ee; cbn [bind] in Ht; try discriminate.
  destruct (Map l m eq st1) as [[st2 l']| |] eqn:El; cbn [bind] in Ht; try discriminate.
  destruct (Map r m eq st2) as [[st3 r']| |] eqn:Er; cbn [bind] in Ht; try discriminate.
  injection Ht as <- <-. destruct Hb as (B1 & B2 & B3 & B4).
  apply boxed_mk; eauto; destruct e; auto.
Qed.

(* ---- reachable tables ---- *)
Definition inv (t : tableX T) : Prop := wf [] (tx_trie t) /\ boxed (tx_trie t).

Lemma insert_wf (t0 : trie T) np nd o t' e : o_flatten o = false -> wf [] t0 -> wf_prefix W np ->
  insert W t0 np nd o = Ok (t', e) -> wf [] t'.
Proof.
  intros Hfl H Hp E. pose proof (insert_spec W HW t0 [] np nd o H Hp (pre_nil _) Hfl) as R.
  unfold insert_result in R. rewrite E in R.
  destruct (fk (key np) t0) as [[q d0]|].
  - destruct (o_update o).
    + destruct (o_eq o d0 nd); try discriminate R. destruct R as (t2 & R & R2 & _). injection R as -> _. auto.
    + injection R as -> _. auto.
  - destruct (o_insert o).
    + destruct R as (t2 & R & R2 & _). injection R as -> _. auto.
    + injection R as -> _. auto.
Qed.

Lemma exec_inv t o t' x : inv t -> wf_prefix W (op_prefix o) -> exec W zeroT box (Some t) o = Ok (Some t', x) -> inv t'.
Proof.
  intros (Hw & Hb) Hp. destruct o; cbn [exec op_prefix] in *; rewrite <- the_prefix_eq in Hp.
  - unfold tbl_Insert, Insert. destruct (insert _ _ _ _ _) as [[h e]| |] eqn:E; cbn [bind]; try discriminate.
    destruct e; cbn [bind]; intros [= <- <-]; [split; auto|]. split; cbn [tx_trie set_trie].
    + eapply insert_wf in E; eauto.
    + eapply insert_boxed in E; eauto. exists v; auto.
  - unfold tbl_Update, Update. destruct (insert _ _ _ _ _) as [[h e]| |] eqn:E; cbn [bind]; try discriminate.
    destruct e; cbn [bind]; intros [= <- <-]; [split; auto|]. split; cbn [tx_trie set_trie].
    + eapply insert_wf in E; eauto.
    + eapply insert_boxed in E; eauto. exists v; auto.
  - unfold tbl_InsertOrUpdate, InsertOrUpdate. destruct (insert _ _ _ _ _) as [[h e]| |] eqn:E; cbn [bind]; try discriminate.
    destruct e; cbn [bind]; try discriminate. intros [= <- <-]. split; cbn [tx_trie set_trie].
    + eapply insert_wf in E; eauto.
    + eapply insert_boxed in E; eauto. exists v; auto.
  - unfold tbl_GetOrInsert. destruct (GetOrInsert _ _ _ _) as [[h e]| |] eqn:E; cbn [bind]; try discriminate.
    intros [= <- <-]. split; cbn [tx_trie set_trie].
    + pose proof (GetOrInsert_spec W HW _ [] (prefixI p) (box v) Hw Hp (pre_nil _)) as R.
      rewrite E in R. destruct (fk _ _) as [[q d0]|].
      * injection R as -> _. auto.
      * destruct R as (t2 & R & R2 & _). injection R as -> _. auto.
    + eapply GetOrInsert_boxed; eauto. exists v; auto.
  - unfold tbl_Remove. pose proof (del_spec W HW _ [] (prefixI p) Hw Hp (pre_nil _)) as R.
    pose proof (del_boxed _ (prefixI p) Hb) as B.
    destruct (del W (tx_trie t) (prefixI p)) as [h e]. cbn [bind]. intros [= <- <-].
    destruct R as (R & _). split; auto.
Qed.

Lemma reach_inv t : reachable W zeroT box goeq t -> inv t.
Proof.
  induction 1 as [|t E|g t E|t o t' x R IH Hp E|t t' R IH E|peq t t' Hs R IH E|S0 st st' m t t' R IH E].
  - split; exact I.
  - injection E as <-. split; exact I.
  - injection E as <-. split; exact I.
  - eapply exec_inv; eauto.
  - injection E as <-. exact IH.
  - destruct IH as (Hw & Hb). unfold tbl_Aggregate, Aggregate in E.
    destruct (aggregate _ _ _ _) as [n| |] eqn:A; cbn [bind] in E; try discriminate. injection E as <-.
    split; cbn [tx_trie].
    + eapply aggregate_wf; eauto.
    + eapply aggregate_boxed in A; eauto. exact I.
  - destruct IH as (Hw & Hb). unfold tbl_Map in E. destruct m as [m|].
    + destruct (Map _ _ _ _) as [[s' n]| |] eqn:M; cbn [bind] in E; try discriminate. injection E as <- <-.
      split; cbn [tx_trie].
      * eapply Map_spec in M; eauto. tauto.
      * eapply Map_boxed in M; eauto. intros p d s. destruct (m p (unbox d) s). cbn. exists t0; auto.
    + injection E as <- <-. split; auto.
Qed.

(* ---- reading ---- *)
Lemma Get_fk t q : wf [] (tx_trie t) -> wf_prefix W q ->
  Get W zeroT t (Some q) = match fk (key q) (tx_trie t) with Some (_, d) => (unbox d, true) | None => (zeroT, false) end.
Proof.
  intros Hw Hq. unfold Get, tx_Get, longestMatch. cbn [prefixI].
  pose proof (fun e => Match_exact W HW (tx_trie t) [] q e Hw Hq) as M.
  destruct (Match W (tx_trie t) q) as [[np d]|] eqn:E.
  - destruct (plen np =? plen q) eqn:L.
    + apply N.eqb_eq in L. destruct (M (np, d)) as [M1 _]. rewrite (M1 (conj eq_refl L)). reflexivity.
    + destruct (fk (key q) (tx_trie t)) as [[q' d']|] eqn:F; auto.
      destruct (M (q', d')) as [_ M2]. destruct (M2 eq_refl) as [M3 M4]. injection M3 as -> ->.
      cbn in M4. apply N.eqb_eq in M4. congruence.
  - destruct (fk (key q) (tx_trie t)) as [[q' d']|] eqn:F; auto.
    destruct (M (q', d')) as [_ M2]. destruct (M2 eq_refl) as [M3 _]. discriminate.
Qed.

Lemma tbl_Get_Get t q : tbl_Get W zeroT (Some t) q = Get W zeroT t q.
Proof.
  unfold tbl_Get, Get, tx_Get. destruct (longestMatch W t q) as [[v m] np]. destruct m; reflexivity.
Qed.
Lemma tbl_LongestMatch_eq t q : tbl_LongestMatch W zeroT (Some t) q = LongestMatch W zeroT t q.
Proof.
  unfold tbl_LongestMatch, LongestMatch, tx_LongestMatch. destruct (longestMatch W t q) as [[v m] np]. destruct m; reflexivity.
Qed.

Lemma LongestMatch_eq t q :
  LongestMatch W zeroT t (Some q) =
  match Match W (tx_trie t) q with Some (np, d) => (unbox d, true, np) | None => (zeroT, false, zero_prefix) end.
Proof.
  unfold LongestMatch, tx_LongestMatch, longestMatch. cbn [prefixI].
  destruct (Match W (tx_trie t) q) as [[np d]|]; auto. destruct (plen np =? plen q); auto.
Qed.
End TableProof.
