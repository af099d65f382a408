(* AggProof.v - proofs about aggregate. *)
From Verif Require Export DiffChar.
From Coq Require Import Arith Sorted ZifyBool ZifyNat ZifyN.

(* pre is decidable *)
Fixpoint preb (k l : list bool) : bool :=
  match k, l with
  | [], _ => true
  | x :: k', y :: l' => Bool.eqb x y && preb k' l'
  | _, _ => false
  end.
Lemma preb_spec k : forall l, preb k l = true <-> pre k l.
Proof.
  induction k as [|x k IH]; intros l.
  - split; auto. intros _. exists l. reflexivity.
  - destruct l as [|y l]; cbn.
    + split; [discriminate|]. intros [m Hm]. discriminate.
    + rewrite Bool.andb_true_iff, Bool.eqb_true_iff, IH. split.
      * intros [-> [m ->]]. exists m. reflexivity.
      * intros [m Hm]. cbn in Hm. injection Hm as -> ->. split; auto. exists m; auto.
Qed.

Section Agg.
Variable W : N.
Context {T : Type}.
Notation key := (key W).
Notation wf := (wf W).
Notation ekey := (@ekey W T).
Implicit Types t l r : trie T.

(* the last, i.e. most specific, matching entry of a list of entries *)
Fixpoint lastm (L : list (prefix * option T)) (kk : list bool) : option (prefix * option T) :=
  match L with
  | [] => None
  | e :: L' => match lastm L' kk with
               | Some x => Some x
               | None => if preb (ekey e) kk then Some e else None
               end
  end.

Lemma lastm_app xs ys kk : lastm (xs ++ ys) kk = match lastm ys kk with Some x => Some x | None => lastm xs kk end.
Proof.
  induction xs as [|e xs IH]; cbn; [destruct (lastm ys kk); auto|].
  rewrite IH. destruct (lastm ys kk); auto.
Qed.
Lemma lastm_In L kk e : lastm L kk = Some e -> In e L /\ pre (ekey e) kk.
Proof.
  induction L as [|x L IH]; cbn; [discriminate|].
  destruct (lastm L kk).
  - intros [= ->]. destruct IH; auto.
  - destruct (preb (ekey x) kk) eqn:E; [|discriminate].
    intros [= ->]. apply preb_spec in E. auto.
Qed.
Lemma lastm_none L kk : lastm L kk = None <-> forall e, In e L -> ~ pre (ekey e) kk.
Proof.
  induction L as [|x L IH]; cbn; [split; auto|].
  destruct (lastm L kk) eqn:E.
  - split; [discriminate|]. intros H. apply lastm_In in E. destruct E as [E1 E2]. exfalso. eapply H; eauto.
  - destruct (preb (ekey x) kk) eqn:F.
    + split; [discriminate|]. intros H. exfalso. eapply H; [left; reflexivity|]. apply preb_spec; auto.
    + split; auto. intros _ e [<-|H]; [rewrite <- preb_spec; congruence|]. destruct IH as [IH _]. apply (IH eq_refl); auto.
Qed.

Definition lastm_below k t kk : wf k t -> ~ pre k kk -> lastm (entries t) kk = None.
Proof.
  intros H Hk. apply lastm_none. intros e He Hp. apply Hk.
  pose proof (entries_wf _ _ _ H) as F. rewrite Forall_forall in F. destruct (F _ He) as [_ P].
  eapply pre_trans; eauto.
Qed.

Definition sem (u : option (option T)) t kk : option (option T) :=
  match lastm (entries t) kk with Some e => Some (snd e) | None => u end.

Lemma sem_mk u p d a l r kk :
  sem u (mk p d a l r) kk =
  match lastm (entries r) kk with
  | Some e => Some (snd e)
  | None => match lastm (entries l) kk with
            | Some e => Some (snd e)
            | None => if a && preb (key p) kk then Some d else u
            end
  end.
Proof.
  unfold sem. rewrite entries_mk, !lastm_app.
  destruct (lastm (entries r) kk); auto. destruct (lastm (entries l) kk); auto.
  destruct a; cbn; auto. unfold ekey; cbn. destruct (preb (key p) kk); auto.
Qed.

(* for a key below child c of a node *)
Lemma sem_node_below k u p d s h a l r c x :
  wf k (Node p d s h a l r) ->
  sem u (Node p d s h a l r) (key p ++ c :: x) =
  sem (if a then Some d else u) (kid c l r) (key p ++ c :: x).
Proof.
  intros H. pose proof (wf_kid _ _ _ _ _ _ _ _ _ false H) as Hl. pose proof (wf_kid _ _ _ _ _ _ _ _ _ true H) as Hr.
  rewrite (wf_node _ _ _ _ _ _ _ _ _ H), sem_mk. cbn [kid] in *.
  assert (P : preb (key p) (key p ++ c :: x) = true) by (apply preb_spec; exists (c :: x); auto).
  rewrite P, andb_true_r. unfold sem.
  destruct c; cbn [kid].
  - rewrite (lastm_below _ l _ Hl) by (apply (pre_nsnoc (key p) true)).
    destruct (lastm (entries r) _); destruct a; auto.
  - rewrite (lastm_below _ r _ Hr) by (apply (pre_nsnoc (key p) false)).
    destruct (lastm (entries l) _); destruct a; auto.
Qed.
Lemma sem_node_here k u p d s h a l r :
  wf k (Node p d s h a l r) -> sem u (Node p d s h a l r) (key p) = if a then Some d else u.
Proof.
  intros H. pose proof (wf_kid _ _ _ _ _ _ _ _ _ false H) as Hl. pose proof (wf_kid _ _ _ _ _ _ _ _ _ true H) as Hr.
  rewrite (wf_node _ _ _ _ _ _ _ _ _ H), sem_mk. cbn [kid] in *.
  assert (N1 : forall c, ~ pre (key p ++ [c]) (key p)).
  { intros c Hp. apply pre_length in Hp. rewrite app_length in Hp. cbn in Hp. lia. }
  rewrite (lastm_below _ r _ Hr), (lastm_below _ l _ Hl) by auto.
  assert (P : preb (key p) (key p) = true) by (apply preb_spec, pre_refl).
  rewrite P, andb_true_r. auto.
Qed.
Lemma sem_out k u t kk : wf k t -> ~ pre k kk -> sem u t kk = u.
Proof. intros H Hk. unfold sem. rewrite (lastm_below k); auto. Qed.

Variable peq : trie T -> trie T -> bool.
Hypothesis peq_sound : forall a b, peq a b = true -> a = b.
Variable eq : comparator T.

Lemma crv_spec k p d s h a ml mr ia data l r t' :
  wf k (Node p d s h a ml mr) ->
  createReturnValue peq (Node p d s h a ml mr) ia data l r eq = Ok t' ->
  exists d', t' = mk p d' ia l r /\
    (ia = true -> d' = data \/ (d' = d /\ ((a = true /\ eq data d = Ok true) \/ (d <> None /\ eq d data = Ok true)))) /\
    (ia = false -> d' = None \/ d' = d).
Proof.
  intros H. unfold createReturnValue.
  assert (NS : forall t', (if ia then
      replace <- match d with None => Ok true | Some _ => e <- eq d data ;; Ok (negb e) end ;;
      Ok (mk p (if replace then data else d) true l r)
    else Ok (mk p None false l r)) = Ok t' ->
    exists d', t' = mk p d' ia l r /\
    (ia = true -> d' = data \/ (d' = d /\ ((a = true /\ eq data d = Ok true) \/ (d <> None /\ eq d data = Ok true)))) /\
    (ia = false -> d' = None \/ d' = d)).
  { intros t0. destruct ia.
    - destruct d as [v|]; cbn.
      + destruct (eq (Some v) data) as [e| |] eqn:E; cbn; try discriminate.
        intros [= <-]. destruct e; cbn; eexists; (split; [reflexivity|]); (split; [|discriminate]); intros _; auto.
        right. split; auto. right. split; [discriminate|auto].
      + intros [= <-]. eexists; (split; [reflexivity|]); (split; [|discriminate]); auto.
    - intros [= <-]. eexists; (split; [reflexivity|]); (split; [discriminate|]); auto. }
  destruct (Bool.eqb ia a && (peq l ml && peq r mr)) eqn:B; cbn [bind]; [|apply NS].
  apply andb_true_iff in B. destruct B as [B1 B]. apply andb_true_iff in B. destruct B as [B2 B3].
  apply Bool.eqb_prop in B1. apply peq_sound in B2. apply peq_sound in B3. subst.
  destruct (eq data d) as [b| |] eqn:E; cbn [bind]; try discriminate.
  destruct b; [|apply NS].
  intros [= <-]. exists d. split; [apply (wf_node _ _ _ _ _ _ _ _ _ H)|]. split; intros ->; auto.
Qed.

(* one unfolding of aggregate as cases *)
Lemma aggregate_cases k p d s h a l r u t' :
  wf k (Node p d s h a l r) ->
  aggregate peq (Node p d s h a l r) u eq = Ok t' ->
  exists u1 ia data l1 r1 ca,
    ((a = true /\ u = None /\ (u1, ia, data) = (Some d, true, d)) \/
     (exists ud, a = true /\ u = Some ud /\ eq ud d = Ok false /\ (u1, ia, data) = (Some d, true, d)) \/
     (exists ud, a = true /\ u = Some ud /\ eq ud d = Ok true /\ (u1, ia, data) = (u, false, None)) \/
     (a = false /\ (u1, ia, data) = (u, false, d))) /\
    aggregate peq l u1 eq = Ok l1 /\ aggregate peq r u1 eq = Ok r1 /\
    (ca = true -> active l1 = true /\ active r1 = true /\ plen (prefix_of l1) = plen p + 1 /\
        plen (prefix_of r1) = plen p + 1 /\ eq (data_of l1) (data_of r1) = Ok true) /\
    (if ca then exists d', t' = mk p d' true Nil Nil /\
        (d' = data_of l1 \/ d' = d /\ ((a = true /\ eq (data_of l1) d = Ok true) \/ (d <> None /\ eq d (data_of l1) = Ok true)))
     else if ia then exists d', t' = mk p d' true l1 r1 /\ (d' = d \/ d' = data) /\ data = d
     else (l1 = Nil /\ t' = r1) \/ (l1 <> Nil /\ r1 = Nil /\ t' = l1) \/
          (l1 <> Nil /\ r1 <> Nil /\ exists d', t' = mk p d' false l1 r1 /\ (d' = None \/ d' = d))).
Proof.
  intros H. cbn [aggregate].
  set (hd := (if a then
         match u with
         | None => Ok (Some d, true, d)
         | Some ud => e <- eq ud d ;; if negb e then Ok (Some d, true, d) else Ok (u, false, None)
         end
       else Ok (u, false, d))).
  destruct hd as [[[u1 ia] data]| |] eqn:Ehd; cbn [bind]; try discriminate.
  destruct (aggregate peq l u1 eq) as [l1| |] eqn:El; cbn [bind]; try discriminate.
  destruct (aggregate peq r u1 eq) as [r1| |] eqn:Er; cbn [bind]; try discriminate.
  set (cc := if active l1 && active r1
          && (plen (prefix_of l1) =? plen p + 1)
          && (plen (prefix_of l1) =? plen (prefix_of r1))
       then eq (data_of l1) (data_of r1) else Ok false).
  destruct cc as [ca| |] eqn:Ec; cbn [bind]; try discriminate.
  assert (HD : (a = true /\ u = None /\ (u1, ia, data) = (Some d, true, d)) \/
     (exists ud, a = true /\ u = Some ud /\ eq ud d = Ok false /\ (u1, ia, data) = (Some d, true, d)) \/
     (exists ud, a = true /\ u = Some ud /\ eq ud d = Ok true /\ (u1, ia, data) = (u, false, None)) \/
     (a = false /\ (u1, ia, data) = (u, false, d))).
  { subst hd. destruct a.
    - destruct u as [ud|].
      + destruct (eq ud d) as [e| |] eqn:E; cbn in Ehd; try discriminate.
        destruct e; cbn in Ehd; injection Ehd as <- <- <-; [right; right; left|right; left]; exists ud; auto.
      + injection Ehd as <- <- <-. auto.
    - injection Ehd as <- <- <-. right; right; right; auto. }
  intros Ht. exists u1, ia, data, l1, r1, ca. split; [exact HD|]. split; [auto|]. split; [auto|]. split.
  { intros ->. subst cc.
    destruct (active l1 && active r1 && (plen (prefix_of l1) =? plen p + 1) && (plen (prefix_of l1) =? plen (prefix_of r1))) eqn:B; [|discriminate].
    rewrite !andb_true_iff, !N.eqb_eq in B. destruct B as [[[B1 B2] B3] B4]. repeat split; auto. congruence. }
  destruct ca.
  - cbn [is_nil] in Ht. apply (crv_spec _ _ _ _ _ _ _ _ _ _ _ _ _ H) in Ht.
    destruct Ht as (d' & -> & Hd & _). exists d'. auto.
  - destruct ia.
    + apply (crv_spec _ _ _ _ _ _ _ _ _ _ _ _ _ H) in Ht.
      destruct Ht as (d' & -> & Hd & _). exists d'. split; auto. split; [destruct (Hd eq_refl) as [->|[-> _]]; auto|].
      destruct HD as [(_&_&E)|[(ud&_&_&_&E)|[(ud&_&_&_&E)|(_&E)]]]; injection E; congruence.
    + destruct l1 as [|pl dl sl hl al ll lr]; cbn [is_nil] in Ht; [injection Ht as <-; auto|].
      right. destruct r1 as [|pr dr sr hr ar rl rr]; cbn [is_nil] in Ht.
      * left. injection Ht as <-. split; [discriminate|auto].
      * right. split; [discriminate|]. split; [discriminate|].
        apply (crv_spec _ _ _ _ _ _ _ _ _ _ _ _ _ H) in Ht.
        destruct Ht as (d' & -> & _ & Hd). exists d'. split; auto.
Qed.

Lemma aggregate_wf me : forall k u t', wf k me -> aggregate peq me u eq = Ok t' -> wf k t'.
Proof.
  induction me as [|p d s h a l IHl r IHr]; intros k u t' H Ht.
  { cbn in Ht. injection Ht as <-. exact I. }
  destruct (aggregate_cases _ _ _ _ _ _ _ _ _ _ H Ht) as (u1&ia&data&l1&r1&ca&_&El&Er&Hca&Hres).
  destruct H as (Hp & Hk & _ & _ & _ & Hl & Hr).
  pose proof (IHl _ _ _ Hl El) as Wl. pose proof (IHr _ _ _ Hr Er) as Wr.
  assert (Pc : forall c, pre k (key p ++ [c])) by (intros c; eapply pre_trans; [eauto|]; exists [c]; auto).
  destruct ca.
  { destruct Hres as (d' & -> & _). apply wf_mk; auto; try exact I. discriminate. }
  destruct ia.
  { destruct Hres as (d' & -> & _). apply wf_mk; auto. discriminate. }
  destruct Hres as [(-> & ->)|[(_ & -> & ->)|(? & ? & d' & -> & _)]].
  - eapply wf_weaken; [|eauto]; auto.
  - eapply wf_weaken; [|eauto]; auto.
  - apply wf_mk; auto.
Qed.

(* ---- values ---- *)
Variable isbox : option T -> Prop.
Variable f : option T -> option T -> bool.
Hypothesis Heq : forall x y b, isbox x -> isbox y -> eq x y = Ok b -> b = f x y.
Hypothesis f_refl : forall x, isbox x -> f x x = true.
Hypothesis f_sym : forall x y, isbox x -> isbox y -> f x y = true -> f y x = true.
Hypothesis f_trans : forall x y z, isbox x -> isbox y -> isbox z -> f x y = true -> f y z = true -> f x z = true.

Fixpoint boxed t : Prop :=
  match t with
  | Nil => True
  | Node _ d _ _ a l r => (a = true -> isbox d) /\ (d = None \/ isbox d) /\ boxed l /\ boxed r
  end.
Lemma boxed_mk p d a l r : (a = true -> isbox d) -> (d = None \/ isbox d) -> boxed l -> boxed r -> boxed (mk p d a l r).
Proof. cbn. auto. Qed.
Lemma boxed_entries t e : boxed t -> In e (entries t) -> isbox (snd e).
Proof.
  induction t as [|p d s h a l IHl r IHr]; cbn; [tauto|].
  intros (Ha & _ & Hl & Hr). rewrite !in_app_iff. intros [Hi|[Hi|Hi]]; auto.
  destruct a; cbn in Hi; [|tauto]. destruct Hi as [<-|[]]. cbn. auto.
Qed.
Lemma boxed_root t : boxed t -> active t = true -> isbox (data_of t).
Proof. destruct t; cbn; [discriminate|]. intros (H & _) ->. auto. Qed.

Definition ubox (u : option (option T)) : Prop := match u with Some x => isbox x | None => True end.

Lemma aggregate_boxed me : forall k u t', wf k me -> boxed me -> ubox u -> aggregate peq me u eq = Ok t' -> boxed t'.
Proof.
  induction me as [|p d s h a l IHl r IHr]; intros k u t' H Hb Hu Ht.
  { cbn in Ht. injection Ht as <-. exact I. }
  destruct (aggregate_cases _ _ _ _ _ _ _ _ _ _ H Ht) as (u1&ia&data&l1&r1&ca&HD&El&Er&Hca&Hres).
  destruct H as (Hp & Hk & _ & _ & _ & Hl & Hr). destruct Hb as (B1 & B2 & B3 & B4).
  assert (U1 : ubox u1).
  { destruct HD as [(Ha&_&E)|[(ud&Ha&_&_&E)|[(ud&Ha&_&_&E)|(Ha&E)]]]; injection E; intros; subst; cbn; auto. }
  pose proof (IHl _ _ _ Hl B3 U1 El) as Bl. pose proof (IHr _ _ _ Hr B4 U1 Er) as Br.
  destruct ca.
  { destruct (Hca eq_refl) as (A1 & A2 & _).
    assert (X : isbox (data_of l1)) by (apply boxed_root; auto).
    destruct Hres as (d' & -> & Hd).
    assert (isbox d') by (destruct Hd as [->|(-> & [(? & _)|(? & _)])]; auto; destruct B2; auto; congruence).
    apply boxed_mk; auto; exact I. }
  destruct ia.
  { assert (a = true) by (destruct HD as [(Ha&_&E)|[(ud&Ha&_&_&E)|[(ud&Ha&_&_&E)|(Ha&E)]]]; auto; injection E; intros; discriminate).
    destruct Hres as (d' & -> & Hd & ->). assert (d' = d) by (destruct Hd; auto). subst d'.
    apply boxed_mk; auto. }
  destruct Hres as [(-> & ->)|[(_ & -> & ->)|(? & ? & d' & -> & Hd)]]; auto.
  apply boxed_mk; auto; [discriminate|]. destruct Hd; subst; auto.
Qed.

Lemma root_entry t : active t = true -> In (prefix_of t, data_of t) (entries t).
Proof. destruct t as [|p d s h a l r]; cbn; [discriminate|]. intros ->. left. reflexivity. Qed.

Lemma root_key k c t : wf (k ++ [c]) t -> active t = true -> plen (prefix_of t) = nlen k + 1 -> key (prefix_of t) = k ++ [c].
Proof.
  destruct t as [|p d s h a l r]; cbn [active prefix_of]; [discriminate|]. intros (Hp & [m Hm] & _) _ Hl.
  rewrite Hm. pose proof (f_equal nlen Hm) as E. rewrite (nlen_key W), !nlen_app in E. cbn in E.
  destruct m; [rewrite app_nil_r; auto|]. exfalso. unfold nlen in *. cbn in E. cbn in *. lia.
Qed.

Lemma below_cases p kk : pre (key p) kk -> nlen kk > plen p -> exists c x, kk = key p ++ c :: x.
Proof.
  intros [m ->] Hl. destruct m as [|c m]; eauto. rewrite app_nil_r, (nlen_key W) in Hl. lia.
Qed.

(* every address under an aggregated entry was under an original entry of the same value *)
Lemma aggregate_sound me : forall k u t', wf k me -> boxed me -> ubox u -> aggregate peq me u eq = Ok t' ->
  forall e kk, In e (entries t') -> pre (ekey e) kk -> nlen kk = W ->
  exists e0, In e0 (entries me) /\ pre (ekey e0) kk /\ f (snd e0) (snd e) = true.
Proof.
  induction me as [|p d s h a l IHl r IHr]; intros k u t' H Hb Hu Ht e kk He Hkk Hlen.
  { cbn in Ht. injection Ht as <-. destruct He. }
  pose proof (aggregate_boxed _ _ _ _ H Hb Hu Ht) as Bt.
  destruct (aggregate_cases _ _ _ _ _ _ _ _ _ _ H Ht) as (u1&ia&data&l1&r1&ca&HD&El&Er&Hca&Hres).
  destruct H as (Hp & Hk & _ & _ & _ & Hl & Hr). destruct Hb as (B1 & B2 & B3 & B4).
  assert (U1 : ubox u1).
  { destruct HD as [(Ha&_&E)|[(ud&Ha&_&_&E)|[(ud&Ha&_&_&E)|(Ha&E)]]]; injection E; intros; subst; cbn; auto. }
  pose proof (aggregate_boxed _ _ _ _ Hl B3 U1 El) as Bl. pose proof (aggregate_boxed _ _ _ _ Hr B4 U1 Er) as Br.
  specialize (IHl _ _ _ Hl B3 U1 El). specialize (IHr _ _ _ Hr B4 U1 Er).
  pose proof (aggregate_wf _ _ _ _ Hl El) as Wl. pose proof (aggregate_wf _ _ _ _ Hr Er) as Wr.
  assert (SL : In e (entries l1) -> exists e0, In e0 (entries (Node p d s h a l r)) /\ pre (ekey e0) kk /\ f (snd e0) (snd e) = true).
  { intros Hi. destruct (IHl _ _ Hi Hkk Hlen) as (e0 & I0 & P0). exists e0. split; auto. cbn. rewrite !in_app_iff. auto. }
  assert (SR : In e (entries r1) -> exists e0, In e0 (entries (Node p d s h a l r)) /\ pre (ekey e0) kk /\ f (snd e0) (snd e) = true).
  { intros Hi. destruct (IHr _ _ Hi Hkk Hlen) as (e0 & I0 & P0). exists e0. split; auto. cbn. rewrite !in_app_iff. auto. }
  destruct ca.
  { destruct (Hca eq_refl) as (A1 & A2 & L1 & L2 & Edd).
    pose proof (boxed_root _ Bl A1) as X1. pose proof (boxed_root _ Br A2) as X2.
    pose proof (Heq _ _ _ X1 X2 Edd) as F12. symmetry in F12.
    destruct Hres as (d' & -> & Hd). rewrite entries_mk in He. cbn in He. destruct He as [<-|[]].
    cbn [fst] in *. unfold ekey in Hkk; cbn in Hkk.
    assert (Dd : isbox d' /\ f (data_of l1) d' = true).
    { destruct Hd as [->|(-> & [(Ha & E)|(Hn & E)])].
      - split; auto.
      - specialize (B1 Ha). split; auto. symmetry. apply (Heq _ _ _ X1 B1 E).
      - destruct B2 as [?|B2]; [congruence|]. split; auto. apply f_sym; auto. symmetry. apply (Heq _ _ _ B2 X1 E). }
    destruct Dd as (Xd & Fd).
    assert (Hlt : nlen kk > plen p).
    { destruct l1 as [|pl dl sl hl al ll lr]; [discriminate A1|]. cbn [prefix_of] in L1.
      cbn in Wl. destruct Wl as ((_ & Q) & _). lia. }
    destruct (below_cases _ _ Hkk Hlt) as (c & x & ->).
    assert (Hc : exists e0, In e0 (entries (kid c l r)) /\ pre (ekey e0) (key p ++ c :: x) /\ f (snd e0) d' = true).
    { destruct c; cbn [kid].
      - destruct (IHr (prefix_of r1, data_of r1) (key p ++ true :: x)) as (e0 & I0 & P0 & F0); auto.
        { apply root_entry; auto. }
        { unfold ekey; cbn. rewrite (root_key _ _ _ Wr); auto; [apply pre_snoc_cons|]. rewrite (nlen_key W). auto. }
        exists e0. split; auto. split; auto. cbn in F0.
        pose proof (boxed_entries _ _ B4 I0). eapply f_trans; [| |exact Xd|exact F0|]; auto.
        apply (f_trans (data_of r1) (data_of l1) d'); auto.
      - destruct (IHl (prefix_of l1, data_of l1) (key p ++ false :: x)) as (e0 & I0 & P0 & F0); auto.
        { apply root_entry; auto. }
        { unfold ekey; cbn. rewrite (root_key _ _ _ Wl); auto; [apply pre_snoc_cons|]. rewrite (nlen_key W). auto. }
        exists e0. split; auto. split; auto. cbn in F0.
        pose proof (boxed_entries _ _ B3 I0). eapply f_trans; [| |exact Xd|exact F0|]; auto. }
    destruct Hc as (e0 & I0 & P0 & F0). exists e0. split; auto. cbn. rewrite !in_app_iff. destruct c; auto. }
  destruct ia.
  { assert (a = true) by (destruct HD as [(Ha&_&E)|[(ud&Ha&_&_&E)|[(ud&Ha&_&_&E)|(Ha&E)]]]; auto; injection E; intros; discriminate).
    subst a. destruct Hres as (d' & -> & Hd & ->). assert (d' = d) by (destruct Hd; auto). subst d'.
    rewrite entries_mk in He. cbn in He. destruct He as [<-|He].
    - exists (p, d). split; [cbn; auto|]. split; auto.
    - apply in_app_iff in He. destruct He; auto. }
  destruct Hres as [(-> & ->)|[(_ & -> & ->)|(? & ? & d' & -> & Hd)]]; auto.
  rewrite entries_mk in He. cbn in He. apply in_app_iff in He. destruct He; auto.
Qed.

(* an aggregated entry that still has more specific entries is an original entry *)
Lemma aggregate_orig me : forall k u t', wf k me -> aggregate peq me u eq = Ok t' ->
  active t' = true -> child0 t' <> Nil \/ child1 t' <> Nil ->
  In (prefix_of t', data_of t') (entries me).
Proof.
  induction me as [|p d s h a l IHl r IHr]; intros k u t' H Ht Ha Hn.
  { cbn in Ht. injection Ht as <-. discriminate Ha. }
  destruct (aggregate_cases _ _ _ _ _ _ _ _ _ _ H Ht) as (u1&ia&data&l1&r1&ca&HD&El&Er&Hca&Hres).
  destruct H as (Hp & Hk & _ & _ & _ & Hl & Hr).
  destruct ca.
  { destruct Hres as (d' & -> & _). cbn in Hn. destruct Hn; congruence. }
  destruct ia.
  { assert (a = true) by (destruct HD as [(?&_&E)|[(ud&?&_&_&E)|[(ud&?&_&_&E)|(?&E)]]]; auto; injection E; intros; discriminate).
    subst a. destruct Hres as (d' & -> & Hd & ->). assert (d' = d) by (destruct Hd; auto). subst d'. cbn. auto. }
  destruct Hres as [(-> & ->)|[(_ & -> & ->)|(? & ? & d' & -> & Hd)]].
  - cbn. rewrite !in_app_iff. right; right. eapply IHr; eauto.
  - cbn. rewrite !in_app_iff. right; left. eapply IHl; eauto.
  - discriminate Ha.
Qed.

(* without an umbrella no covered address is lost *)
Lemma aggregate_covers me : forall k t', wf k me -> aggregate peq me None eq = Ok t' ->
  forall e kk, In e (entries me) -> pre (ekey e) kk -> nlen kk = W ->
  exists e0, In e0 (entries t') /\ pre (ekey e0) kk.
Proof.
  induction me as [|p d s h a l IHl r IHr]; intros k t' H Ht e kk He Hkk Hlen.
  { destruct He. }
  destruct (aggregate_cases _ _ _ _ _ _ _ _ _ _ H Ht) as (u1&ia&data&l1&r1&ca&HD&El&Er&Hca&Hres).
  assert (Hroot : pre (key p) kk).
  { eapply pre_trans; [|exact Hkk]. pose proof (entries_wf W (key p) _ (wf_rebase _ _ _ _ _ _ _ _ _ _ H (pre_refl _))) as F.
    rewrite Forall_forall in F. apply F in He. tauto. }
  destruct ca.
  { destruct Hres as (d' & -> & _). exists (p, d'). split; [cbn; auto|]. exact Hroot. }
  destruct ia.
  { destruct Hres as (d' & -> & _). exists (p, d'). split; [cbn; auto|]. exact Hroot. }
  assert (a = false /\ u1 = None) as (-> & ->).
  { destruct HD as [(?&_&E)|[(ud&?&Eu&_&E)|[(ud&?&Eu&_&E)|(?&E)]]]; try discriminate Eu; injection E; intros; subst; auto; discriminate. }
  destruct H as (Hp & Hk & _ & _ & _ & Hl & Hr).
  cbn in He. apply in_app_iff in He.
  assert (X : exists e0, (In e0 (entries l1) \/ In e0 (entries r1)) /\ pre (ekey e0) kk).
  { destruct He as [He|He].
    - destruct (IHl _ _ Hl El _ _ He Hkk Hlen) as (e0 & ? & ?). eauto.
    - destruct (IHr _ _ Hr Er _ _ He Hkk Hlen) as (e0 & ? & ?). eauto. }
  destruct X as (e0 & I0 & P0). exists e0. split; auto.
  destruct Hres as [(-> & ->)|[(_ & -> & ->)|(? & ? & d' & -> & Hd)]].
  - destruct I0 as [[]|?]; auto.
  - destruct I0 as [?|[]]; auto.
  - rewrite entries_mk. cbn. apply in_app_iff. auto.
Qed.

Definition oeq (x y : option (option T)) : Prop :=
  match x, y with None, None => True | Some a, Some b => f a b = true | _, _ => False end.

(* The side condition: the other half of a prefix that has a more specific
   entry of a different value is not wholly covered by that prefix's value. *)
Definition lossless (L : list (prefix * option T)) : Prop :=
  forall k c e e', In e L -> In e' L -> ekey e = k ++ [c] -> pre (ekey e) (ekey e') -> f (snd e) (snd e') = false ->
  exists kk, nlen kk = W /\ pre (k ++ [negb c]) kk /\
    forall e1, In e1 L -> pre (k ++ [negb c]) (ekey e1) -> pre (ekey e1) kk -> f (snd e) (snd e1) = false.

Lemma oeq_trans x y z : ubox x -> ubox y -> ubox z -> oeq x y -> oeq y z -> oeq x z.
Proof. destruct x, y, z; cbn; auto; try tauto. intros. eapply f_trans; [| | |eauto|eauto]; auto. Qed.
Lemma oeq_refl x : ubox x -> oeq x x.
Proof. destruct x; cbn; auto. Qed.
Lemma oeq_sym x y : ubox x -> ubox y -> oeq x y -> oeq y x.
Proof. destruct x, y; cbn; auto. Qed.
Lemma sem_box u t kk : ubox u -> boxed t -> ubox (sem u t kk).
Proof.
  intros Hu Hb. unfold sem. destruct (lastm (entries t) kk) eqn:E; auto. cbn.
  eapply boxed_entries; eauto. eapply lastm_In; eauto.
Qed.
Lemma sem_oeq u v t kk : boxed t -> oeq u v -> oeq (sem u t kk) (sem v t kk).
Proof.
  intros Hb H. unfold sem. destruct (lastm (entries t) kk) eqn:E; auto. cbn. apply f_refl.
  eapply boxed_entries; eauto. eapply lastm_In; eauto.
Qed.

(* merging loses nothing under the side condition *)
Lemma noloss k c tt u t1 s1 u' tt' L kk :
  lossless L -> (forall e, In e L -> isbox (snd e)) ->
  incl (entries tt) L -> incl (entries tt') L ->
  wf (k ++ [c]) tt -> boxed tt -> ubox u -> aggregate peq tt u eq = Ok t1 ->
  wf (k ++ [negb c]) tt' -> boxed tt' -> ubox u' -> aggregate peq tt' u' eq = Ok s1 ->
  active t1 = true -> active s1 = true -> plen (prefix_of t1) = nlen k + 1 -> plen (prefix_of s1) = nlen k + 1 ->
  f (data_of t1) (data_of s1) = true ->
  nlen kk = W -> pre (k ++ [c]) kk ->
  oeq (sem u t1 kk) (Some (data_of t1)).
Proof.
  intros HL HLb HI HI' Ht Hb Hu Hagg Hs Hb' Hu' Hagg' A1 A2 P1 P2 F12 Hlen Hkk.
  pose proof (aggregate_wf _ _ _ _ Ht Hagg) as Wt. pose proof (aggregate_boxed _ _ _ _ Ht Hb Hu Hagg) as Bt.
  pose proof (aggregate_wf _ _ _ _ Hs Hagg') as Ws. pose proof (aggregate_boxed _ _ _ _ Hs Hb' Hu' Hagg') as Bs.
  pose proof (root_key _ _ _ Wt A1 P1) as K1. pose proof (root_key _ _ _ Ws A2 P2) as K2.
  pose proof (boxed_root _ Bt A1) as X1. pose proof (boxed_root _ Bs A2) as X2.
  unfold sem. destruct (lastm (entries t1) kk) as [e|] eqn:E.
  2:{ exfalso. rewrite lastm_none in E. eapply E; [apply root_entry; eauto|]. unfold ekey; cbn. rewrite K1. auto. }
  cbn. destruct (f (snd e) (data_of t1)) eqn:F; auto. exfalso.
  destruct (lastm_In _ _ _ E) as [Ie Pe].
  pose proof (boxed_entries _ _ Bt Ie) as Xe.
  assert (Hn : child0 t1 <> Nil \/ child1 t1 <> Nil).
  { destruct t1 as [|p d s h a l r]; [discriminate A1|]. cbn in A1. subst a. cbn in Ie |- *. destruct Ie as [<-|Ie].
    - cbn in F. rewrite f_refl in F; [discriminate|auto].
    - apply in_app_iff in Ie. destruct Ie as [Ie|Ie]; [left|right]; intros ->; destruct Ie. }
  pose proof (aggregate_orig _ _ _ _ Ht Hagg A1 Hn) as Io.
  destruct (aggregate_sound _ _ _ _ Ht Hb Hu Hagg _ _ Ie Pe Hlen) as (e0 & I0 & P0 & F0).
  pose proof (boxed_entries _ _ Hb I0) as X0.
  assert (Hpre : pre (k ++ [c]) (ekey e0)).
  { pose proof (entries_wf _ _ _ Ht) as Fw. rewrite Forall_forall in Fw. apply Fw in I0. tauto. }
  assert (F1 : f (data_of t1) (snd e0) = false).
  { destruct (f (data_of t1) (snd e0)) eqn:G; auto.
    rewrite (f_sym (data_of t1) (snd e)) in F; auto. eapply f_trans; [| | |exact G|exact F0]; auto. }
  destruct (HL k c (prefix_of t1, data_of t1) e0) as (kk' & L' & Pk' & Hno); auto.
  { unfold ekey; cbn. rewrite K1. auto. }
  destruct (aggregate_sound _ _ _ _ Hs Hb' Hu' Hagg' (prefix_of s1, data_of s1) kk') as (e1 & I1 & Q1 & G1); auto.
  { apply root_entry; auto. }
  { unfold ekey; cbn. rewrite K2. auto. }
  pose proof (boxed_entries _ _ Hb' I1) as X3.
  assert (Hpre1 : pre (k ++ [negb c]) (ekey e1)).
  { pose proof (entries_wf _ _ _ Hs) as Fw. rewrite Forall_forall in Fw. apply Fw in I1. tauto. }
  specialize (Hno e1 (HI' _ I1) Hpre1 Q1). cbn in Hno, G1.
  rewrite (f_trans (data_of t1) (data_of s1) (snd e1)) in Hno; auto. discriminate.
Qed.

Lemma aggregate_exact L : lossless L -> (forall e, In e L -> isbox (snd e)) ->
  forall me k u t', wf k me -> boxed me -> ubox u -> incl (entries me) L -> aggregate peq me u eq = Ok t' ->
  forall kk, nlen kk = W -> oeq (sem u t' kk) (sem u me kk).
Proof.
  intros HL HLb. induction me as [|p d s h a l IHl r IHr]; intros k u t' H Hb Hu HI Ht kk Hlen.
  { cbn in Ht. injection Ht as <-. apply oeq_refl. apply sem_box; auto. }
  pose proof (aggregate_boxed _ _ _ _ H Hb Hu Ht) as Bt.
  pose proof (wf_rebase _ _ _ _ _ _ _ _ _ _ H (pre_refl _)) as H'.
  pose proof (aggregate_wf _ _ _ _ H' Ht) as Wt.
  destruct (aggregate_cases _ _ _ _ _ _ _ _ _ _ H Ht) as (u1&ia&data&l1&r1&ca&HD&El&Er&Hca&Hres).
  destruct (preb (key p) kk) eqn:Epre.
  2:{ assert (~ pre (key p) kk) by (rewrite <- preb_spec; congruence).
      rewrite (sem_out _ _ _ _ Wt), (sem_out _ _ _ _ H'); auto. apply oeq_refl; auto. }
  apply preb_spec in Epre.
  pose proof H as (Hp & Hk & _ & _ & _ & Hl & Hr). pose proof Hb as (B1 & B2 & B3 & B4).
  assert (IL : incl (entries l) L) by (intros e He; apply HI; cbn; rewrite !in_app_iff; auto).
  assert (IR : incl (entries r) L) by (intros e He; apply HI; cbn; rewrite !in_app_iff; auto).
  assert (U1 : ubox u1).
  { destruct HD as [(Ha&_&E)|[(ud&Ha&_&_&E)|[(ud&Ha&_&_&E)|(Ha&E)]]]; injection E; intros; subst; cbn; auto. }
  pose proof (aggregate_boxed _ _ _ _ Hl B3 U1 El) as Bl. pose proof (aggregate_boxed _ _ _ _ Hr B4 U1 Er) as Br.
  pose proof (aggregate_wf _ _ _ _ Hl El) as Wl. pose proof (aggregate_wf _ _ _ _ Hr Er) as Wr.
  specialize (IHl _ _ _ Hl B3 U1 IL El kk Hlen). specialize (IHr _ _ _ Hr B4 U1 IR Er kk Hlen).
  set (u0 := if a then Some d else u).
  assert (U0 : ubox u0) by (subst u0; destruct a; cbn; auto).
  assert (U10 : oeq u1 u0).
  { subst u0. destruct HD as [(->&_&E)|[(ud&->&_&_&E)|[(ud&->&Eu&Eq&E)|(->&E)]]]; injection E; intros; subst; cbn.
    - apply f_refl; auto.
    - apply f_refl; auto.
    - symmetry. apply (Heq _ _ _ Hu (B1 eq_refl) Eq).
    - apply oeq_refl; auto. }
  destruct (list_eq_dec Bool.bool_dec kk (key p)) as [->|Hne].
  { (* kk = key p : a leaf of full length *)
    rewrite (sem_node_here _ _ _ _ _ _ _ _ _ H). fold u0.
    assert (NC : ca = false).
    { destruct ca; auto. destruct (Hca eq_refl) as (A1 & _ & L1 & _).
      destruct l1 as [|pl dl sl hl al ll lr]; [discriminate A1|]. cbn [prefix_of] in L1.
      cbn in Wl. destruct Wl as ((_ & Q) & _). rewrite (nlen_key W) in Hlen. lia. }
    subst ca.
    assert (NP : forall c, ~ pre (key p ++ [c]) (key p)).
    { intros c Hpp. apply pre_length in Hpp. rewrite app_length in Hpp. cbn in Hpp. lia. }
    destruct ia.
    - assert (a = true) by (destruct HD as [(?&_&E)|[(ud&?&_&_&E)|[(ud&?&_&_&E)|(?&E)]]]; auto; injection E; intros; discriminate).
      subst a. destruct Hres as (d' & -> & Hd & ->). assert (d' = d) by (destruct Hd; auto). subst d'.
      unfold mk. erewrite sem_node_here; [|exact Wt]. cbn. apply f_refl; auto.
    - assert (Uu : u1 = u) by (destruct HD as [(?&_&E)|[(ud&?&_&_&E)|[(ud&?&_&_&E)|(?&E)]]]; injection E; intros; subst; auto; discriminate).
      subst u1.
      destruct Hres as [(-> & ->)|[(_ & -> & ->)|(? & ? & d' & -> & Hd)]].
      + rewrite (sem_out _ _ _ _ Wr); auto.
      + rewrite (sem_out _ _ _ _ Wl); auto.
      + unfold mk. erewrite sem_node_here; [|exact Wt]. auto. }
  destruct Epre as [m ->]. destruct m as [|c x]; [rewrite app_nil_r in Hne; congruence|].
  rewrite (sem_node_below _ _ _ _ _ _ _ _ _ _ _ H). fold u0.
  assert (Bk : boxed (kid c l r)) by (destruct c; auto).
  assert (Bk1 : boxed (kid c l1 r1)) by (destruct c; auto).
  assert (IH : oeq (sem u1 (kid c l1 r1) (key p ++ c :: x)) (sem u0 (kid c l r) (key p ++ c :: x))).
  { apply (oeq_trans _ (sem u1 (kid c l r) (key p ++ c :: x))); try (apply sem_box; auto).
    - destruct c; auto.
    - apply sem_oeq; auto. }
  destruct ca.
  { destruct (Hca eq_refl) as (A1 & A2 & L1 & L2 & Edd).
    pose proof (boxed_root _ Bl A1) as X1. pose proof (boxed_root _ Br A2) as X2.
    pose proof (Heq _ _ _ X1 X2 Edd) as F12. symmetry in F12.
    rewrite <- (nlen_key W p) in L1, L2.
    assert (NL : oeq (sem u1 (kid c l1 r1) (key p ++ c :: x)) (Some (data_of l1))).
    { destruct c; cbn [kid].
      - eapply oeq_trans; [| | |eapply (noloss (key p) true r u1 r1 l1 u1 l L)|]; eauto.
        + apply sem_box; auto.
        + apply pre_snoc_cons.
        + cbn. auto.
      - eapply (noloss (key p) false l u1 l1 r1 u1 r L); eauto. apply pre_snoc_cons. }
    destruct Hres as (d' & -> & Hd).
    assert (Dd : isbox d' /\ f (data_of l1) d' = true).
    { destruct Hd as [->|(-> & [(Ha & E)|(Hn & E)])].
      - split; auto.
      - specialize (B1 Ha). split; auto. symmetry. apply (Heq _ _ _ X1 B1 E).
      - destruct B2 as [?|B2]; [congruence|]. split; auto. apply f_sym; auto. symmetry. apply (Heq _ _ _ B2 X1 E). }
    destruct Dd as (Xd & Fd).
    unfold mk. erewrite sem_node_below; [|exact Wt].
    assert (Z : sem (Some d') (kid c Nil Nil) (key p ++ c :: x) = Some d') by (destruct c; reflexivity).
    rewrite Z.
    apply (oeq_trans _ (Some (data_of l1))); auto; [apply sem_box; auto|cbn; auto|].
    apply (oeq_trans _ (sem u1 (kid c l1 r1) (key p ++ c :: x))); auto; try (apply sem_box; auto).
    apply oeq_sym; auto. apply sem_box; auto. }
  destruct ia.
  { assert (a = true /\ u1 = Some d) as (-> & ->).
    { destruct HD as [(?&_&E)|[(ud&?&_&_&E)|[(ud&?&_&_&E)|(?&E)]]]; injection E; intros; subst; auto; discriminate. }
    destruct Hres as (d' & -> & Hd & ->). assert (d' = d) by (destruct Hd; auto). subst d'.
    unfold mk. erewrite sem_node_below; [|exact Wt]. exact IH. }
  assert (Uu : u1 = u) by (destruct HD as [(?&_&E)|[(ud&?&_&_&E)|[(ud&?&_&_&E)|(?&E)]]]; injection E; intros; subst; auto; discriminate).
  subst u1.
  destruct Hres as [(-> & ->)|[(_ & -> & ->)|(? & ? & d' & -> & Hd)]].
  - destruct c; cbn [kid] in IH; auto.
    rewrite (sem_out _ _ _ _ Wr) by apply (pre_nsnoc (key p) false). exact IH.
  - destruct c; cbn [kid] in IH; auto.
    rewrite (sem_out _ _ _ _ Wl) by apply (pre_nsnoc (key p) true). exact IH.
  - unfold mk. erewrite sem_node_below; [|exact Wt]. exact IH.
Qed.

(* aggregation never adds entries *)
Lemma aggregate_size me : forall k u t', wf k me -> aggregate peq me u eq = Ok t' ->
  (length (entries t') <= length (entries me))%nat.
Proof.
  induction me as [|p d s h a l IHl r IHr]; intros k u t' H Ht.
  { cbn in Ht. injection Ht as <-. auto. }
  destruct (aggregate_cases _ _ _ _ _ _ _ _ _ _ H Ht) as (u1&ia&data&l1&r1&ca&HD&El&Er&Hca&Hres).
  destruct H as (Hp & Hk & _ & _ & _ & Hl & Hr).
  specialize (IHl _ _ _ Hl El). specialize (IHr _ _ _ Hr Er).
  cbn [entries]. rewrite !app_length.
  destruct ca.
  { destruct (Hca eq_refl) as (A1 & A2 & _). apply root_entry in A1.
    destruct Hres as (d' & -> & _). cbn.
    destruct (entries l1); [destruct A1|]. cbn in IHl. lia. }
  destruct ia.
  { assert (a = true) by (destruct HD as [(?&_&E)|[(ud&?&_&_&E)|[(ud&?&_&_&E)|(?&E)]]]; auto; injection E; intros; discriminate).
    subst a. destruct Hres as (d' & -> & _). rewrite entries_mk, !app_length. cbn. lia. }
  destruct Hres as [(-> & ->)|[(_ & -> & ->)|(? & ? & d' & -> & Hd)]]; try lia.
  rewrite entries_mk, !app_length. cbn. lia.
Qed.

(* aggregation of a table whose comparator never panics does not panic *)
Lemma aggregate_total me : (forall x y, exists b, eq x y = Ok b) -> forall u, exists t', aggregate peq me u eq = Ok t'.
Proof.
  intros Tot. assert (CR : forall t ia data l r, exists t', createReturnValue peq t ia data l r eq = Ok t').
  { intros t ia data l r. destruct t as [|p d s h a ml mr]; cbn; eauto.
    assert (NS : exists t', (if ia then
      replace <- match d with None => Ok true | Some _ => e <- eq d data ;; Ok (negb e) end ;;
      Ok (mk p (if replace then data else d) true l r)
      else Ok (mk p None false l r)) = Ok t').
    { destruct ia; eauto. destruct d as [v|]; cbn; eauto. destruct (Tot (Some v) data) as [b ->]. cbn. eauto. }
    destruct (Bool.eqb ia a && (peq l ml && peq r mr)); cbn [bind]; auto.
    destruct (Tot data d) as [b ->]. cbn [bind]. destruct b; eauto. }
  induction me as [|p d s h a l IHl r IHr]; intros u; cbn [aggregate]; eauto.
  set (hd := (if a then
         match u with
         | None => Ok (Some d, true, d)
         | Some ud => e <- eq ud d ;; if negb e then Ok (Some d, true, d) else Ok (u, false, None)
         end
       else Ok (u, false, d))).
  assert (exists x, hd = Ok x) as [[[u1 ia] data] ->].
  { subst hd. destruct a; eauto. destruct u as [ud|]; eauto. destruct (Tot ud d) as [b ->]. cbn. destruct b; cbn; eauto. }
  cbn [bind]. destruct (IHl u1) as [l1 ->]. destruct (IHr u1) as [r1 ->]. cbn [bind].
  set (cc := if active l1 && active r1
          && (plen (prefix_of l1) =? plen p + 1)
          && (plen (prefix_of l1) =? plen (prefix_of r1))
       then eq (data_of l1) (data_of r1) else Ok false).
  assert (exists x, cc = Ok x) as [ca ->].
  { subst cc. destruct (_ && _); eauto. }
  cbn [bind]. destruct ca.
  - apply CR.
  - destruct ia; [apply CR|]. destruct (is_nil l1); eauto. destruct (is_nil r1); eauto.
Qed.
End Agg.
