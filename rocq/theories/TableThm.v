(* TableThm.v - lemmas behind the table properties. *)
From Verif Require Export TableProof.
From Coq Require Import Arith Sorted ZifyBool ZifyNat ZifyN.

Lemma ip_HW W : ip_width W -> 0 < W /\ W < 2 ^ 15.
Proof. intros [->| ->]; split; reflexivity. Qed.

Section DelErr.
Variable W : N.
Hypothesis HW : 0 < W /\ W < 2 ^ 15.
Context {T : Type}.
Notation key := (key W).
Notation wf := (wf W).
Notation fk := (fk W).
(* ---- what Remove answers ---- *)
Lemma del_err (t : trie T) : forall k q, wf k t -> wf_prefix W q -> pre k (key q) ->
  (snd (del W t q) = None <->
   fk (key q) t <> None \/
   (exists e0 e1, In e0 (entries t) /\ In e1 (entries t) /\
      pre (key q ++ [false]) (ekey W e0) /\ pre (key q ++ [true]) (ekey W e1))).
Proof.
  induction t as [|p d s h a l IHl r IHr]; intros k q H Hq Hk.
  { cbn. split; [discriminate|]. intros [C|(e0 & _ & [] & _)]. congruence. }
  pose proof H as (Hp & Hkp & _ & _ & Hn & Hl & Hr).
  pose proof (wf_rebase _ _ _ _ _ _ _ _ _ _ H (pre_refl _)) as H'.
  assert (Hall : forall e, In e (entries (Node p d s h a l r)) -> pre (key p) (ekey W e)).
  { intros e He. apply entries_wf in H'. rewrite Forall_forall in H'. apply H'; auto. }
  cbn [del]. pose proof (compare_spec W HW p q Hp Hq) as C.
  destruct (compare W p q) as [[[res rev] cm] child]. inversion C as [E|c x E|c x E|u c x y rv E1 E2]; subst.
  - (* same *)
    assert (S0 : snd (if is_nil l then (r, None) else if is_nil r then (l, None) else (mk p None false l r, @None terr)) = None).
    { destruct (is_nil l); auto. destruct (is_nil r); auto. }
    rewrite S0. split; auto. intros _. rewrite <- E.
    destruct a.
    + left. rewrite (fk_here W) by auto. discriminate.
    + right. destruct (Hn eq_refl) as (Nl & Nr).
      pose proof (entries_nonnil W _ _ Hl Nl) as El. pose proof (entries_nonnil W _ _ Hr Nr) as Er.
      destruct (entries l) as [|e0 L0] eqn:EL; [congruence|]. destruct (entries r) as [|e1 L1] eqn:ER; [congruence|].
      exists e0, e1. cbn [entries]. rewrite EL, ER. apply entries_wf in Hl. apply entries_wf in Hr. rewrite EL in Hl. rewrite ER in Hr.
      inversion Hl as [|? ? [? Pl] ?]; subst. inversion Hr as [|? ? [? Pr] ?]; subst.
      split; [cbn; auto|]. split; [rewrite !in_app_iff; cbn; auto|]. auto.
  - (* contains *)
    assert (Hk' : pre (key p ++ [child]) (key q)) by (rewrite E; apply pre_snoc_cons).
    assert (Hsub : snd (let '(newChild, err) := del W (kid child l r) q in
        match err with Some e => (Node p d s h a l r, Some e)
        | None => if is_nil newChild && negb a then (kid (negb child) l r, None)
                  else (mk p d a (setl child newChild l) (setr child newChild r), None) end) = snd (del W (kid child l r) q)).
    { destruct (del W (kid child l r) q) as [nc err]. destruct err; auto. destruct (is_nil nc && negb a); auto. }
    rewrite Hsub.
    assert (IH : snd (del W (kid child l r) q) = None <->
       fk (key q) (kid child l r) <> None \/ (exists e0 e1, In e0 (entries (kid child l r)) /\ In e1 (entries (kid child l r)) /\
      pre (key q ++ [false]) (ekey W e0) /\ pre (key q ++ [true]) (ekey W e1))).
    { destruct child; [eapply IHr|eapply IHl]; eauto. }
    rewrite IH. rewrite E. rewrite (fk_below W) by auto. rewrite <- E.
    assert (Hi : forall b e, In e (entries (Node p d s h a l r)) -> pre (key q ++ [b]) (ekey W e) -> In e (entries (kid child l r))).
    { intros b e He Pe. cbn [entries] in He. rewrite !in_app_iff in He.
      assert (Pc : pre (key p ++ [child]) (ekey W e)).
      { eapply pre_trans; [exact Hk'|]. eapply pre_trans; [|exact Pe]. apply pre_app_r. }
      assert (Hside : forall c0, In e (entries (kid c0 l r)) -> c0 = child).
      { intros c0 Hc0. pose proof (wf_kid _ _ _ _ _ _ _ _ _ c0 H) as Wk. apply entries_wf in Wk.
        rewrite Forall_forall in Wk. destruct (Wk _ Hc0) as [_ P0]. eapply pre_snoc_inj; eauto. }
      destruct He as [He|[He|He]].
      - exfalso. destruct a; [|destruct He]. destruct He as [<-|[]]. unfold ekey in Pc; cbn in Pc.
        eapply pre_snoc_not; eauto.
      - specialize (Hside false He). subst. auto.
      - specialize (Hside true He). subst. auto. }
    assert (Hin : forall e, In e (entries (kid child l r)) -> In e (entries (Node p d s h a l r))).
    { intros e He. cbn [entries]. rewrite !in_app_iff. destruct child; auto. }
    split; (intros [X|(e0 & e1 & I0 & I1 & P0 & P1)]; [left; auto|right; exists e0, e1]); eauto 10.
  - (* is contained: q strictly above p *)
    cbn [snd]. split; [discriminate|].
    intros [X|(e0 & e1 & I0 & I1 & P0 & P1)].
    + exfalso. apply X. apply (fk_notpre W); auto. rewrite E. intros Q. apply pre_length in Q.
      rewrite app_length in Q. cbn in Q. lia.
    + exfalso. pose proof (Hall _ I0) as A0. pose proof (Hall _ I1) as A1. rewrite E in A0, A1.
      assert (child = false).
      { eapply pre_snoc_inj; [eapply pre_trans; [apply (pre_snoc_cons (key q) child x)|exact A0]|exact P0]. }
      assert (child = true).
      { eapply pre_snoc_inj; [eapply pre_trans; [apply (pre_snoc_cons (key q) child x)|exact A1]|exact P1]. }
      congruence.
  - cbn [snd]. split; [discriminate|].
    assert (D : ~ pre (key p) (key q)) by (rewrite E1, E2; apply pre_fork_not).
    assert (D' : ~ pre (key q) (key p)) by (rewrite E1, E2; apply pre_fork_not').
    intros [X|(e0 & e1 & I0 & I1 & P0 & P1)].
    + exfalso. apply X. apply (fk_notpre W); auto.
    + exfalso. pose proof (Hall _ I0) as A0. apply pre_app in P0.
      destruct (Nat.le_ge_cases (length (key p)) (length (key q))).
      * apply D. eapply pre_comparable; eauto.
      * apply D'. eapply pre_comparable; eauto.
Qed.
End DelErr.

Section TableThm.
Variable W : N.
Hypothesis HW : 0 < W /\ W < 2 ^ 15.
Context {T : Type}.
Variable zeroT : T.
Variable box : T -> option T.
Hypothesis Hbox : forall v, unbox zeroT (box v) = v.
Variable goeq : T -> T -> res bool.
Notation key := (key W).
Notation wf := (wf W).
Notation fk := (fk W).
Notation isbox := (isbox box).
Notation boxed := (boxed isbox).
Notation unbox := (unbox zeroT).
Notation inv := (inv W box).
Notation exec := (exec W zeroT box).
Notation runs := (runs W zeroT box).
Notation sstep := (sstep W).

(* ---- histories ---- *)
Definition Rel (m : smap T) (t : tableX T) : Prop :=
  inv t /\ forall p, wf_prefix W p ->
  fk (key p) (tx_trie t) = match m (pkey W p) with Some (q, v) => Some (q, box v) | None => None end.

Definition decides (t : tableX T) (g : T -> T -> bool) : Prop :=
  forall a b, ceq (tx_eq t) (box a) (box b) = Ok (g a b).

Definition agree (o : op T) (s x : outcome T) : Prop :=
  match o with
  | OpRemove _ => exists b, x = OutBool b /\ (s = OutBool true -> b = true)
  | _ => x = s
  end.

Lemma upd_rel p np v (m : smap T) (t : tableX T) (tr' : trie T) :
  wf_prefix W p -> wf_prefix W np -> Rel m t ->
  (forall k', fk k' tr' = upd (key np) (match v with Some (q, x) => Some (q, box x) | None => None end)
                              (fun k' => fk k' (tx_trie t)) k') ->
  fk (key p) tr' = match sset m (pkey W np) v (pkey W p) with Some (q, v) => Some (q, box v) | None => None end.
Proof.
  intros Hp Hnp (_ & HR) H. rewrite H. unfold upd, sset.
  destruct (keq (key p) (key np)) as [E|E].
  - apply (key_eq_iff W) in E; auto. rewrite (proj2 (eqk_spec _ _) E). auto.
  - destruct (eqk (pkey W p) (pkey W np)) eqn:Q.
    + apply eqk_spec in Q. apply (key_eq_iff W) in Q; auto. congruence.
    + apply HR; auto.
Qed.

Lemma exec_step m t o g : Rel m t -> decides t g -> wf_prefix W (op_prefix o) ->
  exists t' x, exec (Some t) o = Ok (Some t', x) /\ tx_eq t' = tx_eq t /\
    Rel (fst (sstep g m o)) t' /\ agree o (snd (sstep g m o)) x.
Proof.
  intros HR Hd Hp.
  assert (G : forall t' x, exec (Some t) o = Ok (Some t', x) -> inv t').
  { intros t' x E. eapply exec_inv; eauto. apply HR. }
  destruct o as [p v|p v|p v|p v|p]; cbn [op_prefix] in Hp;
    pose proof (proj2 HR _ Hp) as Ek; destruct HR as ((Hw & Hb) & HR'); assert (HR : Rel m t) by (split; [split|]; auto);
    cbn [Hist.exec TableSpec.sstep op_prefix] in *.
  - unfold tbl_Insert, Insert in *.
    pose proof (insert_spec W HW (tx_trie t) [] (prefixI p) (box v)
       {| o_insert := true; o_update := false; o_flatten := false; o_eq := nil_eq |} Hw) as R.
    rewrite the_prefix_eq in *. specialize (R Hp (pre_nil _) eq_refl). unfold insert_result in R. rewrite Ek in R.
    destruct (m (pkey W (the_prefix p))) as [[q v0]|]; cbn [o_update o_insert] in R.
    + rewrite R in *. cbn [bind] in *. eexists _, _. split; [reflexivity|]. split; auto. split; cbn; auto.
    + destruct R as (t' & R & R2 & R3 & R4). rewrite R in *. cbn [bind] in *.
      eexists _, _. split; [reflexivity|]. split; auto. split; [|reflexivity].
      split; [eapply G; reflexivity|]. intros p' Hp'. cbn [fst tx_trie set_trie].
      eapply (upd_rel p' (the_prefix p) (Some (the_prefix p, v))); eauto.
  - unfold tbl_Update, Update in *.
    pose proof (insert_spec W HW (tx_trie t) [] (prefixI p) (box v)
       {| o_insert := false; o_update := true; o_flatten := false; o_eq := ceq (tx_eq t) |} Hw) as R.
    rewrite the_prefix_eq in *. specialize (R Hp (pre_nil _) eq_refl). unfold insert_result in R. rewrite Ek in R.
    destruct (m (pkey W (the_prefix p))) as [[q v0]|]; cbn [o_update o_insert o_eq] in R.
    + rewrite Hd in R. destruct R as (t' & R & R2 & R3 & R4). rewrite R in *. cbn [bind] in *.
      eexists _, _. split; [reflexivity|]. split; auto. split; [|reflexivity].
      split; [eapply G; reflexivity|]. intros p' Hp'. cbn [fst tx_trie set_trie].
      eapply (upd_rel p' (the_prefix p) (Some (the_prefix p, if g v0 v then v0 else v))); eauto.
      intros k'. rewrite R4. destruct (g v0 v); auto.
    + rewrite R in *. cbn [bind] in *. eexists _, _. split; [reflexivity|]. split; auto. split; cbn; auto.
  - unfold tbl_InsertOrUpdate, InsertOrUpdate in *.
    pose proof (insert_spec W HW (tx_trie t) [] (prefixI p) (box v)
       {| o_insert := true; o_update := true; o_flatten := false; o_eq := ceq (tx_eq t) |} Hw) as R.
    rewrite the_prefix_eq in *. specialize (R Hp (pre_nil _) eq_refl). unfold insert_result in R. rewrite Ek in R.
    destruct (m (pkey W (the_prefix p))) as [[q v0]|]; cbn [o_update o_insert o_eq] in R.
    + rewrite Hd in R. destruct R as (t' & R & R2 & R3 & R4). rewrite R in *. cbn [bind] in *.
      eexists _, _. split; [reflexivity|]. split; auto. split; [|reflexivity].
      split; [eapply G; reflexivity|]. intros p' Hp'. cbn [fst tx_trie set_trie].
      eapply (upd_rel p' (the_prefix p) (Some (the_prefix p, if g v0 v then v0 else v))); eauto.
      intros k'. rewrite R4. destruct (g v0 v); auto.
    + destruct R as (t' & R & R2 & R3 & R4). rewrite R in *. cbn [bind] in *.
      eexists _, _. split; [reflexivity|]. split; auto. split; [|reflexivity].
      split; [eapply G; reflexivity|]. intros p' Hp'. cbn [fst tx_trie set_trie].
      eapply (upd_rel p' (the_prefix p) (Some (the_prefix p, v))); eauto.
  - unfold tbl_GetOrInsert in *.
    pose proof (GetOrInsert_spec W HW (tx_trie t) [] (prefixI p) (box v) Hw) as R.
    rewrite the_prefix_eq in *. specialize (R Hp (pre_nil _)). rewrite Ek in R.
    destruct (m (pkey W (the_prefix p))) as [[q v0]|].
    + rewrite R in *. cbn [bind] in *. eexists _, _. split; [reflexivity|]. split; auto.
      cbn. split; [|rewrite Hbox; auto]. destruct t; exact HR.
    + destruct R as (t' & R & R2 & R3 & R4). rewrite R in *. cbn [bind] in *.
      eexists _, _. split; [reflexivity|]. split; auto. split; [|cbn; rewrite Hbox; reflexivity].
      split; [eapply G; reflexivity|]. intros p' Hp'. cbn [fst tx_trie set_trie].
      eapply (upd_rel p' (the_prefix p) (Some (the_prefix p, v))); eauto.
  - unfold tbl_Remove in *.
    pose proof (del_spec W HW (tx_trie t) [] (prefixI p) Hw) as R.
    rewrite the_prefix_eq in *. specialize (R Hp (pre_nil _)). 
    destruct (del W (tx_trie t) (the_prefix p)) as [t' err]. destruct R as (R1 & R2 & R3 & R4). cbn [bind] in *.
    eexists _, _. split; [reflexivity|]. split; auto. split.
    + split; [eapply G; reflexivity|]. intros p' Hp'. cbn [fst tx_trie set_trie].
      eapply (upd_rel p' (the_prefix p) None); eauto.
    + cbn. eexists. split; [reflexivity|]. rewrite Ek in R3.
      destruct (m (pkey W (the_prefix p))) as [[q v0]|]; [|discriminate].
      intros _. rewrite R3; auto. discriminate.
Qed.

Lemma runs_step g : forall os m t, Rel m t -> decides t g -> Forall (fun o => wf_prefix W (op_prefix o)) os ->
  exists t' outs, runs (Some t) os = Ok (Some t', outs) /\ tx_eq t' = tx_eq t /\
    Rel (fst (sruns W g m os)) t' /\
    Forall2 (fun '(o, s) x => agree o s x) (combine os (snd (sruns W g m os))) outs.
Proof.
  induction os as [|o os IH]; intros m t HR Hd Hos.
  { eexists _, _. split; [reflexivity|]. cbn. auto. }
  inversion Hos as [|? ? Ho Hos']; subst.
  destruct (exec_step m t o g HR Hd Ho) as (t1 & x & E & Eeq & R1 & A1).
  cbn [Hist.runs TableSpec.sruns]. rewrite E. cbn [bind].
  destruct (sstep g m o) as [m1 s1]. cbn [fst snd] in *.
  assert (Hd1 : decides t1 g) by (unfold decides; rewrite Eeq; auto).
  destruct (IH m1 t1 R1 Hd1 Hos') as (t2 & xs & E2 & Eeq2 & R2 & A2). rewrite E2. cbn [bind].
  destruct (sruns W g m1 os) as [m2 ss]. cbn [fst snd] in *.
  eexists _, _. split; [reflexivity|]. split; [congruence|]. split; auto.
  cbn. constructor; auto.
Qed.

Lemma Rel_empty t : tx_trie t = Nil -> Rel sempty t.
Proof. intros E. split; [split; rewrite E; exact I|]. intros p _. rewrite E. reflexivity. Qed.

Lemma Rel_Get m t q : Rel m t -> wf_prefix W q ->
  Get W zeroT t (Some q) = match m (pkey W q) with Some (_, v) => (v, true) | None => (zeroT, false) end.
Proof.
  intros ((Hw & _) & HR) Hq. rewrite (Get_fk W HW); auto. rewrite HR by auto.
  destruct (m (pkey W q)) as [[q' v]|]; auto. rewrite Hbox. auto.
Qed.

End TableThm.
