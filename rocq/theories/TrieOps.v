(* TrieOps.v - insert, del, GetOrInsert, Match against entries; proofs. *)
From Verif Require Export WF.
From Coq Require Import Arith Sorted ZifyBool ZifyNat ZifyN.

Section Ops.
Variable W : N.
Hypothesis HW : 0 < W /\ W < 2 ^ 15.
Context {T : Type}.
Notation key := (key W).
Notation wf := (wf W).
Notation fk := (fk W).
Implicit Types t l r : trie T.

Definition upd (k : list bool) (v : option (prefix * option T)) (f : list bool -> option (prefix * option T))
  : list bool -> option (prefix * option T) :=
  fun k' => if keq k' k then v else f k'.

Lemma fk_nil k : fk k (@Nil T) = None.
Proof. reflexivity. Qed.

(* replacing one child *)
Lemma wf_setkid k p d s h a l r c x :
  wf k (Node p d s h a l r) -> wf (key p ++ [c]) x -> (a = false -> x <> Nil) ->
  wf k (mk p d a (setl c x l) (setr c x r)).
Proof.
  intros Hw Hx Hn. destruct (wf_set W _ _ _ _ _ _ _ _ c x Hw Hx) as [A B].
  destruct Hw as (Hp & Hk & _ & _ & Ha & _). apply wf_mk; try assumption.
  intros E. destruct (Ha E). destruct c; simpl; auto.
Qed.

Lemma fk_setkid k p d s h a l r c x kk v :
  wf k (Node p d s h a l r) -> wf (key p ++ [c]) x -> pre (key p ++ [c]) kk ->
  (forall k', fk k' x = upd kk v (fun k' => fk k' (kid c l r)) k') ->
  forall k', fk k' (mk p d a (setl c x l) (setr c x r)) = upd kk v (fun k' => fk k' (Node p d s h a l r)) k'.
Proof.
  intros Hw Hx Hkk E k'.
  destruct (wf_set W _ _ _ _ _ _ _ _ c x Hw Hx) as [A B].
  pose proof Hw as (Hp & Hk & _ & _ & Ha & Hl & Hr).
  unfold upd, mk. destruct (pre_dec (key p) k') as [[u ->]|Hn].
  - destruct u as [|b u].
    + rewrite app_nil_r. rewrite !fk_here by assumption.
      destruct (keq (key p) kk) as [<-|_]; [|reflexivity].
      exfalso. exact (pre_snoc_not _ _ Hkk).
    + rewrite !fk_below by assumption.
      destruct (Bool.bool_dec b c) as [->|Hbc].
      * replace (kid c (setl c x l) (setr c x r)) with x by (destruct c; reflexivity).
        rewrite E. reflexivity.
      * replace (kid b (setl c x l) (setr c x r)) with (kid b l r) by (destruct b, c; simpl; congruence).
        destruct (keq (key p ++ b :: u) kk) as [<-|_]; [|reflexivity].
        exfalso. apply Hbc. eapply pre_snoc_inj; [apply pre_snoc_cons|exact Hkk].
  - rewrite !fk_notpre by assumption.
    destruct (keq k' kk) as [->|_]; [|reflexivity].
    exfalso. apply Hn. eapply pre_app. exact Hkk.
Qed.

Lemma mk_set_same k p d s h a l r c : wf k (Node p d s h a l r) ->
  mk p d a (setl c (kid c l r) l) (setr c (kid c l r) r) = Node p d s h a l r.
Proof. intros Hw. rewrite (wf_node W _ _ _ _ _ _ _ _ Hw). destruct c; reflexivity. Qed.

(* ---- insert ---- *)
Definition insert_result (k : list bool) t (np : prefix) (nd : option T) (o : insertOpts)
           (r : res (trie T * option terr)) : Prop :=
  match fk (key np) t with
  | Some (_, d0) =>
    if o_update o then
      match o_eq o d0 nd with
      | Ok keep => exists t', r = Ok (t', None) /\ wf k t' /\ t' <> Nil /\
          forall k', fk k' t' = upd (key np) (Some (np, if keep then d0 else nd)) (fun k' => fk k' t) k'
      | Panic => r = Panic
      | OutOfFuel => r = OutOfFuel
      end
    else r = Ok (t, Some ErrExists)
  | None =>
    if o_insert o then
      exists t', r = Ok (t', None) /\ wf k t' /\ t' <> Nil /\
          forall k', fk k' t' = upd (key np) (Some (np, nd)) (fun k' => fk k' t) k'
    else r = Ok (t, Some ErrNoKeyToUpdate)
  end.

Lemma insert_spec t : forall k np nd o,
  wf k t -> wf_prefix W np -> pre k (key np) -> o_flatten o = false ->
  insert_result k t np nd o (insert W t np nd o).
Proof.
  induction t as [|p d s h a l IHl r IHr]; intros k np nd o Hw Hnp Hk Hfl.
  - unfold insert_result. rewrite fk_nil. simpl. unfold insert_nil.
    destruct (o_insert o); simpl; [|reflexivity].
    eexists. split; [reflexivity|]. split; [|split; [discriminate|]].
    + apply wf_mk; simpl; auto. discriminate.
    + intros k'. rewrite fk_mk. unfold upd.
      destruct (keq (key np) k') as [E|E], (keq k' (key np)) as [E'|E']; try reflexivity; congruence.
  - pose proof Hw as (Hp & Hkp & Hs & Hh & Ha & Hl & Hr).
    cbn [insert]. pose proof (compare_spec W HW p np Hp Hnp) as C.
    remember (compare W p np) as cr eqn:Ecr. destruct C as [E|c x E|c x E|q c x y rev E1 E2 Erev].
    + (* same *)
      unfold insert_result. rewrite <- E, fk_here by assumption.
      destruct a; cbn [andb negb].
      * destruct (o_update o); cbn [negb]; [|reflexivity]. rewrite Hfl.
        destruct (o_eq o d nd) as [keep| |]; try reflexivity. cbn [bind].
        eexists. split; [reflexivity|]. split; [|split; [discriminate|]].
        -- apply wf_mk; try assumption; try (rewrite <- E; assumption). 
        -- intros k'. unfold upd. rewrite fk_mk, fk_node. rewrite <- E.
           destruct (keq (key p) k') as [E'|E'], (keq k' (key p)); congruence.
      * destruct (o_insert o); cbn [negb]; [|reflexivity]. rewrite Hfl. cbn [bind].
        eexists. split; [reflexivity|]. split; [|split; [discriminate|]].
        -- apply wf_mk; try assumption; try (rewrite <- E; assumption). discriminate.
        -- intros k'. unfold upd. rewrite fk_mk, fk_node. rewrite <- E.
           destruct (keq (key p) k') as [E'|E'], (keq k' (key p)); congruence.
    + (* contains *)
      rewrite Hfl. cbn [andb]. unfold mk_opt.
      pose proof (wf_kid W _ _ _ _ _ _ _ _ c Hw) as Hkid.
      assert (pre (key p ++ [c]) (key np)) as Hkc by (rewrite E; apply pre_snoc_cons).
      assert (insert_result (key p ++ [c]) (kid c l r) np nd o (insert W (kid c l r) np nd o)) as IH
        by (destruct c; [apply IHr|apply IHl]; assumption).
      unfold insert_result in IH |- *.
      assert (fk (key np) (Node p d s h a l r) = fk (key np) (kid c l r)) as EL
        by (rewrite E; apply fk_below; assumption).
      rewrite EL.
      destruct (fk (key np) (kid c l r)) as [[p0 d0]|] eqn:Ef.
      * destruct (o_update o); [|rewrite IH; reflexivity].
        destruct (o_eq o d0 nd) as [keep| |]; try (rewrite IH; reflexivity).
        destruct IH as (t' & -> & Ht' & Hn' & HL). cbn [bind].
        eexists. split; [reflexivity|]. split; [|split; [discriminate|]].
        -- apply (wf_setkid _ _ _ _ _ _ _ _ _ _ Hw Ht'). auto.
        -- apply (fk_setkid _ _ _ _ _ _ _ _ _ _ _ _ Hw Ht' Hkc HL).
      * destruct (o_insert o); [|rewrite IH; reflexivity].
        destruct IH as (t' & -> & Ht' & Hn' & HL). cbn [bind].
        eexists. split; [reflexivity|]. split; [|split; [discriminate|]].
        -- apply (wf_setkid _ _ _ _ _ _ _ _ _ _ Hw Ht'). auto.
        -- apply (fk_setkid _ _ _ _ _ _ _ _ _ _ _ _ Hw Ht' Hkc HL).
    + (* is contained *)
      unfold insert_result.
      assert (~ pre (key p) (key np)) as Hn.
      { rewrite E. intros H. apply pre_length in H. rewrite app_length in H. simpl in H. lia. }
      rewrite fk_notpre by assumption.
      destruct (o_insert o); cbn [negb]; [|reflexivity].
      unfold mk_opt. rewrite Hfl. cbn [bind].
      assert (wf (key np ++ [c]) (Node p d s h a l r)) as Hme.
      { split; [exact Hp|]. split; [rewrite E; apply pre_snoc_cons|]. auto. }
      assert (wf (key np ++ [false]) (setl c (Node p d s h a l r) Nil) /\
              wf (key np ++ [true]) (setr c (Node p d s h a l r) Nil)) as [A B].
      { destruct c; split; first [exact I|exact Hme]. }
      eexists. split; [reflexivity|]. split; [|split; [discriminate|]].
      * apply wf_mk; try assumption. discriminate.
      * intros k'. rewrite fk_mk. unfold upd.
        destruct (keq (key np) k') as [Ek|Ek], (keq k' (key np)) as [Ek'|Ek']; try congruence.
        destruct c; unfold setl, setr; rewrite fk_nil; [reflexivity|].
        destruct (fk k' (Node p d s h a l r)); reflexivity.
    + (* disjoint *)
      unfold insert_result.
      assert (~ pre (key p) (key np)) as Hn.
      { rewrite E1, E2; apply pre_fork_not. }
      rewrite fk_notpre by assumption. unfold insert_nil.
      destruct (o_insert o); cbn [negb]; [|reflexivity].
      assert (pre k q) as Hkq.
      { apply (pre_fork k q c x y); [rewrite <- E1|rewrite <- E2]; assumption. }
      assert (nlen q <= plen p) as Hq.
      { rewrite <- (nlen_key W p), E1, nlen_app. lia. }
      destruct (join_prefix_spec W HW p (nlen q) Hp Hq) as (Hj1 & Hj2 & Hj3 & _).
      rewrite E1 in Hj3. unfold nlen in Hj3 at 2. rewrite Nat2N.id in Hj3.
      rewrite firstn_app, Nat.sub_diag, firstn_all in Hj3. simpl in Hj3. rewrite app_nil_r in Hj3.
      unfold mk_opt. rewrite Hfl.
      assert (xorb (if rev then c else negb c) rev = negb c) as -> by (destruct rev, c; reflexivity).
      assert (wf (q ++ [c]) (Node p d s h a l r)) as Hme.
      { split; [exact Hp|]. split; [rewrite E1; apply pre_snoc_cons|]. auto. }
      assert (wf (q ++ [negb c]) (mk np nd true Nil Nil)) as Hnew.
      { apply wf_mk; simpl; auto; [rewrite E2; apply pre_snoc_cons|discriminate]. }
      assert (forall k', fk k' (mk np nd true Nil Nil) = if keq k' (key np) then Some (np, nd) else None) as Fnew.
      { intros k'. rewrite fk_mk. destruct (keq (key np) k'), (keq k' (key np)); try reflexivity; congruence. }
      destruct c; cbn [negb bind] in *.
      * eexists. split; [reflexivity|]. split; [|split; [discriminate|]].
        -- apply wf_mk; rewrite ?Hj3; try assumption. intros _; split; discriminate.
        -- intros k'. rewrite fk_mk, Fnew. unfold upd. destruct (keq k' (key np)); reflexivity.
      * eexists. split; [reflexivity|]. split; [|split; [discriminate|]].
        -- apply wf_mk; rewrite ?Hj3; try assumption. intros _; split; discriminate.
        -- intros k'. rewrite fk_mk, Fnew. unfold upd. destruct (keq k' (key np)) as [->|].
           ++ rewrite fk_notpre by assumption. reflexivity.
           ++ destruct (fk k' (Node p d s h a l r)); reflexivity.
Qed.

(* ---- GetOrInsert ---- *)
Lemma goi_insert_spec t k np nd :
  wf k t -> wf_prefix W np -> pre k (key np) -> fk (key np) t = None ->
  exists t', goi_insert W t np nd = Ok (t', nd) /\ wf k t' /\ t' <> Nil /\
    forall k', fk k' t' = upd (key np) (Some (np, nd)) (fun k' => fk k' t) k'.
Proof.
  intros Hw Hnp Hk Hn. unfold goi_insert, Insert.
  pose proof (insert_spec t k np nd {| o_insert := true; o_update := false; o_flatten := false; o_eq := nil_eq |}
                          Hw Hnp Hk eq_refl) as H.
  unfold insert_result in H. rewrite Hn in H. cbn [o_insert] in H.
  destruct H as (t' & -> & H). exists t'. split; [reflexivity|]. exact H.
Qed.

Lemma GetOrInsert_spec t : forall k np nd,
  wf k t -> wf_prefix W np -> pre k (key np) ->
  match fk (key np) t with
  | Some (_, d0) => GetOrInsert W t np nd = Ok (t, d0)
  | None => exists t', GetOrInsert W t np nd = Ok (t', nd) /\ wf k t' /\ t' <> Nil /\
      forall k', fk k' t' = upd (key np) (Some (np, nd)) (fun k' => fk k' t) k'
  end.
Proof.
  induction t as [|p d s h a l IHl r IHr]; intros k np nd Hw Hnp Hk.
  - rewrite fk_nil. cbn [GetOrInsert]. apply (goi_insert_spec Nil k); auto.
  - pose proof Hw as (Hp & Hkp & Hs & Hh & Ha & Hl & Hr). cbn [GetOrInsert].
    destruct (N.ltb_spec (plen np) (plen p)) as [HL|HL].
    + assert (fk (key np) (Node p d s h a l r) = None) as F.
      { apply fk_notpre; try assumption. intros H. apply pre_length in H. rewrite !key_length in H. lia. }
      rewrite F. apply goi_insert_spec; assumption.
    + destruct (contains_spec W HW p np Hp Hnp HL) as [[E ->]|[(c & x & E & ->)|(q & c & rs & rl & E1 & E2 & ->)]];
        cbn [negb].
      * rewrite <- E, fk_here by assumption. destruct a; cbn [negb]; [reflexivity|].
        rewrite E. apply goi_insert_spec; try assumption. rewrite <- E, fk_here by assumption. reflexivity.
      * pose proof (wf_kid W _ _ _ _ _ _ _ _ c Hw) as Hkid.
        assert (pre (key p ++ [c]) (key np)) as Hkc by (rewrite E; apply pre_snoc_cons).
        assert (fk (key np) (Node p d s h a l r) = fk (key np) (kid c l r)) as EL
          by (rewrite E; apply fk_below; assumption).
        rewrite EL.
        assert (match fk (key np) (kid c l r) with
          | Some (_, d0) => GetOrInsert W (kid c l r) np nd = Ok (kid c l r, d0)
          | None => exists t', GetOrInsert W (kid c l r) np nd = Ok (t', nd) /\ wf (key p ++ [c]) t' /\ t' <> Nil /\
              forall k', fk k' t' = upd (key np) (Some (np, nd)) (fun k' => fk k' (kid c l r)) k'
          end) as IH by (destruct c; [apply IHr|apply IHl]; assumption).
        destruct (fk (key np) (kid c l r)) as [[p0 d0]|].
        -- rewrite IH. cbn [bind]. rewrite (mk_set_same _ _ _ _ _ _ _ _ _ Hw). reflexivity.
        -- destruct IH as (t' & -> & Ht' & Hn' & HF). cbn [bind].
           eexists. split; [reflexivity|]. split; [|split; [discriminate|]].
           ++ apply (wf_setkid _ _ _ _ _ _ _ _ _ _ Hw Ht'). auto.
           ++ apply (fk_setkid _ _ _ _ _ _ _ _ _ _ _ _ Hw Ht' Hkc HF).
      * assert (fk (key np) (Node p d s h a l r) = None) as F.
        { apply fk_notpre; try assumption. rewrite E1, E2; apply pre_fork_not'. }
        rewrite F. apply goi_insert_spec; assumption.
Qed.

(* ---- Match ---- *)
Lemma entries_node p (d : option T) s h a l r :
  entries (Node p d s h a l r) = (if a then [(p, d)] else []) ++ entries l ++ entries r.
Proof. reflexivity. Qed.

Lemma Match_spec t : forall k q, wf k t -> wf_prefix W q ->
  match Match W t q with
  | Some e => In e (entries t) /\ pre (ekey W e) (key q) /\
      forall e', In e' (entries t) -> pre (ekey W e') (key q) -> pre (ekey W e') (ekey W e)
  | None => forall e', In e' (entries t) -> ~ pre (ekey W e') (key q)
  end.
Proof.
  induction t as [|p d s h a l IHl r IHr]; intros k q Hw Hq.
  - simpl. intros e' [].
  - pose proof Hw as (Hp & Hkp & Hs & Hh & Ha & Hl & Hr).
    assert (~ pre (key p) (key q) -> forall e', In e' (entries (Node p d s h a l r)) -> ~ pre (ekey W e') (key q)) as Out.
    { intros Hn e' He' H.
      assert (wf (key p) (Node p d s h a l r)) as Hw'.
      { split; [exact Hp|]. split; [apply pre_refl|]. auto. }
      pose proof (entries_wf W _ _ Hw') as F. rewrite Forall_forall in F. destruct (F _ He') as [_ F'].
      apply Hn. eapply pre_trans; eassumption. }
    cbn [Match].
    destruct (N.ltb_spec (plen q) (plen p)) as [HL|HL].
    { apply Out. intros H. apply pre_length in H. rewrite !key_length in H. lia. }
    destruct (contains_spec W HW p q Hp Hq HL) as [[E ->]|[(c & x & E & ->)|(u & c & rs & rl & E1 & E2 & ->)]];
      cbn [negb].
    + assert (forall e', In e' (entries l ++ entries r) -> ~ pre (ekey W e') (key q)) as Hno.
      { intros e' He' H. apply pre_length in H. rewrite <- E in H.
        apply in_app_or in He'.
        pose proof (entries_wf W _ _ Hl) as Fl. pose proof (entries_wf W _ _ Hr) as Fr.
        rewrite Forall_forall in Fl, Fr.
        destruct He' as [He'|He']; [destruct (Fl _ He') as [_ F']|destruct (Fr _ He') as [_ F']];
          apply pre_length in F'; rewrite app_length in F'; simpl in F'; lia. }
      rewrite entries_node. destruct a; cbn [negb].
      * split; [left; reflexivity|]. split; [unfold ekey; simpl; rewrite E; apply pre_refl|].
        intros e' [<-|He'] H'; [apply pre_refl|]. exfalso. exact (Hno _ He' H').
      * exact Hno.
    + assert (match Match W (kid c l r) q with
        | Some e => In e (entries (kid c l r)) /\ pre (ekey W e) (key q) /\
            forall e', In e' (entries (kid c l r)) -> pre (ekey W e') (key q) -> pre (ekey W e') (ekey W e)
        | None => forall e', In e' (entries (kid c l r)) -> ~ pre (ekey W e') (key q)
        end) as IH by (destruct c; [eapply IHr|eapply IHl]; eassumption).
      assert (forall e', In e' (entries (kid (negb c) l r)) -> ~ pre (ekey W e') (key q)) as Hoth.
      { intros e' He' H. pose proof (wf_kid W _ _ _ _ _ _ _ _ (negb c) Hw) as Hk2.
        pose proof (entries_wf W _ _ Hk2) as F. rewrite Forall_forall in F. destruct (F _ He') as [_ F'].
        apply (pre_nsnoc (key p) c x). rewrite <- E. eapply pre_trans; eassumption. }
      assert (forall e', In e' (entries (Node p d s h a l r)) ->
         (a = true /\ e' = (p, d)) \/ In e' (entries (kid c l r)) \/ In e' (entries (kid (negb c) l r))) as Hin.
      { intros e' He'. rewrite entries_node in He'. apply in_app_or in He'.
        destruct He' as [He'|He'].
        - destruct a; [|contradiction]. destruct He' as [<-|[]]. auto.
        - apply in_app_or in He'. destruct c; simpl; tauto. }
      assert (forall e', In e' (entries (kid c l r)) -> In e' (entries (Node p d s h a l r))) as Hin'.
      { intros e' He'. rewrite entries_node. apply in_or_app. right. apply in_or_app. destruct c; simpl in He'; tauto. }
      destruct (Match W (kid c l r) q) as [e|] eqn:EM.
      * destruct IH as (I1 & I2 & I3). split; [apply Hin'; exact I1|]. split; [exact I2|].
        intros e' He' H'. destruct (Hin _ He') as [[_ ->]|[H|H]].
        -- unfold ekey at 1. simpl.
           pose proof (wf_kid W _ _ _ _ _ _ _ _ c Hw) as Hk2.
           pose proof (entries_wf W _ _ Hk2) as F. rewrite Forall_forall in F. destruct (F _ I1) as [_ F'].
           eapply pre_app. exact F'.
        -- apply I3; assumption.
        -- exfalso. exact (Hoth _ H H').
      * destruct a; cbn [negb].
        -- split; [left; reflexivity|]. split; [unfold ekey; simpl; rewrite E; apply pre_app_r|].
           intros e' He' H'. destruct (Hin _ He') as [[_ ->]|[H|H]].
           ++ apply pre_refl.
           ++ exfalso. exact (IH _ H H').
           ++ exfalso. exact (Hoth _ H H').
        -- intros e' He' H'. destruct (Hin _ He') as [[A _]|[H|H]]; [discriminate| |].
           ++ exact (IH _ H H').
           ++ exact (Hoth _ H H').
    + apply Out. rewrite E1, E2; apply pre_fork_not'.
Qed.

(* Match at the exact key is the lookup *)
Lemma Match_exact t k q e : wf k t -> wf_prefix W q ->
  (Match W t q = Some e /\ plen (fst e) = plen q) <-> fk (key q) t = Some e.
Proof.
  intros Hw Hq. pose proof (Match_spec t k q Hw Hq) as M. split.
  - intros [E HL]. rewrite E in M. destruct M as (M1 & M2 & _).
    apply (fk_iff W k); [exact Hw|]. split; [exact M1|]. apply pre_eq_length; [exact M2|].
    unfold ekey. rewrite !key_length, HL. reflexivity.
  - intros F. apply fk_In in F. destruct F as [F1 F2].
    destruct (Match W t q) as [e'|].
    + destruct M as (M1 & M2 & M3).
      assert (pre (ekey W e) (key q)) as P by (rewrite F2; apply pre_refl).
      specialize (M3 _ F1 P). rewrite F2 in M3.
      assert (ekey W e' = key q) as EK by (symmetry; apply pre_antisym; assumption).
      assert (Some e' = Some e) as EE.
      { rewrite <- (In_fk W _ _ _ Hw F1), <- (In_fk W _ _ _ Hw M1), F2, EK. reflexivity. }
      injection EE as ->. split; [reflexivity|]. rewrite <- !nlen_key with (W := W).
      unfold ekey in EK. rewrite EK. reflexivity.
    + exfalso. apply (M _ F1). rewrite F2. apply pre_refl.
Qed.

(* ---- Delete ---- *)
Lemma del_spec t : forall k q, wf k t -> wf_prefix W q -> pre k (key q) ->
  let (t', err) := del W t q in
  wf k t' /\ (forall k', fk k' t' = upd (key q) None (fun k' => fk k' t) k') /\
  (fk (key q) t <> None -> err = None) /\ (err <> None -> t' = t).
Proof.
  induction t as [|p d s h a l IHl r IHr]; intros k q Hw Hq Hk.
  - cbn [del]. split; [exact I|]. split; [|split; [intros H; exfalso; apply H; reflexivity|reflexivity]].
    intros k'. unfold upd. rewrite fk_nil. destruct (keq k' (key q)); reflexivity.
  - pose proof Hw as (Hp & Hkp & Hs & Hh & Ha & Hl & Hr). cbn [del].
    pose proof (compare_spec W HW p q Hp Hq) as C.
    remember (compare W p q) as cr eqn:Ecr. destruct C as [E|c x E|c x E|u c x y rev E1 E2 Erev].
    + (* same *)
      assert (forall t', (forall k', fk k' t' = match fk k' l with Some e => Some e | None => fk k' r end) ->
         forall k', fk k' t' = upd (key q) None (fun k' => fk k' (Node p d s h a l r)) k') as Hup.
      { intros t' H k'. unfold upd. rewrite H, fk_node. rewrite <- E.
        destruct (keq k' (key p)) as [->|Hne].
        - rewrite (fk_out W _ l _ Hl), (fk_out W _ r _ Hr) by apply pre_snoc_not. reflexivity.
        - destruct (keq (key p) k'); [congruence|]. destruct a; reflexivity. }
      destruct l as [|lp ld ls lh la ll lr] eqn:El; cbn [is_nil].
      * split; [eapply wf_weaken; [|exact Hr]; eapply pre_trans; [exact Hkp|apply pre_app_r]|].
        split; [apply Hup; reflexivity|]. split; [reflexivity|congruence].
      * rewrite <- El in *. destruct r as [|rp rd rs rh ra rl rr] eqn:Er; cbn [is_nil].
        -- split; [eapply wf_weaken; [|exact Hl]; eapply pre_trans; [exact Hkp|apply pre_app_r]|].
           split; [|split; [reflexivity|congruence]].
           apply Hup. intros k'. rewrite fk_nil. destruct (fk k' l); reflexivity.
        -- rewrite <- Er in *. split; [|split; [apply Hup; intros k'; rewrite fk_mk; reflexivity|split; [reflexivity|congruence]]].
           apply wf_mk; try assumption. intros _; subst; split; discriminate.
    + (* contains *)
      pose proof (wf_kid W _ _ _ _ _ _ _ _ c Hw) as Hkid.
      assert (pre (key p ++ [c]) (key q)) as Hkc by (rewrite E; apply pre_snoc_cons).
      assert (let (t', err) := del W (kid c l r) q in
        wf (key p ++ [c]) t' /\ (forall k', fk k' t' = upd (key q) None (fun k' => fk k' (kid c l r)) k') /\
        (fk (key q) (kid c l r) <> None -> err = None) /\ (err <> None -> t' = kid c l r)) as IH
        by (destruct c; [apply IHr|apply IHl]; assumption).
      destruct (del W (kid c l r) q) as [t' err]. destruct IH as (I1 & I2 & I3 & I4).
      assert (fk (key q) (Node p d s h a l r) = fk (key q) (kid c l r)) as EL
        by (rewrite E; apply fk_below; assumption).
      destruct err as [e|].
      * split; [exact Hw|]. split; [|split; [rewrite EL; intros H; specialize (I3 H); discriminate|reflexivity]].
        intros k'. unfold upd. destruct (keq k' (key q)) as [->|]; [|reflexivity].
        rewrite EL. destruct (fk (key q) (kid c l r)) eqn:EF; [|reflexivity].
        assert (Some e = None) by (apply I3; discriminate). discriminate.
      * destruct (is_nil t' && negb a) eqn:EN.
        -- apply andb_prop in EN. destruct EN as [EN1 EN2]. destruct t'; [|discriminate].
           destruct a; [discriminate|]. destruct (Ha eq_refl) as [HA HB].
           pose proof (wf_kid W _ _ _ _ _ _ _ _ (negb c) Hw) as Hoth.
           split; [eapply wf_weaken; [|exact Hoth]; eapply pre_trans; [exact Hkp|apply pre_app_r]|].
           split; [|split; [reflexivity|congruence]].
           intros k'. unfold upd. specialize (I2 k'). unfold upd in I2. rewrite fk_nil in I2.
           rewrite fk_node. destruct (keq k' (key q)) as [->|Hne].
           ++ apply (fk_out W _ _ _ Hoth). rewrite E. apply pre_nsnoc.
           ++ destruct c; simpl in I2 |- *; rewrite <- I2; [|reflexivity].
              destruct (fk k' l); reflexivity.
        -- assert (a = false -> t' <> Nil) as Hnn.
           { intros -> ->. discriminate. }
           split; [apply (wf_setkid _ _ _ _ _ _ _ _ _ _ Hw I1 Hnn)|].
           split; [apply (fk_setkid _ _ _ _ _ _ _ _ _ _ _ _ Hw I1 Hkc I2)|].
           split; [reflexivity|congruence].
    + (* is contained *)
      assert (~ pre (key p) (key q)) as Hn.
      { rewrite E. intros H. apply pre_length in H. rewrite app_length in H. simpl in H. lia. }
      assert (fk (key q) (Node p d s h a l r) = None) as F by (apply fk_notpre; assumption).
      split; [exact Hw|]. split; [|split; [rewrite F; congruence|reflexivity]].
      intros k'. unfold upd. destruct (keq k' (key q)) as [->|]; [exact F|reflexivity].
    + assert (~ pre (key p) (key q)) as Hn.
      { rewrite E1, E2; apply pre_fork_not. }
      assert (fk (key q) (Node p d s h a l r) = None) as F by (apply fk_notpre; assumption).
      split; [exact Hw|]. split; [|split; [rewrite F; congruence|reflexivity]].
      intros k'. unfold upd. destruct (keq k' (key q)) as [->|]; [exact F|reflexivity].
Qed.
End Ops.
