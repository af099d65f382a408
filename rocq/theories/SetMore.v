(* SetMore.v - canonical form of set tries, and its consequences; proofs. *)
From Verif Require Export SetProof SetSpec.
From Coq Require Import Arith Sorted Permutation ZifyBool ZifyNat ZifyN.

Section SetMore.
Variable W : N.
Hypothesis HW : 0 < W /\ W < 2 ^ 15.
Notation key := (key W).
Notation wf := (wf W).
Notation swf := (swf W).
Notation den := (den W).
Notation WN := (N.to_nat W).
Implicit Types t l r me other : snode.

Lemma stored_entries t : stored t = map fst (entries t).
Proof. induction t as [|p d s h a l IHl r IHr]; cbn; auto. rewrite IHl, IHr. destruct a; cbn; rewrite ?map_app; reflexivity. Qed.

Lemma den_stored t x : den t x <-> exists p, In p (stored t) /\ pre (key p) x.
Proof.
  induction t as [|p d s h a l IHl r IHr]; cbn [SetProof.den stored].
  - split; [intros []|intros (p & [] & _)].
  - rewrite IHl, IHr. split.
    + intros [[-> H]|[(q & I & H)|(q & I & H)]].
      * exists p. split; [left; reflexivity|exact H].
      * exists q. split; [|exact H]. apply in_or_app. right. apply in_or_app. auto.
      * exists q. split; [|exact H]. apply in_or_app. right. apply in_or_app. auto.
    + intros (q & I & H). apply in_app_or in I. destruct I as [I|I].
      * destruct a; [|contradiction]. destruct I as [<-|[]]. auto.
      * right. apply in_app_or in I. destruct I as [I|I]; [left|right]; exists q; auto.
Qed.

Lemma stored_wf k t p : wf k t -> In p (stored t) -> wf_prefix W p /\ pre k (key p).
Proof.
  intros Hw I. rewrite stored_entries in I. apply in_map_iff in I. destruct I as (e & <- & I).
  apply entries_wf in Hw. rewrite Forall_forall in Hw. exact (Hw e I).
Qed.

Lemma mem_den k t a : wf k t -> a < 2 ^ W -> mem W t a <-> den t (full W a).
Proof.
  intros Hw Ha. rewrite den_stored. unfold mem. split.
  - intros (_ & p & I & H). exists p. split; [exact I|]. apply in_prefix_pre; auto. apply (stored_wf k t p Hw I).
  - intros (p & I & H). split; [exact Ha|]. exists p. split; [exact I|]. apply in_prefix_pre; auto. apply (stored_wf k t p Hw I).
Qed.

(* strings of length W and addresses are the same thing *)
Lemma full_of x : length x = WN -> exists a, a < 2 ^ W /\ full W a = x.
Proof.
  intros L. exists (val x). assert (nlen x = W) as E by (unfold nlen; lia). split; [pose proof (val_lt x) as V; rewrite E in V; exact V|]. apply full_val. exact E.
Qed.
Lemma full_len a : length (full W a) = WN.
Proof. apply full_length. Qed.

Lemma mem_ext t t' : wf [] t -> wf [] t' ->
  (forall a, mem W t a <-> mem W t' a) <-> (forall x, length x = WN -> den t x <-> den t' x).
Proof.
  intros H H'. split.
  - intros E x L. destruct (full_of x L) as (a & Ha & <-). rewrite <- (mem_den [] t), <- (mem_den [] t') by auto. apply E.
  - intros E a. destruct (N.lt_ge_cases a (2 ^ W)) as [L|L].
    + rewrite (mem_den [] t), (mem_den [] t') by auto. apply E. apply full_len.
    + unfold mem. split; intros [G _]; lia.
Qed.

(* a prefix all of whose addresses are in the set lies under one stored prefix *)
Lemma swf_root_leaf k t q : swf k t -> In q (stored t) -> key q = k -> exists p d s h, t = Node p d s h true Nil Nil /\ key p = k.
Proof.
  intros H I E. destruct t as [|p d s h a l r]; [contradiction|].
  pose proof (swf_pre _ _ _ _ _ _ _ _ _ H) as K.
  assert (NK : forall c, pre (key p ++ [c]) (key q) -> False).
  { intros c P. rewrite E in P. assert (pre (key p ++ [c]) (key p)) as B by (eapply pre_trans; eauto). exact (pre_snoc_not _ _ B). }
  cbn [stored] in I. apply in_app_or in I. destruct I as [I|I].
  - destruct a; [|contradiction]. destruct I as [<-|[]]. destruct H as [_ (_ & (-> & ->) & _)]. exists p, d, s, h. auto.
  - exfalso. apply in_app_or in I. destruct I as [I|I].
    + apply (NK false). apply (stored_wf _ _ _ (proj1 (swf_l _ _ _ _ _ _ _ _ _ H)) I).
    + apply (NK true). apply (stored_wf _ _ _ (proj1 (swf_r _ _ _ _ _ _ _ _ _ H)) I).
Qed.

Lemma full_leaf t : forall k k', swf k t -> (length k' <= WN)%nat ->
  (forall x, length x = WN -> pre k' x -> den t x) ->
  exists p, In p (stored t) /\ pre (key p) k'.
Proof.
  induction t as [|p d s h a l IHl r IHr]; intros k k' H L F.
  - exfalso. apply (F (pad W k')); [apply pad_length; auto|apply pad_pre].
  - pose proof (wf_key_len W p (swf_prefix _ _ _ _ _ _ _ _ _ H)) as KL.
    assert (P : pre (key p) k').
    { apply (pre_full_inj W); auto. intros x Lx Px. exact (den_pre_node _ _ _ _ _ _ _ _ _ _ H (F x Lx Px)). }
    destruct a; [exists p; split; [cbn; auto|exact P]|].
    destruct (swf_inactive _ _ _ _ _ _ _ _ H) as (_ & Nl & Nr & _ & M & PL).
    pose proof (swf_l _ _ _ _ _ _ _ _ _ H) as Hl. pose proof (swf_r _ _ _ _ _ _ _ _ _ H) as Hr.
    assert (SD : forall c k2, pre (key p ++ [c]) k2 -> pre k' k2 -> (length k2 <= WN)%nat ->
       forall x, length x = WN -> pre k2 x -> den (kid c l r) x).
    { intros c k2 P2 Q2 L2 x Lx Px. pose proof (F x Lx (pre_trans _ _ _ Q2 Px)) as D.
      apply (den_inactive _ _ _ _ _ _ _ _ _ H) in D.
      pose proof (swf_kid _ _ _ _ _ _ _ _ _ (negb c) H) as Hn.
      pose proof (den_other_side _ _ _ _ _ Hn (pre_trans _ _ _ P2 Px)) as ND. destruct c; cbn [kid negb] in *; tauto. }
    destruct (keq (key p) k') as [E|E].
    + exfalso. subst k'.
      assert (KL2 : forall c, (length (key p ++ [c]) <= WN)%nat) by (intros c; rewrite app_length, key_length; cbn; lia).
      destruct (IHl _ _ Hl (KL2 false) (SD false _ (pre_refl _) (pre_app_r _ _) (KL2 false))) as (pl & Il & Pl).
      destruct (IHr _ _ Hr (KL2 true) (SD true _ (pre_refl _) (pre_app_r _ _) (KL2 true))) as (pr & Ir & Pr).
      assert (El : key pl = key p ++ [false]) by (apply pre_antisym; [exact Pl|apply (stored_wf _ _ _ (proj1 Hl) Il)]).
      assert (Er : key pr = key p ++ [true]) by (apply pre_antisym; [exact Pr|apply (stored_wf _ _ _ (proj1 Hr) Ir)]).
      destruct (swf_root_leaf _ _ _ Hl Il El) as (ql & ? & ? & ? & -> & Kl).
      destruct (swf_root_leaf _ _ _ Hr Ir Er) as (qr & ? & ? & ? & -> & Kr).
      unfold mergeable in M. cbn [active prefix_of] in M.
      assert (plen ql = plen p + 1) as L1 by (rewrite <- !(nlen_key W), Kl, nlen_app; reflexivity).
      assert (plen qr = plen p + 1) as L2 by (rewrite <- !(nlen_key W), Kr, nlen_app; reflexivity).
      rewrite L1, L2, N.eqb_refl in M. discriminate.
    + destruct (pre_strict _ _ P E) as [c Pc].
      assert (X : exists q, In q (stored (kid c l r)) /\ pre (key q) k').
      { pose proof (SD c k' Pc (pre_refl _) L) as G. destruct c; cbn [kid] in *; [eapply IHr|eapply IHl]; eauto. }
      destruct X as (q & I & Q). exists q. split; [|exact Q]. cbn [stored app]. apply in_or_app. destruct c; auto.
Qed.

(* stored prefixes are pairwise incomparable and in order *)
Lemma stored_disjoint k t p q : swf k t -> In p (stored t) -> In q (stored t) -> pre (key p) (key q) -> p = q.
Proof.
  revert k. induction t as [|p0 d s h a l IHl r IHr]; intros k H Ip Iq P; [contradiction|].
  destruct a.
  - destruct H as [_ (_ & (-> & ->) & _)]. cbn in Ip, Iq. destruct Ip as [<-|[]]. destruct Iq as [<-|[]]. reflexivity.
  - cbn [stored app] in Ip, Iq. pose proof (swf_l _ _ _ _ _ _ _ _ _ H) as Hl. pose proof (swf_r _ _ _ _ _ _ _ _ _ H) as Hr.
    apply in_app_or in Ip, Iq. destruct Ip as [Ip|Ip], Iq as [Iq|Iq].
    + eapply IHl; eauto.
    + exfalso. pose proof (stored_wf _ _ _ (proj1 Hl) Ip) as [_ A]. pose proof (stored_wf _ _ _ (proj1 Hr) Iq) as [_ B].
      pose proof (pre_snoc_inj _ _ _ _ (pre_trans _ _ _ A P) B). discriminate.
    + exfalso. pose proof (stored_wf _ _ _ (proj1 Hr) Ip) as [_ A]. pose proof (stored_wf _ _ _ (proj1 Hl) Iq) as [_ B].
      pose proof (pre_snoc_inj _ _ _ _ (pre_trans _ _ _ A P) B). discriminate.
    + eapply IHr; eauto.
Qed.
Lemma stored_sorted k t : wf k t -> StronglySorted (fun p q => blt (key p) (key q)) (stored t).
Proof.
  intros H. apply (entries_sorted W) in H. rewrite stored_entries. induction H as [|e es S' IH F]; cbn; constructor; auto.
  rewrite Forall_map. exact F.
Qed.
Lemma stored_nodup k t : wf k t -> NoDup (map key (stored t)).
Proof. intros H. rewrite stored_entries, map_map. exact (entries_nodup W k t H). Qed.

(* ---- canonicity: the set of strings determines the tree, up to host bits of the stored prefixes ---- *)
Definition clean (p : prefix) : prefix := mkPrefix (net W p) (plen p).
Fixpoint norm t : snode :=
  match t with
  | Nil => Nil
  | Node p d s h a l r => Node (clean p) d s h a (norm l) (norm r)
  end.
Lemma clean_key_eq p q : wf_prefix W p -> wf_prefix W q -> key p = key q -> clean p = clean q.
Proof. intros A B E. apply key_eq_iff in E; auto. unfold pkey in E. injection E as E1 E2. unfold clean. congruence. Qed.
Lemma normal_clean p : normal W p -> clean p = p.
Proof. intros H. destruct p as [a n]. unfold clean, normal in *. cbn [paddr plen] in *. rewrite <- H. reflexivity. Qed.
Lemma norm_canonical k t : swf k t -> Forall (canonical W) (stored t) -> norm t = t.
Proof.
  revert k. induction t as [|p d s h a l IHl r IHr]; intros k H F; auto.
  cbn [stored] in F. apply Forall_app in F. destruct F as [F1 F]. apply Forall_app in F. destruct F as [F2 F3].
  cbn [norm]. rewrite (IHl _ (swf_l _ _ _ _ _ _ _ _ _ H) F2), (IHr _ (swf_r _ _ _ _ _ _ _ _ _ H) F3).
  f_equal. apply normal_clean. destruct a.
  - inversion F1; subst. assumption.
  - apply (swf_inactive _ _ _ _ _ _ _ _ H).
Qed.

(* the key of an inactive root is the longest common prefix of its strings *)
Lemma inactive_key k p d s h l r q : swf k (Node p d s h false l r) ->
  (length q <= WN)%nat ->
  (forall x, length x = WN -> den (Node p d s h false l r) x -> pre q x) -> pre q (key p).
Proof.
  intros H Lq F. destruct (swf_inactive _ _ _ _ _ _ _ _ H) as (_ & Nl & Nr & _ & M & PL).
  pose proof (swf_l _ _ _ _ _ _ _ _ _ H) as Hl. pose proof (swf_r _ _ _ _ _ _ _ _ _ H) as Hr.
  destruct (den_nonempty W _ _ Hl Nl) as (x & Lx & Dx). destruct (den_nonempty W _ _ Hr Nr) as (y & Ly & Dy).
  pose proof (F x Lx ltac:(apply (den_inactive _ _ _ _ _ _ _ _ _ H); auto)) as Qx.
  pose proof (F y Ly ltac:(apply (den_inactive _ _ _ _ _ _ _ _ _ H); auto)) as Qy.
  destruct (den_pre _ _ _ _ (proj1 Hl) Dx) as [u ->]. destruct (den_pre _ _ _ _ (proj1 Hr) Dy) as [v ->].
  rewrite <- !snoc_cons in *. exact (pre_fork q (key p) false u v Qx Qy).
Qed.

Lemma canonicity t : forall t' k k', swf k t -> swf k' t' ->
  (forall x, length x = WN -> den t x <-> den t' x) -> norm t = norm t'.
Proof.
  induction t as [|p d s h a l IHl r IHr]; intros t' k k' H H' E.
  - destruct t' as [|p' d' s' h' a' l' r']; auto. exfalso.
    destruct (den_nonempty W _ _ H' ltac:(discriminate)) as (x & L & D). apply (E x L) in D. exact D.
  - destruct t' as [|p' d' s' h' a' l' r'].
    { exfalso. destruct (den_nonempty W _ _ H ltac:(discriminate)) as (x & L & D). apply (E x L) in D. exact D. }
    pose proof (swf_prefix _ _ _ _ _ _ _ _ _ H) as Wp. pose proof (swf_prefix _ _ _ _ _ _ _ _ _ H') as Wp'.
    pose proof (wf_key_len W p Wp) as KL. pose proof (wf_key_len W p' Wp') as KL'.
    destruct a, a'.
    + rewrite (swf_active _ _ _ _ _ _ _ _ H), (swf_active _ _ _ _ _ _ _ _ H').
      cbn [norm setNodeFromPrefix]. f_equal. apply clean_key_eq; auto.
      apply pre_antisym; apply (pre_full_inj W); auto; intros x Lx Px.
      * apply (den_active _ _ _ _ _ _ _ _ _ H). apply (E x Lx). apply (den_active _ _ _ _ _ _ _ _ _ H'). exact Px.
      * apply (den_active _ _ _ _ _ _ _ _ _ H'). apply (E x Lx). apply (den_active _ _ _ _ _ _ _ _ _ H). exact Px.
    + exfalso. (* t full on key p, t' inactive *)
      assert (P1 : pre (key p) (key p')).
      { eapply inactive_key; [exact H'|exact KL|]. intros x Lx Dx. apply (E x Lx) in Dx. exact (den_pre_node _ _ _ _ _ _ _ _ _ _ H Dx). }
      destruct (full_leaf (Node p' d' s' h' false l' r') _ (key p) H' KL) as (q & Iq & Pq).
      { intros x Lx Px. apply (E x Lx). apply (den_active _ _ _ _ _ _ _ _ _ H). exact Px. }
      cbn [stored app] in Iq. apply in_app_or in Iq. destruct Iq as [Iq|Iq].
      * pose proof (stored_wf _ _ _ (proj1 (swf_l _ _ _ _ _ _ _ _ _ H')) Iq) as [_ B].
        eapply pre_snoc_not. eapply pre_trans; [exact B|eapply pre_trans; [exact Pq|exact P1]].
      * pose proof (stored_wf _ _ _ (proj1 (swf_r _ _ _ _ _ _ _ _ _ H')) Iq) as [_ B].
        eapply pre_snoc_not. eapply pre_trans; [exact B|eapply pre_trans; [exact Pq|exact P1]].
    + exfalso.
      assert (P1 : pre (key p') (key p)).
      { eapply inactive_key; [exact H|exact KL'|]. intros x Lx Dx. apply (E x Lx) in Dx. exact (den_pre_node _ _ _ _ _ _ _ _ _ _ H' Dx). }
      destruct (full_leaf (Node p d s h false l r) _ (key p') H KL') as (q & Iq & Pq).
      { intros x Lx Px. apply (E x Lx). apply (den_active _ _ _ _ _ _ _ _ _ H'). exact Px. }
      cbn [stored app] in Iq. apply in_app_or in Iq. destruct Iq as [Iq|Iq].
      * pose proof (stored_wf _ _ _ (proj1 (swf_l _ _ _ _ _ _ _ _ _ H)) Iq) as [_ B].
        eapply pre_snoc_not. eapply pre_trans; [exact B|eapply pre_trans; [exact Pq|exact P1]].
      * pose proof (stored_wf _ _ _ (proj1 (swf_r _ _ _ _ _ _ _ _ _ H)) Iq) as [_ B].
        eapply pre_snoc_not. eapply pre_trans; [exact B|eapply pre_trans; [exact Pq|exact P1]].
    + assert (EK : key p = key p').
      { apply pre_antisym.
        - eapply inactive_key; [exact H'|exact KL|]. intros x Lx Dx. apply (E x Lx) in Dx. exact (den_pre_node _ _ _ _ _ _ _ _ _ _ H Dx).
        - eapply inactive_key; [exact H|exact KL'|]. intros x Lx Dx. apply (E x Lx) in Dx. exact (den_pre_node _ _ _ _ _ _ _ _ _ _ H' Dx). }
      destruct (swf_inactive _ _ _ _ _ _ _ _ H) as (E1 & _). destruct (swf_inactive _ _ _ _ _ _ _ _ H') as (E2 & _).
      assert (EC : forall c, norm (kid c l r) = norm (kid c l' r')).
      { intros c. pose proof (swf_kid _ _ _ _ _ _ _ _ _ c H) as S1. pose proof (swf_kid _ _ _ _ _ _ _ _ _ c H') as S2.
        pose proof (swf_kid _ _ _ _ _ _ _ _ _ (negb c) H) as N1. pose proof (swf_kid _ _ _ _ _ _ _ _ _ (negb c) H') as N2.
        rewrite <- EK in S2, N2.
        assert (EX : forall x, length x = WN -> den (kid c l r) x <-> den (kid c l' r') x).
        { intros x Lx. pose proof (E x Lx) as G. rewrite (den_inactive _ _ _ _ _ _ _ _ _ H), (den_inactive _ _ _ _ _ _ _ _ _ H') in G.
          split; intros D.
          - pose proof (den_other_side _ _ _ _ _ N2 (den_pre _ _ _ _ (proj1 S1) D)) as ND. destruct c; cbn [kid negb] in *; tauto.
          - pose proof (den_other_side _ _ _ _ _ N1 (den_pre _ _ _ _ (proj1 S2) D)) as ND. destruct c; cbn [kid negb] in *; tauto. }
        destruct c; cbn [kid] in *; eauto. }
      pose proof (EC false) as El. pose proof (EC true) as Er. cbn [kid] in El, Er.
      rewrite E1, E2. cbn [mk norm]. rewrite (clean_key_eq p p' Wp Wp' EK), El, Er.
      assert (NN : forall t, NumNodes (norm t) = NumNodes t) by (intros []; reflexivity).
      assert (HN : forall t, height (norm t) = height t) by (intros []; reflexivity).
      rewrite <- (NN l), <- (NN r), <- (HN l), <- (HN r), El, Er, !NN, !HN. reflexivity.
Qed.

(* Equal *)
Lemma Equal_true (peq : snode -> snode -> bool) t : forall t', (forall a b, peq a b = true -> a = b) ->
  snode_Equal peq t t' = Ok true ->
  forall x, den t x <-> den t' x.
Proof.
  unfold snode_Equal. intros t' Hp. revert t'. induction t as [|p d s h a l IHl r IHr]; intros t' E x; cbn [Equal] in E.
  - destruct (peq Nil t') eqn:P; [apply Hp in P; subst; reflexivity|]. destruct t'; [reflexivity|discriminate].
  - destruct (peq (Node p d s h a l r) t') eqn:P; [apply Hp in P; subst; reflexivity|].
    destruct t' as [|p' d' s' h' a' l' r']; [discriminate|].
    destruct (Bool.eqb a a') eqn:EA; cbn [negb] in E; [|discriminate]. apply eqb_prop in EA. subst a'.
    destruct (prefix_eqb p p') eqn:EP; cbn [negb] in E; [|discriminate].
    assert (p = p') as <-.
    { unfold prefix_eqb in EP. apply andb_true_iff in EP. rewrite !N.eqb_eq in EP. destruct p as [pa pl], p' as [pa' pl']; cbn in EP. destruct EP; congruence. }
    assert (G : (if a then Ok true else Ok true) = Ok true) by (destruct a; reflexivity). rewrite G in E. cbn [bind negb] in E.
    destruct (Equal peq l l' _) as [el| |] eqn:E1; cbn [bind] in E; try discriminate. destruct el; cbn [negb] in E; [|discriminate].
    destruct (Equal peq r r' _) as [er| |] eqn:E2; cbn [bind] in E; try discriminate. destruct er; cbn [negb] in E; [|discriminate].
    cbn [SetProof.den]. rewrite (IHl _ E1 x), (IHr _ E2 x). reflexivity.
Qed.
Lemma prefix_eqb_refl p : prefix_eqb p p = true.
Proof. unfold prefix_eqb. rewrite !N.eqb_refl. reflexivity. Qed.
Lemma Equal_total (peq : snode -> snode -> bool) t : forall t', exists b, snode_Equal peq t t' = Ok b.
Proof.
  unfold snode_Equal. induction t as [|p d s h a l IHl r IHr]; intros t'; cbn [Equal].
  - destruct (peq _ _); eauto. destruct t'; eauto.
  - destruct (peq _ _); eauto. destruct t' as [|p' d' s' h' a' l' r']; eauto.
    destruct (Bool.eqb a a'); cbn [negb]; eauto. destruct (prefix_eqb p p'); cbn [negb]; eauto.
    replace (if a then Ok true else Ok true) with (@Ok bool true) by (destruct a; reflexivity). cbn [bind negb].
    destruct (IHl l') as [bl ->]. cbn [bind]. destruct bl; cbn [negb]; eauto.
    destruct (IHr r') as [br ->]. cbn [bind]. destruct br; cbn [negb]; eauto.
Qed.
Lemma Equal_refl (peq : snode -> snode -> bool) t : snode_Equal peq t t = Ok true.
Proof.
  unfold snode_Equal. induction t as [|p d s h a l IHl r IHr]; cbn [Equal].
  - destruct (peq _ _); reflexivity.
  - destruct (peq _ _); [reflexivity|]. rewrite eqb_reflx, prefix_eqb_refl. cbn [negb].
    replace (if a then Ok true else Ok true) with (@Ok bool true) by (destruct a; reflexivity). cbn [bind negb].
    rewrite IHl. cbn [bind negb]. rewrite IHr. reflexivity.
Qed.
(* an independent description of the result: the same prefixes (host bits
   included) stored in the same tree shape *)
Lemma Equal_iff_stored (peq : snode -> snode -> bool) k k' t t' : (forall a b, peq a b = true -> a = b) -> swf k t -> swf k' t' ->
  snode_Equal peq t t' = Ok true <-> stored t = stored t'.
Proof.
  intros Hp Hk Hk'. split.
  - unfold snode_Equal. clear Hk Hk'. revert t'. induction t as [|p d s h a l IHl r IHr]; intros t' E; cbn [Equal] in E.
    + destruct (peq Nil t') eqn:P; [apply Hp in P; subst; reflexivity|]. destruct t'; [reflexivity|discriminate].
    + destruct (peq (Node p d s h a l r) t') eqn:P; [apply Hp in P; subst; reflexivity|].
      destruct t' as [|p' d' s' h' a' l' r']; [discriminate|].
      destruct (Bool.eqb a a') eqn:EA; cbn [negb] in E; [|discriminate]. apply eqb_prop in EA. subst a'.
      destruct (prefix_eqb p p') eqn:EP; cbn [negb] in E; [|discriminate].
      assert (p = p') as <-.
      { unfold prefix_eqb in EP. apply andb_true_iff in EP. rewrite !N.eqb_eq in EP. destruct p as [pa pl], p' as [pa' pl']; cbn in EP. destruct EP; congruence. }
      assert (G : (if a then Ok true else Ok true) = Ok true) by (destruct a; reflexivity). rewrite G in E. cbn [bind negb] in E.
      destruct (Equal peq l l' _) as [el| |] eqn:E1; cbn [bind] in E; try discriminate. destruct el; cbn [negb] in E; [|discriminate].
      destruct (Equal peq r r' _) as [er| |] eqn:E2; cbn [bind] in E; try discriminate. destruct er; cbn [negb] in E; [|discriminate].
      cbn [stored]. rewrite (IHl _ E1), (IHr _ E2). reflexivity.
  - intros ES. assert (EN : norm t = norm t').
    { eapply canonicity; [exact Hk|exact Hk'|]. intros x _. rewrite !den_stored, ES. reflexivity. }
    enough (t = t') as -> by apply Equal_refl.
    (* same shape and same leaves *)
    clear Hp. revert t' k k' Hk Hk' ES EN. induction t as [|p d s h a l IHl r IHr]; intros t' k k' H H' ES EN.
    + destruct t'; [reflexivity|discriminate].
    + destruct t' as [|p' d' s' h' a' l' r']; [discriminate|]. cbn [norm] in EN. injection EN as E1 E2 E3 E4 E5 E6 E7 E8. subst d' s' h' a'.
      destruct a.
      * rewrite (swf_active _ _ _ _ _ _ _ _ H), (swf_active _ _ _ _ _ _ _ _ H') in *. cbn in ES. injection ES as ->. reflexivity.
      * destruct (swf_inactive _ _ _ _ _ _ _ _ H) as (_ & _ & _ & N1 & _). destruct (swf_inactive _ _ _ _ _ _ _ _ H') as (_ & _ & _ & N2 & _).
        assert (p = p') as <-.
        { rewrite <- (normal_clean p N1), <- (normal_clean p' N2). unfold clean. congruence. }
        assert (SL : forall t, length (stored (norm t)) = length (stored t)).
        { clear. induction t as [|p d s h a l IHl r IHr]; cbn; auto. rewrite !app_length, IHl, IHr. destruct a; reflexivity. }
        cbn [stored app] in ES.
        assert (stored l = stored l' /\ stored r = stored r') as [SL1 SL2].
        { assert (LL : length (stored l) = length (stored l')) by (rewrite <- (SL l), E7, SL; reflexivity).
          clear - ES LL. revert LL ES. generalize (stored l) (stored l') (stored r) (stored r'). clear.
          induction l as [|x xs IH]; intros [|y ys] u v L E; try discriminate; cbn in *; [auto|].
          injection E as -> E. injection L as L. destruct (IH _ _ _ L E) as [-> ->]. auto. }
        rewrite (IHl _ _ _ (swf_l _ _ _ _ _ _ _ _ _ H) (swf_l _ _ _ _ _ _ _ _ _ H') SL1 E7).
        rewrite (IHr _ _ _ (swf_r _ _ _ _ _ _ _ _ _ H) (swf_r _ _ _ _ _ _ _ _ _ H') SL2 E8). reflexivity.
Qed.
End SetMore.
