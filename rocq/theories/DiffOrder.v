(* DiffOrder.v - the exact order of the events of a Diff; proofs. *)
From Verif Require Export DiffChar.
From Coq Require Import Arith Sorted ZifyBool ZifyNat ZifyN.

(* the longest common prefix of a set of bit strings *)
Definition hullk (P : list bool -> Prop) (h : list bool) : Prop :=
  (forall k, P k -> pre h k) /\ (forall h', (forall k, P k -> pre h' k) -> (length h' <= length h)%nat).

Lemma hullk_len P h h' : hullk P h -> hullk P h' -> length h = length h'.
Proof. intros [A B] [A' B']. pose proof (B _ A'). pose proof (B' _ A). lia. Qed.
Lemma hullk_ext (P Q : list bool -> Prop) h : (forall k, P k <-> Q k) -> hullk P h -> hullk Q h.
Proof.
  intros E [A B]. split; [intros k Hk; apply A, E, Hk|]. intros h' H'. apply B. intros k Hk. apply H', E, Hk.
Qed.

Definition forked (q x y : list bool) : Prop := exists c, pre (q ++ [c]) x /\ pre (q ++ [negb c]) y.

Lemma forked_sym q x y : forked q x y -> forked q y x.
Proof. intros (c & A & B). exists (negb c). rewrite negb_involutive. auto. Qed.
Lemma forked_below k q x y : forked q x y -> pre k x -> pre k y -> pre k q.
Proof.
  intros (c & A & B) Kx Ky. 
  destruct (Nat.le_gt_cases (length k) (length q)) as [L|L].
  - eapply pre_comparable; [exact Kx|eapply pre_app; exact A|exact L].
  - assert (forall b z, pre (q ++ [b]) z -> pre k z -> pre (q ++ [b]) k) as H.
    { intros b z Hz Hk. eapply pre_comparable; [exact Hz|exact Hk|]. rewrite app_length. cbn [length]. lia. }
    pose proof (pre_snoc_inj _ _ _ _ (H _ _ A Kx) (H _ _ B Ky)) as E. destruct c; discriminate.
Qed.
Lemma forked_not_pre q x y : forked q x y -> ~ pre x y.
Proof.
  intros (c & A & B) P. pose proof (pre_snoc_inj _ _ _ _ (pre_trans _ _ _ A P) B) as E. destruct c; discriminate.
Qed.
Lemma forked_unique q q' x y : forked q x y -> forked q' x y -> q = q'.
Proof.
  intros F F'. apply pre_antisym.
  - destruct F as (c & A & B). eapply forked_below; [exact F'| |]; eapply pre_app; eassumption.
  - destruct F' as (c & A & B). eapply forked_below; [exact F| |]; eapply pre_app; eassumption.
Qed.

Section DiffOrder.
Variable W : N.
Hypothesis HW : 0 < W /\ W < 2 ^ 15.
Context {T : Type}.
Notation key := (key W).
Notation wf := (wf W).
Notation fk := (fk W).
Implicit Types t l r : trie T.
Variable f : option T -> option T -> bool.
Notation devs := (devs W f).
Notation evkey := (evkey W).

Definition inE t (k : list bool) : Prop := fk k t <> None.

(* x on the left and y on the right come in the wrong order *)
Definition invk l r (x y : list bool) : Prop :=
  exists q hl hr, forked q x y /\
    hullk (fun k => inE l k /\ pre q k) hl /\ hullk (fun k => inE r k /\ pre q k) hr /\
    (length q < length hr /\ length hr < length hl)%nat.

Definition ord l r (e e' : event T) : Prop :=
  match e, e' with
  | ERemoved p _, EAdded p' _ =>
    (blt (key p) (key p') /\ ~ invk l r (key p) (key p')) \/ (blt (key p') (key p) /\ invk l r (key p) (key p'))
  | EAdded p' _, ERemoved p _ =>
    (blt (key p') (key p) /\ ~ invk l r (key p) (key p')) \/ (blt (key p) (key p') /\ invk l r (key p) (key p'))
  | _, _ => blt (evkey e) (evkey e')
  end.

Lemma invk_local k l r l' r' x y : pre k x -> pre k y ->
  (forall z, pre k z -> (inE l z <-> inE l' z)) -> (forall z, pre k z -> (inE r z <-> inE r' z)) ->
  invk l r x y <-> invk l' r' x y.
Proof.
  intros Kx Ky El Er.
  assert (forall q, forked q x y -> forall z, pre q z -> pre k z) as K.
  { intros q F z Hz. eapply pre_trans; [eapply forked_below; eassumption|exact Hz]. }
  split; intros (q & hl & hr & F & A & B & C); exists q, hl, hr; (split; [exact F|]).
  - split; [|split; [|exact C]]; [revert A|revert B]; apply hullk_ext; intros z; split; intros [P Q]; (split; [|exact Q]);
      (apply El || apply Er); try assumption; eapply K; eassumption.
  - split; [|split; [|exact C]]; [revert A|revert B]; apply hullk_ext; intros z; split; intros [P Q]; (split; [|exact Q]);
      (apply El || apply Er); try assumption; eapply K; eassumption.
Qed.

Lemma ord_local k l r l' r' e e' : pre k (evkey e) -> pre k (evkey e') ->
  (forall z, pre k z -> (inE l z <-> inE l' z)) -> (forall z, pre k z -> (inE r z <-> inE r' z)) ->
  ord l r e e' -> ord l' r' e e'.
Proof.
  intros K K' El Er. destruct e as [p d|p d|p1 p2 d d'|p1 p2 d d'], e' as [p' d0|p' d0|p1' p2' d0 d0'|p1' p2' d0 d0']; cbn [ord]; auto;
    unfold DiffProof.evkey in K, K'; cbn in K, K'.
  - pose proof (invk_local k l r l' r' (key p) (key p') K K' El Er). tauto.
  - pose proof (invk_local k l r l' r' (key p') (key p) K' K El Er). tauto.
Qed.

Lemma ord_sorted_local k l r l' r' es : Forall (fun e => pre k (evkey e)) es ->
  (forall z, pre k z -> (inE l z <-> inE l' z)) -> (forall z, pre k z -> (inE r z <-> inE r' z)) ->
  StronglySorted (ord l r) es -> StronglySorted (ord l' r') es.
Proof.
  intros F El Er S. induction S as [|e es S IH Se]; [constructor|].
  inversion F as [|? ? F1 F2]; subst. constructor; [apply IH; exact F2|].
  rewrite Forall_forall in *. intros e' He'. eapply ord_local; eauto.
Qed.

(* the entries below a node's child are those of the node *)
Lemma inE_kid k0 p d s h a l r c z : wf k0 (Node p d s h a l r) -> pre (key p ++ [c]) z ->
  inE (kid c l r) z <-> inE (Node p d s h a l r) z.
Proof.
  intros Hw [u ->]. destruct Hw as (_ & _ & _ & _ & _ & Hl & Hr). unfold inE.
  rewrite <- app_assoc. cbn [app]. rewrite (fk_below W p d s h a l r c u Hl Hr). tauto.
Qed.
Lemma inE_out k t z : wf k t -> ~ pre k z -> ~ inE t z.
Proof. intros Hw Hn H. apply H. eapply fk_out; eassumption. Qed.
Lemma inE_some k t : wf k t -> t <> Nil -> exists z, inE t z.
Proof.
  intros Hw Hn. pose proof (entries_nonnil W _ _ Hw Hn) as E.
  destruct (entries t) as [|e es] eqn:Q; [congruence|]. exists (ekey W e).
  unfold inE. rewrite (In_fk W _ _ e Hw); [discriminate|]. rewrite Q. left; reflexivity.
Qed.
Lemma inE_root k p d s h a l r z : wf k (Node p d s h a l r) -> inE (Node p d s h a l r) z -> pre (key p) z.
Proof.
  intros (_ & _ & _ & _ & _ & Hl & Hr) H. destruct (pre_dec (key p) z) as [P|P]; [exact P|].
  exfalso. apply H. apply (fk_notpre W); assumption.
Qed.

Lemma hull_root k p d s h a l r : wf k (Node p d s h a l r) -> hullk (inE (Node p d s h a l r)) (key p).
Proof.
  intros Hw. split; [intros z Hz; eapply inE_root; eassumption|].
  intros h' H'. pose proof Hw as (_ & _ & _ & _ & Ha & Hl & Hr). destruct a.
  - apply pre_length, H'. unfold inE. rewrite (fk_here W) by assumption. discriminate.
  - destruct (Ha eq_refl) as [Nl Nr].
    destruct (inE_some _ _ Hl Nl) as (x & Ix). destruct (inE_some _ _ Hr Nr) as (y & Iy).
    assert (pre (key p ++ [false]) x) as Px.
    { destruct (pre_dec (key p ++ [false]) x) as [P|P]; [exact P|]. destruct (inE_out _ _ _ Hl P Ix). }
    assert (pre (key p ++ [true]) y) as Py.
    { destruct (pre_dec (key p ++ [true]) y) as [P|P]; [exact P|]. destruct (inE_out _ _ _ Hr P Iy). }
    apply pre_length. apply (forked_below h' (key p) x y).
    + exists false. auto.
    + apply H'. apply (inE_kid _ p d s h false l r false x Hw Px). exact Ix.
    + apply H'. apply (inE_kid _ p d s h false l r true y Hw Py). exact Iy.
Qed.

(* two keys parting at the root of one of the tries are in the right order *)
Lemma not_inv_root k0 p d s h a l r t k1 x y : wf k0 (Node p d s h a l r) -> wf k1 t -> forked (key p) x y ->
  ~ invk (Node p d s h a l r) t x y /\ ~ invk t (Node p d s h a l r) x y.
Proof.
  intros Hw Ht F.
  assert (hullk (fun k => inE (Node p d s h a l r) k /\ pre (key p) k) (key p)) as HH.
  { eapply hullk_ext; [|eapply hull_root; exact Hw]. intros z. split; [|tauto]. intros Hz. split; [exact Hz|].
    eapply inE_root; eassumption. }
  split; intros (q & hl & hr & F' & A & B & C & D); rewrite (forked_unique _ _ _ _ F' F) in *.
  - pose proof (hullk_len _ _ _ A HH). lia.
  - pose proof (hullk_len _ _ _ B HH). lia.
Qed.

(* two keys parting where two disjoint tries part *)
Lemma inv_disjoint k k' p d s h a l r p' d' s' h' a' l' r' q c u v x y :
  let L := Node p d s h a l r in let R := Node p' d' s' h' a' l' r' in
  wf k L -> wf k' R -> key p = q ++ c :: u -> key p' = q ++ negb c :: v ->
  pre (q ++ [c]) x -> pre (q ++ [negb c]) y ->
  (invk L R x y <-> nlen (key p') < nlen (key p)).
Proof.
  intros L R HL HR E E' Px Py.
  assert (hullk (fun z => inE L z /\ pre q z) (key p)) as H1.
  { eapply hullk_ext; [|eapply hull_root; exact HL]. intros z. split; [|tauto]. intros Hz. split; [exact Hz|].
    eapply pre_trans; [|eapply inE_root; [exact HL|exact Hz]]. rewrite E. apply pre_app_r. }
  assert (hullk (fun z => inE R z /\ pre q z) (key p')) as H2.
  { eapply hullk_ext; [|eapply hull_root; exact HR]. intros z. split; [|tauto]. intros Hz. split; [exact Hz|].
    eapply pre_trans; [|eapply inE_root; [exact HR|exact Hz]]. rewrite E'. apply pre_app_r. }
  assert (forked q x y) as F by (exists c; auto).
  split.
  - intros (q' & hl & hr & F' & A & B & C & D). rewrite (forked_unique _ _ _ _ F' F) in *.
    pose proof (hullk_len _ _ _ A H1). pose proof (hullk_len _ _ _ B H2). unfold nlen. lia.
  - intros Hlt. exists q, (key p), (key p'). split; [exact F|]. split; [exact H1|]. split; [exact H2|].
    unfold nlen in Hlt. split; [|lia]. rewrite E', app_length. cbn [length]. lia.
Qed.

Lemma blt_below k c x : pre (k ++ [c]) x -> blt k x.
Proof. intros [u ->]. left. exists c, u. rewrite <- app_assoc. reflexivity. Qed.
Lemma blt_fork q x y : pre (q ++ [false]) x -> pre (q ++ [true]) y -> blt x y.
Proof. intros [u ->] [v ->]. right. exists q, u, v. rewrite <- !app_assoc. auto. Qed.

Lemma ord_of_blt l r e e' : blt (evkey e) (evkey e') ->
  ~ invk l r (evkey e) (evkey e') -> ~ invk l r (evkey e') (evkey e) -> ord l r e e'.
Proof. intros B N1 N2. destruct e, e'; cbn [ord]; auto. Qed.

Lemma ord_head_branches l r k hd b0 b1 :
  (forall x y, forked k x y -> ~ invk l r x y) ->
  (hd = [] \/ exists e, hd = [e] /\ evkey e = k) ->
  StronglySorted (ord l r) b0 -> StronglySorted (ord l r) b1 ->
  Forall (fun e => pre (k ++ [false]) (evkey e)) b0 -> Forall (fun e => pre (k ++ [true]) (evkey e)) b1 ->
  StronglySorted (ord l r) (hd ++ b0 ++ b1).
Proof.
  intros Hni Hh S0 S1 F0 F1. rewrite Forall_forall in F0, F1. apply SSorted_app.
  - destruct Hh as [->|(e & -> & _)]; repeat constructor.
  - apply SSorted_app; try assumption. intros x y Hx Hy. specialize (F0 _ Hx). specialize (F1 _ Hy).
    apply ord_of_blt; [eapply blt_fork; eassumption| |]; apply Hni; [exists false|exists true]; auto.
  - intros x y Hx Hy. destruct Hh as [->|(e & -> & Ek)]; [contradiction|].
    destruct Hx as [<-|[]]. assert (exists c, pre (k ++ [c]) (evkey y)) as (c & P).
    { apply in_app_or in Hy. destruct Hy as [Hy|Hy]; eauto. }
    assert (pre (evkey e) (evkey y)) as P' by (rewrite Ek; eapply pre_app; exact P).
    apply ord_of_blt.
    + rewrite Ek. eapply blt_below; exact P.
    + intros (q & hl & hr & F & _). exact (forked_not_pre _ _ _ F P').
    + intros (q & hl & hr & F & _). exact (forked_not_pre _ _ _ (forked_sym _ _ _ F) P').
Qed.

Lemma not_inv_nil_l r x y : ~ invk Nil r x y.
Proof.
  intros (q & hl & hr & _ & [_ A] & _). specialize (A (true :: hl)). cbn [length] in A.
  assert (S (length hl) <= length hl)%nat; [|lia]. apply A. intros z [Hz _]. exfalso. apply Hz. reflexivity.
Qed.
Lemma not_inv_nil_r l x y : ~ invk l Nil x y.
Proof.
  intros (q & hl & hr & _ & _ & [_ A] & _). specialize (A (true :: hr)). cbn [length] in A.
  assert (S (length hr) <= length hr)%nat; [|lia]. apply A. intros z [Hz _]. exfalso. apply Hz. reflexivity.
Qed.

Lemma inE_kid0 k0 p d s h a l r z : wf k0 (Node p d s h a l r) -> pre (key p ++ [false]) z ->
  inE l z <-> inE (Node p d s h a l r) z.
Proof. exact (inE_kid k0 p d s h a l r false z). Qed.
Lemma inE_kid1 k0 p d s h a l r z : wf k0 (Node p d s h a l r) -> pre (key p ++ [true]) z ->
  inE r z <-> inE (Node p d s h a l r) z.
Proof. exact (inE_kid k0 p d s h a l r true z). Qed.
Lemma inE_setl k c t z : wf (k ++ [c]) t -> pre (k ++ [false]) z -> inE (setl c t Nil) z <-> inE t z.
Proof.
  intros Hw P. destruct c; cbn [setl]; [|tauto]. split; [intros H; exfalso; apply H; reflexivity|].
  intros H. exfalso. revert H. eapply inE_out; [exact Hw|]. intros Q. pose proof (pre_snoc_inj _ _ _ _ P Q). discriminate.
Qed.
Lemma inE_setr k c t z : wf (k ++ [c]) t -> pre (k ++ [true]) z -> inE (setr c t Nil) z <-> inE t z.
Proof.
  intros Hw P. destruct c; cbn [setr]; [tauto|]. split; [intros H; exfalso; apply H; reflexivity|].
  intros H. exfalso. revert H. eapply inE_out; [exact Hw|]. intros Q. pose proof (pre_snoc_inj _ _ _ _ P Q). discriminate.
Qed.

Lemma devs_nil_right fuel l : Forall (fun e => exists p d, e = ERemoved p d) (devs fuel l Nil).
Proof.
  revert l. induction fuel as [|fuel IH]; intros l; [constructor|]. destruct l as [|p d s h a l0 l1]; [constructor|].
  cbn [DiffProof.devs child0 child1 setl setr]. apply Forall_app. split; [|apply Forall_app; split; apply IH].
  cbn [ev_rem]. destruct a; repeat constructor; eauto.
Qed.
Lemma devs_nil_left fuel r : Forall (fun e => exists p d, e = EAdded p d) (devs fuel Nil r).
Proof.
  revert r. induction fuel as [|fuel IH]; intros r; [constructor|]. destruct r as [|p d s h a l0 l1]; [constructor|].
  cbn [DiffProof.devs child0 child1 setl setr]. apply Forall_app. split; [|apply Forall_app; split; apply IH].
  cbn [ev_add]. destruct a; repeat constructor; eauto.
Qed.

Lemma devs_ord : forall fuel kl kr l r, wf kl l -> wf kr r -> dm l r < N.of_nat fuel ->
  StronglySorted (ord l r) (devs fuel l r).
Proof.
  induction fuel as [|fuel IH]; intros kl kr l r Hl Hr Hm; [lia|].
  destruct l as [|pl dl sl hl al ll lr]; destruct r as [|pr dr sr hr ar rl rr].
  - constructor.
  - pose proof Hr as (Hrp & _ & _ & _ & _ & Hrl & Hrr). rewrite devs_right_step.
    assert (dm Nil rl < N.of_nat fuel) as M1 by (unfold dm in *; cbn [depth] in *; lia).
    assert (dm Nil rr < N.of_nat fuel) as M2 by (unfold dm in *; cbn [depth] in *; lia).
    pose proof (devs_below W HW f fuel _ [] _ Nil rl I Hrl M1 (or_introl eq_refl) (or_intror Hrl)) as F1.
    pose proof (devs_below W HW f fuel _ [] _ Nil rr I Hrr M2 (or_introl eq_refl) (or_intror Hrr)) as F2.
    apply (ord_head_branches _ _ (key pr)).
    + intros. apply not_inv_nil_l.
    + destruct ar; [right|left]; [eexists; split; reflexivity|reflexivity].
    + apply (ord_sorted_local _ _ _ _ _ _ F1 (fun z _ => iff_refl _) (fun z Hz => inE_kid0 _ _ _ _ _ _ _ _ z Hr Hz)
               (IH [] _ Nil rl I Hrl M1)).
    + apply (ord_sorted_local _ _ _ _ _ _ F2 (fun z _ => iff_refl _) (fun z Hz => inE_kid1 _ _ _ _ _ _ _ _ z Hr Hz)
               (IH [] _ Nil rr I Hrr M2)).
    + exact F1.
    + exact F2.
  - pose proof Hl as (Hlp & _ & _ & _ & _ & Hll & Hlr). rewrite devs_left_step.
    assert (dm ll Nil < N.of_nat fuel) as M1 by (unfold dm in *; cbn [depth] in *; destruct ll; lia).
    assert (dm lr Nil < N.of_nat fuel) as M2 by (unfold dm in *; cbn [depth] in *; destruct lr; lia).
    pose proof (devs_below W HW f fuel _ _ [] ll Nil Hll I M1 (or_intror Hll) (or_introl eq_refl)) as F1.
    pose proof (devs_below W HW f fuel _ _ [] lr Nil Hlr I M2 (or_intror Hlr) (or_introl eq_refl)) as F2.
    apply (ord_head_branches _ _ (key pl)).
    + intros. apply not_inv_nil_r.
    + destruct al; [right|left]; [eexists; split; reflexivity|reflexivity].
    + apply (ord_sorted_local _ _ _ _ _ _ F1 (fun z Hz => inE_kid0 _ _ _ _ _ _ _ _ z Hl Hz) (fun z _ => iff_refl _)
               (IH _ [] ll Nil Hll I M1)).
    + apply (ord_sorted_local _ _ _ _ _ _ F2 (fun z Hz => inE_kid1 _ _ _ _ _ _ _ _ z Hl Hz) (fun z _ => iff_refl _)
               (IH _ [] lr Nil Hlr I M2)).
    + exact F1.
    + exact F2.
  - pose proof Hl as (Hlp & Hlk & _ & _ & _ & Hll & Hlr).
    pose proof Hr as (Hrp & Hrk & _ & _ & _ & Hrl & Hrr).
    cbn [DiffProof.devs].
    pose proof (Key.compare_spec W HW pl pr Hlp Hrp) as C.
    rewrite dm_nodes in Hm.
    remember (compare W pl pr) as cr eqn:Ecr. destruct C as [E|c x E|c x E|q c x y rev E1 E2 Erev].
    + cbn [child0 child1].
      assert (dm ll rl < N.of_nat fuel) as M1 by (pose proof (dm_le W HW f ll rl); lia).
      assert (dm lr rr < N.of_nat fuel) as M2 by (pose proof (dm_le W HW f lr rr); lia).
      assert (wf (key pl ++ [false]) rl) as Hrl' by (rewrite E; exact Hrl).
      assert (wf (key pl ++ [true]) rr) as Hrr' by (rewrite E; exact Hrr).
      pose proof (devs_below W HW f fuel _ _ _ ll rl Hll Hrl M1 (or_intror Hll) (or_intror Hrl')) as F1.
      pose proof (devs_below W HW f fuel _ _ _ lr rr Hlr Hrr M2 (or_intror Hlr) (or_intror Hrr')) as F2.
      apply (ord_head_branches _ _ (key pl)).
      * intros u v F. exact (proj1 (not_inv_root _ _ _ _ _ _ _ _ _ _ u v Hl Hr F)).
      * cbn [ev_same]. destruct al, ar; cbn [andb ev_rem ev_add app]; [destruct (f dl dr)| | |];
          [right|right|right|right|left]; try reflexivity; eexists; (split; [reflexivity|]); try reflexivity.
        symmetry; exact E.
      * apply (ord_sorted_local _ _ _ _ _ _ F1 (fun z Hz => inE_kid0 _ _ _ _ _ _ _ _ z Hl Hz)
                 (fun z Hz => inE_kid0 _ _ _ _ _ _ _ _ z Hr (eq_ind _ (fun k => pre (k ++ [false]) z) Hz _ E))
                 (IH _ _ ll rl Hll Hrl M1)).
      * apply (ord_sorted_local _ _ _ _ _ _ F2 (fun z Hz => inE_kid1 _ _ _ _ _ _ _ _ z Hl Hz)
                 (fun z Hz => inE_kid1 _ _ _ _ _ _ _ _ z Hr (eq_ind _ (fun k => pre (k ++ [true]) z) Hz _ E))
                 (IH _ _ lr rr Hlr Hrr M2)).
      * exact F1.
      * exact F2.
    + cbn [child0 child1]. set (R := Node pr dr sr hr ar rl rr) in *.
      assert (wf (key pl ++ [c]) R) as HR by (eapply wf_rebase; [exact Hr|rewrite E; apply pre_snoc_cons]).
      assert (depth R = 1 + N.max (depth rl) (depth rr)) as DR by reflexivity.
      assert (dm ll (setl c R Nil) < N.of_nat fuel) as M1
        by (pose proof (dm_le W HW f ll (setl c R Nil)); pose proof (depth_setl W HW c R); lia).
      assert (dm lr (setr c R Nil) < N.of_nat fuel) as M2
        by (pose proof (dm_le W HW f lr (setr c R Nil)); pose proof (depth_setr W HW c R); lia).
      assert (wf (key pl ++ [false]) (setl c R Nil)) as A0 by (destruct c; [exact I|exact HR]).
      assert (wf (key pl ++ [true]) (setr c R Nil)) as A1 by (destruct c; [exact HR|exact I]).
      pose proof (devs_below W HW f fuel _ _ _ _ _ Hll A0 M1 (or_intror Hll) (or_intror A0)) as F1.
      pose proof (devs_below W HW f fuel _ _ _ _ _ Hlr A1 M2 (or_intror Hlr) (or_intror A1)) as F2.
      apply (ord_head_branches _ _ (key pl)).
      * intros u v F. exact (proj1 (not_inv_root _ _ _ _ _ _ _ _ _ _ u v Hl Hr F)).
      * destruct al; [right|left]; [eexists; split; reflexivity|reflexivity].
      * apply (ord_sorted_local _ _ _ _ _ _ F1 (fun z Hz => inE_kid0 _ _ _ _ _ _ _ _ z Hl Hz)
                 (fun z Hz => inE_setl _ _ _ z HR Hz) (IH _ _ _ _ Hll A0 M1)).
      * apply (ord_sorted_local _ _ _ _ _ _ F2 (fun z Hz => inE_kid1 _ _ _ _ _ _ _ _ z Hl Hz)
                 (fun z Hz => inE_setr _ _ _ z HR Hz) (IH _ _ _ _ Hlr A1 M2)).
      * exact F1.
      * exact F2.
    + cbn [child0 child1]. set (L := Node pl dl sl hl al ll lr) in *.
      assert (wf (key pr ++ [c]) L) as HL by (eapply wf_rebase; [exact Hl|rewrite E; apply pre_snoc_cons]).
      assert (depth L = 1 + N.max (depth ll) (depth lr)) as DL by reflexivity.
      assert (dm (setl c L Nil) rl < N.of_nat fuel) as M1
        by (pose proof (dm_le W HW f (setl c L Nil) rl); pose proof (depth_setl W HW c L); lia).
      assert (dm (setr c L Nil) rr < N.of_nat fuel) as M2
        by (pose proof (dm_le W HW f (setr c L Nil) rr); pose proof (depth_setr W HW c L); lia).
      assert (wf (key pr ++ [false]) (setl c L Nil)) as A0 by (destruct c; [exact I|exact HL]).
      assert (wf (key pr ++ [true]) (setr c L Nil)) as A1 by (destruct c; [exact HL|exact I]).
      pose proof (devs_below W HW f fuel _ _ _ _ _ A0 Hrl M1 (or_intror A0) (or_intror Hrl)) as F1.
      pose proof (devs_below W HW f fuel _ _ _ _ _ A1 Hrr M2 (or_intror A1) (or_intror Hrr)) as F2.
      apply (ord_head_branches _ _ (key pr)).
      * intros u v F. exact (proj2 (not_inv_root _ _ _ _ _ _ _ _ _ _ u v Hr Hl F)).
      * destruct ar; [right|left]; [eexists; split; reflexivity|reflexivity].
      * apply (ord_sorted_local _ _ _ _ _ _ F1 (fun z Hz => inE_setl _ _ _ z HL Hz)
                 (fun z Hz => inE_kid0 _ _ _ _ _ _ _ _ z Hr Hz) (IH _ _ _ _ A0 Hrl M1)).
      * apply (ord_sorted_local _ _ _ _ _ _ F2 (fun z Hz => inE_setr _ _ _ z HL Hz)
                 (fun z Hz => inE_kid1 _ _ _ _ _ _ _ _ z Hr Hz) (IH _ _ _ _ A1 Hrr M2)).
      * exact F1.
      * exact F2.
    + set (L := Node pl dl sl hl al ll lr) in *. set (R := Node pr dr sr hr ar rl rr) in *.
      assert (dm L Nil < N.of_nat fuel /\ dm (@Nil T) R < N.of_nat fuel) as [M1 M2].
      { unfold dm. subst L R. cbn [depth]. lia. }
      assert (wf (q ++ [c]) L) as HL by (eapply wf_rebase; [exact Hl|rewrite E1; apply pre_snoc_cons]).
      assert (wf (q ++ [negb c]) R) as HR by (eapply wf_rebase; [exact Hr|rewrite E2; apply pre_snoc_cons]).
      pose proof (devs_below W HW f fuel _ _ [] L Nil Hl I M1 (or_intror HL) (or_introl eq_refl)) as FL.
      pose proof (devs_below W HW f fuel _ [] _ Nil R I Hr M2 (or_introl eq_refl) (or_intror HR)) as FR.
      pose proof (devs_nil_right fuel L) as GL. pose proof (devs_nil_left fuel R) as GR.
      assert (StronglySorted (ord L R) (devs fuel L Nil)) as SL.
      { apply (ord_sorted_local _ L Nil _ _ _ FL (fun z _ => iff_refl _)); [|apply (IH _ [] L Nil Hl I M1)].
        intros z Hz. split; [intros H; exfalso; apply H; reflexivity|]. intros H. exfalso.
        revert H. eapply inE_out; [exact HR|]. intros Q. pose proof (pre_snoc_inj _ _ _ _ Hz Q) as B. destruct c; discriminate. }
      assert (StronglySorted (ord L R) (devs fuel Nil R)) as SR.
      { refine (ord_sorted_local _ Nil R _ _ _ FR _ (fun z _ => iff_refl _) (IH [] _ Nil R I Hr M2)).
        intros z Hz. split; [intros H; exfalso; apply H; reflexivity|]. intros H. exfalso.
        revert H. eapply inE_out; [exact HL|]. intros Q. pose proof (pre_snoc_inj _ _ _ _ Hz Q) as B. destruct c; discriminate. }
      rewrite Forall_forall in FL, FR, GL, GR.
      assert (forall a b, In a (devs fuel L Nil) -> In b (devs fuel Nil R) ->
        if (if rev then c else negb c) then ord L R a b else ord L R b a) as LT.
      { intros a b Ha Hb. pose proof (FL _ Ha) as Pa. pose proof (FR _ Hb) as Pb.
        destruct (GL _ Ha) as (pa & da & ->). destruct (GR _ Hb) as (pb & db & ->).
        change (evkey (ERemoved pa da)) with (key pa) in Pa. change (evkey (EAdded pb db)) with (key pb) in Pb.
        pose proof (inv_disjoint _ _ _ _ _ _ _ _ _ _ _ _ _ _ _ _ q c _ _ _ _ Hl Hr E1 E2 Pa Pb) as IV.
        fold L in IV. fold R in IV. cbn [ord]. rewrite <- N.ltb_lt, <- Erev in IV.
        destruct rev, c; cbn [negb] in *; pose proof (blt_fork q) as BF; 
          [right|right|left|left]; (split; [apply BF; assumption|]); tauto || (intros Q; apply IV in Q; discriminate). }
      destruct (if rev then c else negb c); cbn [app]; apply SSorted_app; try assumption; intros a b Ha Hb;
        first [apply (LT a b); assumption|apply (LT b a); assumption].
Qed.
End DiffOrder.
