(* WF.v - the representation invariant of tries, entries, lookup; proofs. *)
From Verif Require Export Key.
From Coq Require Import Arith Sorted ZifyBool ZifyNat ZifyN.

Definition keq : forall k l : list bool, {k = l} + {k <> l} := list_eq_dec Bool.bool_dec.

Lemma pre_fork k p c ra rb : pre k (p ++ c :: ra) -> pre k (p ++ negb c :: rb) -> pre k p.
Proof.
  intros H1 H2. destruct (Nat.le_gt_cases (length k) (length p)) as [HL|HL].
  - eapply pre_comparable; [exact H1|apply pre_app_r|exact HL].
  - exfalso.
    assert (pre (p ++ [c]) (p ++ c :: ra)) as A1 by (exists ra; rewrite <- app_assoc; reflexivity).
    assert (pre (p ++ [negb c]) (p ++ negb c :: rb)) as A2 by (exists rb; rewrite <- app_assoc; reflexivity).
    assert (pre (p ++ [c]) k) as B1.
    { eapply pre_comparable; [exact A1|exact H1|]. rewrite app_length. simpl. lia. }
    assert (pre (p ++ [negb c]) k) as B2.
    { eapply pre_comparable; [exact A2|exact H2|]. rewrite app_length. simpl. lia. }
    pose proof (pre_snoc_inj _ _ _ _ B1 B2) as E. destruct c; discriminate.
Qed.
Lemma pre_snoc_cons k c r : pre (k ++ [c]) (k ++ c :: r).
Proof. exists r. rewrite <- app_assoc. reflexivity. Qed.
Lemma snoc_cons {A} (k : list A) c r : k ++ c :: r = (k ++ [c]) ++ r.
Proof. rewrite <- app_assoc. reflexivity. Qed.
Lemma pre_nsnoc k c r : ~ pre (k ++ [negb c]) (k ++ c :: r).
Proof.
  intros H. pose proof (pre_snoc_inj _ _ _ _ H (pre_snoc_cons k c r)) as E. destruct c; discriminate.
Qed.

Lemma pre_fork_not q c x y : ~ pre (q ++ c :: x) (q ++ negb c :: y).
Proof.
  intros [u E]. rewrite <- app_assoc in E. apply app_inv_head in E. injection E. destruct c; discriminate.
Qed.

Lemma pre_fork_not' q c x y : ~ pre (q ++ negb c :: x) (q ++ c :: y).
Proof. pose proof (pre_fork_not q (negb c) x y) as H. rewrite negb_involutive in H. exact H. Qed.

(* preorder list of the entries stored in a trie *)
Fixpoint entries {T} (t : trie T) : list (prefix * option T) :=
  match t with
  | Nil => []
  | Node p d _ _ a l r => (if a then [(p, d)] else []) ++ entries l ++ entries r
  end.

Section WF.
Variable W : N.
Context {T : Type}.
Notation key := (key W).
Implicit Types t l r : trie T.

Fixpoint wf (k : list bool) t : Prop :=
  match t with
  | Nil => True
  | Node p d s h a l r =>
    wf_prefix W p /\ pre k (key p) /\
    s = NumNodes (mk p d a l r) /\ h = height (mk p d a l r) /\
    (a = false -> l <> Nil /\ r <> Nil) /\
    wf (key p ++ [false]) l /\ wf (key p ++ [true]) r
  end.

Definition wfc (c : bool) (p : prefix) t : Prop := wf (key p ++ [c]) t.

Lemma wf_mk k p d a l r :
  wf_prefix W p -> pre k (key p) -> (a = false -> l <> Nil /\ r <> Nil) ->
  wf (key p ++ [false]) l -> wf (key p ++ [true]) r -> wf k (mk p d a l r).
Proof. intros H1 H2 H3 H4 H5. simpl. split; [exact H1|]. split; [exact H2|]. auto. Qed.

Lemma wf_node k p d s h a l r : wf k (Node p d s h a l r) -> Node p d s h a l r = mk p d a l r.
Proof. intros (_ & _ & -> & -> & _). reflexivity. Qed.

Lemma wf_weaken k k' t : pre k' k -> wf k t -> wf k' t.
Proof.
  intros H. destruct t as [|p d s h a l r]; simpl; [auto|].
  intros (H1 & H2 & H3). split; [exact H1|]. split; [|exact H3]. eapply pre_trans; eassumption.
Qed.

Lemma wf_rebase k k' p d s h a l r :
  wf k (Node p d s h a l r) -> pre k' (key p) -> wf k' (Node p d s h a l r).
Proof. intros (A & _ & B) Hk. split; [exact A|]. split; [exact Hk|exact B]. Qed.

Lemma wf_kid k p d s h a l r c : wf k (Node p d s h a l r) -> wf (key p ++ [c]) (kid c l r).
Proof. intros (_ & _ & _ & _ & _ & Hl & Hr). destruct c; assumption. Qed.

Lemma wf_set k p d s h a l r c x :
  wf k (Node p d s h a l r) -> wf (key p ++ [c]) x ->
  wf (key p ++ [false]) (setl c x l) /\ wf (key p ++ [true]) (setr c x r).
Proof. intros (_ & _ & _ & _ & _ & Hl & Hr) Hx. destruct c; simpl; auto. Qed.

(* ---- entries ---- *)
Definition ekey (e : prefix * option T) : list bool := key (fst e).

Lemma entries_mk p d a l r : entries (mk p d a l r) = (if a then [(p, d)] else []) ++ entries l ++ entries r.
Proof. reflexivity. Qed.

Lemma entries_wf k t : wf k t -> Forall (fun e => wf_prefix W (fst e) /\ pre k (ekey e)) (entries t).
Proof.
  revert k. induction t as [|p d s h a l IHl r IHr]; intros k Hw; simpl; [constructor|].
  destruct Hw as (Hp & Hk & _ & _ & _ & Hl & Hr).
  apply Forall_app. split; [|apply Forall_app; split].
  - destruct a; constructor; simpl; auto.
  - eapply Forall_impl; [|apply (IHl _ Hl)]. intros e [A B]. split; [exact A|].
    eapply pre_trans; [exact Hk|]. eapply pre_app. exact B.
  - eapply Forall_impl; [|apply (IHr _ Hr)]. intros e [A B]. split; [exact A|].
    eapply pre_trans; [exact Hk|]. eapply pre_app. exact B.
Qed.

Lemma entries_nonnil k t : wf k t -> t <> Nil -> entries t <> [].
Proof.
  revert k. induction t as [|p d s h a l IHl r IHr]; intros k Hw Hn; [congruence|].
  destruct Hw as (_ & _ & _ & _ & Ha & Hl & _). simpl. destruct a; [discriminate|].
  destruct (Ha eq_refl) as [Hl0 _]. intros E. simpl in E. apply app_eq_nil in E. destruct E as [E _].
  exact (IHl _ Hl Hl0 E).
Qed.

Definition elt (e f : prefix * option T) : Prop := blt (ekey e) (ekey f).

Lemma SSorted_app {A} (R : A -> A -> Prop) (l m : list A) :
  StronglySorted R l -> StronglySorted R m -> (forall x y, In x l -> In y m -> R x y) ->
  StronglySorted R (l ++ m).
Proof.
  intros Hl Hm H. induction Hl as [|x l Hl IH Hx]; simpl; [exact Hm|].
  constructor.
  - apply IH. intros a b Ha Hb. apply H; [right|]; assumption.
  - apply Forall_app. split; [exact Hx|]. apply Forall_forall. intros y Hy. apply H; [left; reflexivity|exact Hy].
Qed.

Lemma entries_sorted k t : wf k t -> StronglySorted elt (entries t).
Proof.
  revert k. induction t as [|p d s h a l IHl r IHr]; intros k Hw; simpl; [constructor|].
  destruct Hw as (_ & _ & _ & _ & _ & Hl & Hr).
  pose proof (entries_wf _ _ Hl) as Fl. pose proof (entries_wf _ _ Hr) as Fr.
  rewrite Forall_forall in Fl, Fr.
  apply SSorted_app; [| |].
  - destruct a; repeat constructor.
  - apply SSorted_app; [apply (IHl _ Hl)|apply (IHr _ Hr)|].
    intros x y Hx Hy. destruct (Fl _ Hx) as [_ [u Eu]]. destruct (Fr _ Hy) as [_ [v Ev]].
    right. exists (key p), u, v. rewrite <- app_assoc in Eu, Ev. auto.
  - intros x y Hx Hy. destruct a; [|contradiction]. destruct Hx as [<-|[]].
    left. apply in_app_or in Hy. unfold ekey at 2. simpl.
    destruct Hy as [Hy|Hy]; [destruct (Fl _ Hy) as [_ [u Eu]]|destruct (Fr _ Hy) as [_ [u Eu]]];
      rewrite <- app_assoc in Eu; eauto.
Qed.

Lemma blt_irrefl k : ~ blt k k.
Proof.
  intros [(c & r & E)|(p & r & s & E1 & E2)].
  - assert (length k = length (k ++ c :: r)) as L by (rewrite <- E; reflexivity).
    rewrite app_length in L. simpl in L. lia.
  - rewrite E1 in E2. apply app_inv_head in E2. discriminate.
Qed.

Lemma entries_nodup k t : wf k t -> NoDup (map ekey (entries t)).
Proof.
  intros Hw. pose proof (entries_sorted _ _ Hw) as S.
  induction S as [|x l S IH Hx]; simpl; constructor; [|exact IH].
  rewrite in_map_iff. intros (y & E & Hy). rewrite Forall_forall in Hx. specialize (Hx _ Hy).
  unfold elt in Hx. rewrite E in Hx. exact (blt_irrefl _ Hx).
Qed.

(* ---- lookup ---- *)
Definition fk (k : list bool) t : option (prefix * option T) :=
  find (fun e => if keq (ekey e) k then true else false) (entries t).

Lemma find_app {A} (f : A -> bool) (l m : list A) :
  find f (l ++ m) = match find f l with Some x => Some x | None => find f m end.
Proof. induction l as [|x l IH]; simpl; [reflexivity|]. destruct (f x); [reflexivity|exact IH]. Qed.

Lemma fk_out k0 t k : wf k0 t -> ~ pre k0 k -> fk k t = None.
Proof.
  intros Hw Hn. unfold fk. destruct (find _ _) as [e|] eqn:E; [|reflexivity].
  apply find_some in E. destruct E as [Hi He]. destruct (keq (ekey e) k) as [Ek|]; [|discriminate].
  pose proof (entries_wf _ _ Hw) as F. rewrite Forall_forall in F. destruct (F _ Hi) as [_ Hp].
  rewrite Ek in Hp. contradiction.
Qed.

Lemma fk_node p d s h a l r k :
  fk k (Node p d s h a l r) =
  match (if a then if keq (key p) k then Some (p, d) else None else None) with
  | Some e => Some e
  | None => match fk k l with Some e => Some e | None => fk k r end
  end.
Proof.
  unfold fk. simpl. rewrite !find_app. destruct a; [|reflexivity].
  simpl. unfold ekey at 1. simpl. destruct (keq (key p) k); reflexivity.
Qed.

Lemma fk_mk p d a l r k :
  fk k (mk p d a l r) =
  match (if a then if keq (key p) k then Some (p, d) else None else None) with
  | Some e => Some e
  | None => match fk k l with Some e => Some e | None => fk k r end
  end.
Proof. apply fk_node. Qed.

(* lookup at a node, by position of the key *)
Lemma fk_here p d s h a l r :
  wf (key p ++ [false]) l -> wf (key p ++ [true]) r ->
  fk (key p) (Node p d s h a l r) = if a then Some (p, d) else None.
Proof.
  intros Hl Hr. rewrite fk_node, (fk_out _ l _ Hl), (fk_out _ r _ Hr) by apply pre_snoc_not.
  destruct a; [|reflexivity]. destruct (keq (key p) (key p)); congruence.
Qed.

Lemma fk_below p d s h a l r c x :
  wf (key p ++ [false]) l -> wf (key p ++ [true]) r ->
  fk (key p ++ c :: x) (Node p d s h a l r) = fk (key p ++ c :: x) (kid c l r).
Proof.
  intros Hl Hr. rewrite fk_node.
  destruct (keq (key p) (key p ++ c :: x)) as [E|_].
  - exfalso. assert (length (key p) = length (key p ++ c :: x)) as L by (rewrite <- E; reflexivity).
    rewrite app_length in L. simpl in L. lia.
  - assert ((if a then None else None) = @None (prefix * option T)) as -> by (destruct a; reflexivity).
    destruct c; simpl.
    + rewrite (fk_out _ l _ Hl); [reflexivity|]. apply (pre_nsnoc _ true).
    + rewrite (fk_out _ r _ Hr); [|apply (pre_nsnoc _ false)]. destruct (fk _ l); reflexivity.
Qed.

Lemma fk_notpre p d s h a l r k :
  wf (key p ++ [false]) l -> wf (key p ++ [true]) r ->
  ~ pre (key p) k -> fk k (Node p d s h a l r) = None.
Proof.
  intros Hl Hr Hn. rewrite fk_node.
  rewrite (fk_out _ l _ Hl), (fk_out _ r _ Hr) by (intros H; apply Hn; eapply pre_app; exact H).
  destruct (keq (key p) k) as [E|_]; [|destruct a; reflexivity].
  exfalso. apply Hn. rewrite E. apply pre_refl.
Qed.

Lemma fk_In k t e : fk k t = Some e -> In e (entries t) /\ ekey e = k.
Proof.
  unfold fk. intros H. apply find_some in H. destruct H as [A B]. split; [exact A|].
  destruct (keq (ekey e) k); [assumption|discriminate].
Qed.

Lemma In_fk k0 t e : wf k0 t -> In e (entries t) -> fk (ekey e) t = Some e.
Proof.
  intros Hw Hi. pose proof (entries_nodup _ _ Hw) as ND.
  unfold fk. induction (entries t) as [|x l IH]; [contradiction|].
  simpl in *. inversion ND as [|? ? Hx ND']; subst.
  destruct Hi as [<-|Hi].
  - destruct (keq (ekey x) (ekey x)); congruence.
  - destruct (keq (ekey x) (ekey e)) as [E|_].
    + exfalso. apply Hx. rewrite E. apply in_map. exact Hi.
    + apply IH; assumption.
Qed.

Lemma fk_iff k0 t k e : wf k0 t -> fk k t = Some e <-> In e (entries t) /\ ekey e = k.
Proof.
  intros Hw. split; [apply fk_In|]. intros [H <-]. apply (In_fk _ _ _ Hw H).
Qed.

Lemma fk_none_iff k0 t k : wf k0 t -> fk k t = None <-> (forall e, In e (entries t) -> ekey e <> k).
Proof.
  intros Hw. split.
  - intros H e He E. subst k. rewrite (In_fk _ _ _ Hw He) in H. discriminate.
  - intros H. destruct (fk k t) as [e|] eqn:E; [|reflexivity]. apply fk_In in E. destruct E as [A B].
    exfalso. exact (H _ A B).
Qed.

(* ---- counting ---- *)
Lemma NumNodes_entries k t : wf k t -> NumNodes t = nlen (entries t) mod 2 ^ 32.
Proof.
  revert k. induction t as [|p d s h a l IHl r IHr]; intros k Hw; [reflexivity|].
  destruct Hw as (_ & _ & Hs & _ & _ & Hl & Hr). cbn [NumNodes]. rewrite Hs.
  unfold mk. cbn [NumNodes entries]. rewrite (IHl _ Hl), (IHr _ Hr).
  rewrite <- N.add_mod by (intros E; discriminate). rewrite !nlen_app.
  destruct a; unfold nlen at 3; simpl length.
  - rewrite N.add_mod_idemp_l by (intros E; discriminate). f_equal. lia.
  - reflexivity.
Qed.

Hypothesis HW : 0 < W /\ W < 2 ^ 15.

(* real depth of a tree *)
Fixpoint depth t : N := match t with Nil => 0 | Node _ _ _ _ _ l r => 1 + N.max (depth l) (depth r) end.

Lemma depth_bound k t : wf k t -> t <> Nil -> depth t + nlen k <= W + 1.
Proof.
  revert k. induction t as [|p d s h a l IHl r IHr]; intros k Hw Hn; [congruence|].
  destruct Hw as ([_ Hp] & Hk & _ & _ & _ & Hl & Hr). cbn [depth].
  apply pre_length in Hk. rewrite key_length in Hk. unfold nlen in *.
  assert (depth l + plen p <= W) as A.
  { destruct l as [|? ? ? ? ? ? ?]; [cbn [depth]; lia|].
    specialize (IHl _ Hl ltac:(discriminate)). rewrite app_length, key_length in IHl. simpl length in IHl. lia. }
  assert (depth r + plen p <= W) as B.
  { destruct r as [|? ? ? ? ? ? ?]; [cbn [depth]; lia|].
    specialize (IHr _ Hr ltac:(discriminate)). rewrite app_length, key_length in IHr. simpl length in IHr. lia. }
  lia.
Qed.

Lemma height_depth k t : wf k t -> height t = depth t.
Proof.
  revert k. induction t as [|p d s h a l IHl r IHr]; intros k Hw; [reflexivity|].
  pose proof (depth_bound _ _ Hw ltac:(discriminate)) as B.
  destruct Hw as (_ & _ & _ & Hh & _ & Hl & Hr). cbn [height]. rewrite Hh.
  unfold mk. cbn [height depth] in *. rewrite (IHl _ Hl), (IHr _ Hr). apply N.mod_small. lia.
Qed.

Lemma wf_isValid k t m : wf k t -> m <= nlen k -> isValidLen t m = true.
Proof.
  revert k m. induction t as [|p d s h a l IHl r IHr]; intros k m Hw Hm; [reflexivity|].
  pose proof (depth_bound _ _ Hw ltac:(discriminate)) as DB. cbn [depth] in DB.
  destruct Hw as (Hp & Hk & Hs & Hh & Ha & Hl & Hr). cbn [isValidLen].
  assert (negb a && (is_nil l || is_nil r) = false) as ->.
  { destruct a; [reflexivity|]. destruct (Ha eq_refl) as [A B].
    destruct l; [congruence|]. destruct r; [congruence|]. reflexivity. }
  assert ((if a then wsub 32 s 1 else s) = (NumNodes l + NumNodes r) mod 2 ^ 32) as ->.
  { rewrite Hs. unfold mk. cbn [NumNodes]. destruct a; [|reflexivity].
    set (x := (NumNodes l + NumNodes r) mod 2 ^ 32).
    assert (x < 2 ^ 32) as Hx by (apply N.mod_lt; discriminate).
    unfold wsub. change (1 mod 2 ^ 32) with 1.
    destruct (N.eq_dec (x + 1) (2 ^ 32)) as [E|E].
    - rewrite E. rewrite N.mod_same by discriminate. rewrite N.mod_small; lia.
    - rewrite (N.mod_small (x + 1)) by lia.
      replace (x + 1 + (2 ^ 32 - 1)) with (x + 1 * 2 ^ 32) by lia.
      rewrite N.mod_add by discriminate. apply N.mod_small. exact Hx. }
  rewrite N.eqb_refl. cbn [negb].
  assert ((h =? (1 + N.max (height l) (height r) mod 2 ^ 16) mod 2 ^ 16) = true) as ->.
  { rewrite Hh. unfold mk. cbn [height].
    rewrite (height_depth _ _ Hl), (height_depth _ _ Hr).
    rewrite (N.mod_small (N.max _ _)) by lia. apply N.eqb_refl. }
  cbn [negb].
  apply pre_length in Hk. rewrite key_length in Hk. unfold nlen in Hm.
  assert ((plen p <? m) = false) as -> by lia.
  rewrite (IHl _ (plen p + 1) Hl), (IHr _ (plen p + 1) Hr); [reflexivity| |];
    rewrite nlen_app, nlen_key; unfold nlen; simpl; lia.
Qed.
End WF.
