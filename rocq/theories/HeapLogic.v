(* HeapLogic.v - a program logic for heap programs that run among other threads:
   wpi S h p Q holds when p, started in heap h and assuming only that nobody else
   changes the addresses S (which grow with p's allocations), never loads or
   stores outside S and ends in a state satisfying Q. *)
From Verif Require Export HeapOwn.
From Coq Require Import Arith ZifyBool ZifyNat ZifyN.
Local Open Scope prog_scope.

Section Logic.
Context {T : Type}.
Notation hp := (heap T).
Notation aset := (nat -> Prop).
Implicit Types (S : aset) (h : hp).

(* what other threads may do *)
Definition keeps S h h' : Prop := forall i, S i -> nth_error h' i = nth_error h i.
Definition rely S h h' : Prop := (length h <= length h')%nat /\ keeps S h h'.
Definition dom S h : Prop := forall i, S i -> (i < length h)%nat.

Fixpoint wpi {A} S h (p : prog T A) (Q : res A -> aset -> hp -> Prop) : Prop :=
  match p with
  | Done r => Q r S h
  | Alloc n k => forall h1, rely S h h1 -> wpi (plus1 (length h1) S) (h1 ++ [n]) (k (length h1)) Q
  | Load l k => S l /\ exists n, nth_error h l = Some n /\ wpi S h (k n) Q
  | Store l n k => S l /\ forall h1, rely S h h1 -> wpi S (upd h1 l n) k Q
  end.

Lemma keeps_refl S h : keeps S h h. Proof. intros i _. reflexivity. Qed.
Lemma rely_refl S h : rely S h h. Proof. split; [lia|apply keeps_refl]. Qed.
Lemma keeps_trans S h1 h2 h3 : keeps S h1 h2 -> keeps S h2 h3 -> keeps S h1 h3.
Proof. intros A B i H. rewrite B by auto. apply A. auto. Qed.
Lemma rely_trans S h1 h2 h3 : rely S h1 h2 -> rely S h2 h3 -> rely S h1 h3.
Proof. intros [A B] [C D]. split; [lia|eapply keeps_trans; eauto]. Qed.
Lemma dom_rely S h h' : dom S h -> rely S h h' -> dom S h'.
Proof. intros D [L _] i H. specialize (D i H). lia. Qed.
Lemma dom_alloc S h n : dom S h -> dom (plus1 (length h) S) (h ++ [n]).
Proof. intros D i [->|H]; rewrite app_length; cbn; [lia|]. specialize (D i H). lia. Qed.
Lemma nth_last {X} (h : list X) n : nth_error (h ++ [n]) (length h) = Some n.
Proof. rewrite nth_error_app2, Nat.sub_diag by lia. reflexivity. Qed.
Lemma dom_upd S h l n : dom S h -> dom S (upd h l n).
Proof. intros D i H. rewrite upd_length. auto. Qed.

(* postconditions that other threads cannot spoil *)
Definition stable {A} (Q : res A -> aset -> hp -> Prop) : Prop :=
  forall r S h h', Q r S h -> rely S h h' -> Q r S h'.
Lemma wpi_stable {A} (p : prog T A) : forall S h h' Q, stable Q -> wpi S h p Q -> rely S h h' -> wpi S h' p Q.
Proof.
  induction p; intros S h0 h' Q HQ H0 R; cbn [wpi] in *.
  - eapply HQ; eauto.
  - intros h1 R1. apply H0. eapply rely_trans; eauto.
  - destruct H0 as (Hl & n & E & H0). split; auto. exists n. split; [rewrite (proj2 R) by auto; auto|]. eapply H; eauto.
  - destruct H0 as (Hl & H0). split; auto. intros h1 R1. apply H0. eapply rely_trans; eauto.
Qed.

Lemma wpi_conseq {A} (p : prog T A) : forall S h Q (R : res A -> aset -> hp -> Prop),
  wpi S h p Q -> (forall r S' h', Q r S' h' -> R r S' h') -> wpi S h p R.
Proof.
  induction p; intros S h0 Q R H0 K; cbn [wpi] in *; auto.
  - intros h1 R1. eapply H; [apply H0; auto|auto].
  - destruct H0 as (Hl & n & E & H0). split; auto. exists n. split; auto. eapply H; eauto.
  - destruct H0 as (Hl & H0). split; auto. intros h1 R1. eapply IHp; [apply H0; auto|auto].
Qed.
Lemma wpi_bind {A B} (p : prog T A) (f : A -> prog T B) : forall S h Q,
  wpi S h p (fun r S' h' => match r with Ok a => wpi S' h' (f a) Q | Panic => Q Panic S' h' | OutOfFuel => Q OutOfFuel S' h' end) ->
  wpi S h (pbind p f) Q.
Proof.
  induction p; intros S h0 Q H0; cbn [wpi pbind] in *.
  - destruct r; exact H0.
  - intros h1 R1. apply H. apply H0. auto.
  - destruct H0 as (Hl & n & E & H0). split; auto. exists n. split; auto.
  - destruct H0 as (Hl & H0). split; auto.
Qed.
(* the frame: what a program that owns O leaves alone *)
Lemma wpi_frame {A} (p : prog T A) : forall S h O Q, dom S h -> owns O p -> wpi S h p Q ->
  wpi S h p (fun r S' h' => Q r S' h' /\ incl_s S S' /\ dom S' h' /\
                            forall i, S i -> ~ O i -> nth_error h' i = nth_error h i).
Proof.
  induction p; intros S h0 O Q D Ow H0; cbn [wpi owns] in *.
  - repeat split; auto. apply incl_refl.
  - intros h1 R1. assert (D1 : dom S h1) by (eapply dom_rely; eauto).
    eapply wpi_conseq; [eapply H; [apply dom_alloc; exact D1|apply Ow|apply H0; exact R1]|].
    cbn beta. intros r S' h' (K1 & K2 & K3 & K4). repeat split; auto.
    + eapply incl_trans; [apply incl_plus1|exact K2].
    + intros i Hi Oi. rewrite K4; [|right; auto|].
      * rewrite nth_error_app1 by auto. apply R1. auto.
      * intros [->|X]; [|auto]. specialize (D1 _ Hi). lia.
  - destruct H0 as (Hl & n & E & H0). split; auto. exists n. split; auto.
  - destruct Ow as [Ol Ow]. destruct H0 as (Hl & H0). split; auto. intros h1 R1. assert (D1 : dom S h1) by (eapply dom_rely; eauto).
    eapply wpi_conseq; [eapply IHp; [apply dom_upd; exact D1|exact Ow|apply H0; exact R1]|].
    cbn beta. intros r S' h' (K1 & K2 & K3 & K4). repeat split; auto.
    intros i Hi Oi. rewrite K4 by auto. rewrite upd_other by (intros ->; auto). apply R1. auto.
Qed.
(* running alone *)
Lemma wpi_run {A} (p : prog T A) : forall S h Q, dom S h -> wpi S h p Q ->
  exists S', Q (snd (run p h)) S' (fst (run p h)) /\ incl_s S S' /\ dom S' (fst (run p h)).
Proof.
  induction p; intros S h0 Q D H0; cbn [wpi run] in *.
  - exists S. repeat split; auto. apply incl_refl.
  - destruct (H (length h0) (plus1 (length h0) S) (h0 ++ [n]) Q) as (S' & K1 & K2 & K3).
    + apply dom_alloc. exact D.
    + apply H0. apply rely_refl.
    + exists S'. repeat split; auto. eapply incl_trans; [apply incl_plus1|exact K2].
  - destruct H0 as (Hl & n & E & H0). rewrite E. apply (H n S h0 Q); auto.
  - destruct H0 as (Hl & H0). apply IHp; [apply dom_upd; auto|]. apply H0. apply rely_refl.
Qed.

(* ---- the tree represented by a pointer ---- *)
Fixpoint repr S h (p : ptr) (t : trie T) : Prop :=
  match t with
  | Nil => p = None
  | Node pr d s hh a l r =>
    exists i c0 c1, p = Some i /\ S i /\ nth_error h i = Some (mkH pr d s hh a c0 c1) /\ repr S h c0 l /\ repr S h c1 r
  end.
Lemma repr_keep S h p t : repr S h p t -> forall S' h', incl_s S S' -> keeps S h h' -> repr S' h' p t.
Proof.
  revert p. induction t as [|pr d s hh a l IHl r IHr]; intros p H S' h' I K; cbn [repr] in *; auto.
  destruct H as (i & c0 & c1 & E1 & E2 & E3 & E4 & E5). exists i, c0, c1. repeat split; eauto. rewrite K; auto.
Qed.
Lemma repr_rely S h p t h' : repr S h p t -> rely S h h' -> repr S h' p t.
Proof. intros H [_ K]. eapply repr_keep; eauto. apply incl_refl. Qed.
Lemma repr_det S h p t S' t' : repr S h p t -> repr S' h p t' -> t = t'.
Proof.
  revert p t'. induction t as [|pr d s hh a l IHl r IHr]; intros p t' H H'.
  - cbn in H. subst. destruct t'; auto. cbn in H'. destruct H' as (? & ? & ? & ? & _). discriminate.
  - cbn in H. destruct H as (i & c0 & c1 & -> & _ & E & H1 & H2). destruct t' as [|pr' d' s' hh' a' l' r']; [discriminate|].
    cbn in H'. destruct H' as (j & c0' & c1' & [= <-] & _ & E' & H1' & H2'). rewrite E in E'. injection E' as <- <- <- <- <- <- <-.
    f_equal; eauto.
Qed.
Definition without (l : nat) S : aset := fun i => S i /\ i <> l.
Lemma without_incl l S : incl_s (without l S) S. Proof. intros i [H _]. exact H. Qed.
Lemma without_plus1 l S : ~ S l -> incl_s S (without l (plus1 l S)).
Proof. intros N i H. split; [right; auto|]. intros ->. auto. Qed.

(* the number of nodes on the longest path *)
Fixpoint depth (t : trie T) : nat :=
  match t with Nil => 0 | Node _ _ _ _ _ l r => Datatypes.S (Nat.max (depth l) (depth r)) end.

(* ---- rules ---- *)
Lemma wpi_load {B} S h i n (f : hnode T -> prog T B) Q : S i -> nth_error h i = Some n ->
  wpi S h (f n) Q -> wpi S h (pbind (load (Some i)) f) Q.
Proof. intros Hi E H. cbn. split; auto. exists n. auto. Qed.
Lemma wpi_ret {A} S h (a : A) (Q : res A -> aset -> hp -> Prop) : Q (Ok a) S h -> wpi S h (ret a) Q.
Proof. exact (fun x => x). Qed.
Lemma wpi_alloc {B} S h n (f : nat -> prog T B) Q : dom S h ->
  (forall l h', ~ S l -> dom (plus1 l S) h' -> nth_error h' l = Some n -> keeps S h h' -> wpi (plus1 l S) h' (f l) Q) ->
  wpi S h (pbind (alloc n) f) Q.
Proof.
  intros D H. cbn. intros h1 R. assert (D1 : dom S h1) by (eapply dom_rely; eauto). apply H.
  - intros X. specialize (D1 _ X). lia.
  - apply dom_alloc. auto.
  - apply nth_last.
  - intros i Hi. rewrite nth_error_app1 by auto. apply R. auto.
Qed.
Lemma wpi_store {B} S h l n (f : unit -> prog T B) Q : dom S h -> S l ->
  (forall h', dom S h' -> nth_error h' l = Some n -> keeps (without l S) h h' -> wpi S h' (f tt) Q) ->
  wpi S h (pbind (store l n) f) Q.
Proof.
  intros D Hl H. cbn. split; auto. intros h1 R. assert (D1 : dom S h1) by (eapply dom_rely; eauto). apply H.
  - apply dom_upd. auto.
  - apply upd_same. auto.
  - intros i [Hi Ni]. rewrite upd_other by auto. apply R. auto.
Qed.
Lemma wpi_store_last S h l n (Q : res unit -> aset -> hp -> Prop) : dom S h -> S l ->
  (forall h', dom S h' -> nth_error h' l = Some n -> keeps (without l S) h h' -> Q (Ok tt) S h') ->
  wpi S h (store l n) Q.
Proof.
  intros D Hl H. cbn. split; auto. intros h1 R. assert (D1 : dom S h1) by (eapply dom_rely; eauto). apply H.
  - apply dom_upd. auto.
  - apply upd_same. auto.
  - intros i [Hi Ni]. rewrite upd_other by auto. apply R. auto.
Qed.
Lemma pbind_assoc {A B C} (m : prog T A) (f : A -> prog T B) (g : B -> prog T C) Q S h :
  wpi S h (pbind m (fun a => pbind (f a) g)) Q -> wpi S h (pbind (pbind m f) g) Q.
Proof.
  revert S h. induction m as [r|n k IH|l k IH|l n k IH]; intros S h0 H0; cbn [pbind wpi] in *.
  - destruct r; exact H0.
  - intros h1 R1. apply IH. apply H0. exact R1.
  - destruct H0 as (Hl & n & E & H0). split; auto. exists n. split; auto.
  - destruct H0 as (Hl & H0). split; auto.
Qed.
Lemma wpi_modify_last S h l f n (Q : res unit -> aset -> hp -> Prop) : dom S h -> S l -> nth_error h l = Some n ->
  (forall h', dom S h' -> nth_error h' l = Some (f n) -> keeps (without l S) h h' -> Q (Ok tt) S h') ->
  wpi S h (modify l f) Q.
Proof.
  intros D Hl E H. unfold modify. apply (wpi_load _ _ _ _ _ _ Hl E). apply wpi_store_last; auto.
Qed.
Lemma wpi_modify {B} S h l f n (g : unit -> prog T B) Q : dom S h -> S l -> nth_error h l = Some n ->
  (forall h', dom S h' -> nth_error h' l = Some (f n) -> keeps (without l S) h h' -> wpi S h' (g tt) Q) ->
  wpi S h (pbind (modify l f) g) Q.
Proof.
  intros D Hl E H. apply wpi_bind. eapply wpi_modify_last; eauto.
Qed.
Lemma wpi_NumNodes {B} S h p t (f : N -> prog T B) Q : repr S h p t -> wpi S h (f (NumNodes t)) Q -> wpi S h (pbind (h_NumNodes p) f) Q.
Proof.
  destruct t as [|pr d s hh a l r]; cbn [repr].
  - intros -> H. exact H.
  - intros (i & c0 & c1 & -> & Hi & E & _) H. unfold h_NumNodes. apply pbind_assoc. eapply wpi_load; eauto.
Qed.
Lemma wpi_height {B} S h p t (f : N -> prog T B) Q : repr S h p t -> wpi S h (f (height t)) Q -> wpi S h (pbind (h_height p) f) Q.
Proof.
  destruct t as [|pr d s hh a l r]; cbn [repr].
  - intros -> H. exact H.
  - intros (i & c0 & c1 & -> & Hi & E & _) H. unfold h_height. apply pbind_assoc. eapply wpi_load; eauto.
Qed.
Lemma wpi_active {B} S h p t (f : bool -> prog T B) Q : repr S h p t -> wpi S h (f (active t)) Q -> wpi S h (pbind (h_active p) f) Q.
Proof.
  destruct t as [|pr d s hh a l r]; cbn [repr].
  - intros -> H. exact H.
  - intros (i & c0 & c1 & -> & Hi & E & _) H. unfold h_active. apply pbind_assoc. eapply wpi_load; eauto.
Qed.
Lemma repr_nilp S h p t : repr S h p t -> nilp p = is_nil t.
Proof. destruct t; cbn; [intros ->; reflexivity|]. intros (i & c0 & c1 & -> & _). reflexivity. Qed.

(* mutate: after the mutator has run, the node gets its sizes *)
Definition mpost (l : nat) (Q : res ptr -> aset -> hp -> Prop) (r : res unit) S' h' : Prop :=
  match r with
  | Ok _ => exists n t0 t1, dom S' h' /\ S' l /\ nth_error h' l = Some n /\
        repr (without l S') h' (hc0 n) t0 /\ repr (without l S') h' (hc1 n) t1 /\
        forall h'', dom S' h'' -> keeps (without l S') h' h'' ->
          nth_error h'' l = Some (w_sizes (NumNodes (mk (hPrefix n) (hData n) (hactive n) t0 t1)) (height (mk (hPrefix n) (hData n) (hactive n) t0 t1)) n) ->
          repr S' h'' (Some l) (mk (hPrefix n) (hData n) (hactive n) t0 t1) -> Q (Ok (Some l)) S' h''
  | Panic => Q Panic S' h'
  | OutOfFuel => Q OutOfFuel S' h'
  end.
Lemma wpi_mutate S h l (mut : nat -> prog T unit) (Q : res ptr -> aset -> hp -> Prop) :
  wpi S h (mut l) (mpost l Q) -> wpi S h (h_mutate (Some l) mut) Q.
Proof.
  intros H. unfold h_mutate. apply wpi_bind. eapply wpi_conseq; [exact H|]. cbn beta. intros r S' h' K. destruct r; auto.
  destruct K as (n & t0 & t1 & D & Hl & E & R0 & R1 & K).
  eapply wpi_load; [exact Hl|exact E|]. cbv beta.
  assert (R0' : repr S' h' (hc0 n) t0) by (eapply repr_keep; [exact R0|apply without_incl|apply keeps_refl]).
  assert (R1' : repr S' h' (hc1 n) t1) by (eapply repr_keep; [exact R1|apply without_incl|apply keeps_refl]).
  eapply wpi_NumNodes; [exact R0'|]. eapply wpi_NumNodes; [exact R1'|]. eapply wpi_height; [exact R0'|]. eapply wpi_height; [exact R1'|]. cbv zeta.
  apply wpi_store; auto. intros h'' D'' E'' K''. apply wpi_ret. apply K; auto.
  unfold mk. cbn [repr]. exists l, (hc0 n), (hc1 n). repeat split; auto.
  - eapply repr_keep; [exact R0|apply without_incl|exact K''].
  - eapply repr_keep; [exact R1|apply without_incl|exact K''].
Qed.

(* == on interfaces of comparable values: total, and true only of equal values *)
Definition ieq_ok (ieq : option T -> option T -> res bool) : Prop :=
  forall a b, exists e, ieq a b = Ok e /\ (e = true -> a = b).
Lemma node_eq_ok ieq a b : ieq_ok ieq -> exists e, node_eq ieq a b = Ok e /\ (e = true -> a = b).
Proof.
  intros H. destruct a as [p d s h ac c0 c1], b as [p' d' s' h' ac' c0' c1']. unfold node_eq. cbn [hPrefix hData hsize hh hactive hc0 hc1].
  destruct (prefix_eqb p p') eqn:P; cbn [negb]; [|exists false; split; [reflexivity|discriminate]].
  destruct (H d d') as (e & -> & He). cbn [bind]. destruct e; cbn [negb]; [|exists false; split; [reflexivity|discriminate]].
  eexists. split; [reflexivity|]. intros X. rewrite !andb_true_iff in X. destruct X as ((((X1 & X2) & X3) & X4) & X5).
  apply N.eqb_eq in X1, X2. apply Bool.eqb_prop in X3.
  assert (PE : forall x y, ptr_eqb x y = true -> x = y).
  { intros [x|] [y|]; cbn; try discriminate; auto. intros Y. apply Nat.eqb_eq in Y. congruence. }
  apply PE in X4, X5. unfold prefix_eqb in P. apply andb_true_iff in P. destruct P as [P1 P2]. apply N.eqb_eq in P1, P2.
  rewrite (He eq_refl). subst. destruct p, p'; cbn in *; subst; reflexivity.
Qed.
Definition cpost (l i : nat) (n0 : hnode T) (Q : res ptr -> aset -> hp -> Prop) (r : res unit) S' h' : Prop :=
  match r with
  | Ok _ => exists n t0 t1, dom S' h' /\ S' l /\ nth_error h' l = Some n /\ S' i /\ nth_error h' i = Some n0 /\
        repr (without l S') h' (hc0 n) t0 /\ repr (without l S') h' (hc1 n) t1 /\
        forall p h'', dom S' h'' -> keeps (without l S') h' h'' ->
          repr S' h'' p (mk (hPrefix n) (hData n) (hactive n) t0 t1) -> Q (Ok p) S' h''
  | Panic => Q Panic S' h'
  | OutOfFuel => Q OutOfFuel S' h'
  end.
Lemma wpi_copyMutate ieq S h i n0 (mut : nat -> prog T unit) (Q : res ptr -> aset -> hp -> Prop) : ieq_ok ieq -> dom S h -> S i -> nth_error h i = Some n0 ->
  (forall l h1, ~ S l -> dom (plus1 l S) h1 -> nth_error h1 l = Some n0 -> keeps S h h1 ->
     wpi (plus1 l S) h1 (mut l) (cpost l i n0 Q)) ->
  wpi S h (h_copyMutate ieq (Some i) mut) Q.
Proof.
  intros HI D Hi E H. unfold h_copyMutate. eapply wpi_load; [exact Hi|exact E|]. cbv beta.
  apply wpi_alloc; auto. intros l h1 Nl D1 E1 K1. apply wpi_bind. apply wpi_mutate.
  eapply wpi_conseq; [apply H; auto|]. cbn beta. intros r S' h' K. destruct r; auto.
  destruct K as (n & t0 & t1 & D' & Hl & En & Hi' & Ei & R0 & R1 & K). exists n, t0, t1. repeat match goal with |- _ /\ _ => split end; auto.
  intros h'' D'' K'' E'' R''. 
  assert (NE : i <> l) by (intros ->; auto).
  eapply wpi_load; [exact Hl|exact E''|]. eapply wpi_load; [exact Hi'| |].
  { rewrite K'' by (split; auto). exact Ei. }
  apply wpi_bind. unfold lift. cbn [wpi].
  destruct (node_eq_ok ieq (w_sizes (NumNodes (mk (hPrefix n) (hData n) (hactive n) t0 t1)) (height (mk (hPrefix n) (hData n) (hactive n) t0 t1)) n) n0 HI) as (e & -> & He).
  destruct e; [|apply wpi_ret; apply K; auto]. apply wpi_ret. apply K; auto. specialize (He eq_refl).
  unfold mk in *. cbn [repr] in *. destruct R'' as (j & c0 & c1 & [= <-] & _ & X & Y & Z).
  exists i, c0, c1. repeat split; auto. rewrite K'' by (split; auto). rewrite Ei, <- He. rewrite E'' in X. exact X.
Qed.
End Logic.
