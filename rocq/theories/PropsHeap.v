(* PropsHeap.v - C20 at the level of single calls and sequential histories:
   no call ever changes a node that existed before it, so what a pointer denotes
   never changes; and each call, run on the heap, computes what the tree-level
   model of the other files computes.  (Conc.v and ConcProof.v have the same for
   interleaved calls.) *)
From Verif Require Export HeapSet.
From Verif Require Import TableThm.
From Coq Require Import Arith ZifyBool ZifyNat ZifyN.
Local Open Scope prog_scope.

Section C20.
Variable W : N.

(* every function of node.go and setnode.go that takes or returns nodes: the
   table calls on values of type T, the set calls on T = unit *)
Inductive node_call (T : Type) : Type :=
| NInsert (me : ptr) (k : prefix) (v : option T)
| NUpdate (me : ptr) (k : prefix) (v : option T) (eq : comparator T)
| NInsertOrUpdate (me : ptr) (k : prefix) (v : option T) (eq : comparator T)
| NGetOrInsert (me : ptr) (k : prefix) (v : option T)
| NDelete (me : ptr) (k : prefix)
| NMatch (me : ptr) (k : prefix)
| NAggregate (me : ptr) (eq : comparator T)
| NMap (St : Type) (me : ptr) (mapper : prefix -> option T -> St -> St * option T) (eq : comparator T) (st : St)
| NEqual (me other : ptr) (eq : comparator T)
| NDiff (St : Type) (l r : ptr) (H : @hHandler T St) (eq : comparator T) (st : St)
| NWalk (St : Type) (me : ptr) (cb : prefix -> option T -> St -> St * bool) (st : St).
Inductive set_call : Type :=
| NSetFromPrefix (p : prefix)
| NSetFromRange (r : range)
| NUnion (me other : ptr)
| NDifference (me other : ptr)
| NIntersect (me other : ptr).

(* the pointers a call returns do not matter here: only the heap afterwards *)
Definition drop {T A} (p : prog T A) : prog T unit := _ <- p ;; ret tt.
Definition call_prog {T} (ieq : option T -> option T -> res bool) (c : node_call T) : prog T unit :=
  match c with
  | NInsert _ me k v => drop (h_Insert W ieq me k v)
  | NUpdate _ me k v eq => drop (h_Update W ieq me k v eq)
  | NInsertOrUpdate _ me k v eq => drop (h_InsertOrUpdate W ieq me k v eq)
  | NGetOrInsert _ me k v => drop (h_GetOrInsert W ieq (pathW W) me k v)
  | NDelete _ me k => drop (h_del W ieq (pathW W) me k)
  | NMatch _ me k => drop (h_Match W (pathW W) me k)
  | NAggregate _ me eq => drop (h_Aggregate W ieq me eq)
  | NMap _ St me mapper eq st => drop (h_Map ieq (pathW W) me mapper eq st)
  | NEqual _ me other eq => drop (h_Equal (pathW W) me other eq)
  | NDiff _ St l r H eq st => drop (h_Diff W l r H eq st)
  | NWalk _ St me cb st => drop (h_Walk W me cb st)
  end.
Definition set_prog (c : set_call) : prog unit unit :=
  match c with
  | NSetFromPrefix p => drop (h_setNodeFromPrefix p)
  | NSetFromRange r => drop (h_setNodeFromRange W r)
  | NUnion me other => drop (h_Union W me other)
  | NDifference me other => drop (h_Difference W me other)
  | NIntersect me other => drop (h_Intersect W me other)
  end.

Lemma drop_owns {T A} (p : prog T A) : ownp none p any -> owns none (drop p).
Proof. intros H. apply ownp_owns with any. apply ownp_bind_any; [exact H|]. intros. apply ownp_ret_any. Qed.
Lemma call_owns {T} ieq (c : node_call T) : owns none (call_prog ieq c).
Proof.
  destruct c; apply drop_owns; auto using ownp_Insert, ownp_Update, ownp_InsertOrUpdate, ownp_GetOrInsert, ownp_del, ownp_Match, ownp_Equal.
  - apply ownp_aggregate.
  - apply ownp_Map.
  - apply ownp_diff.
  - apply ownp_diff.
Qed.
Lemma set_owns c : owns none (set_prog c).
Proof.
  destruct c; apply drop_owns.
  - apply ownp_setNodeFromPrefix.
  - apply ownp_from_range.
  - apply ownp_Union.
  - apply ownp_difference.
  - apply ownp_intersect.
Qed.
End C20.

(* p denotes the tree t in the heap h *)
Definition denotes {T} (h : heap T) (p : ptr) (t : trie T) : Prop := repr (fun _ => True) h p t.

Lemma denotes_grow {T} (h h' : heap T) p t :
  (forall i, (i < length h)%nat -> nth_error h' i = nth_error h i) -> denotes h p t -> denotes h' p t.
Proof.
  intros K. unfold denotes. revert p. induction t as [|pr d s hh a l IHl r IHr]; intros p H; cbn [repr] in *; auto.
  destruct H as (i & c0 & c1 & -> & _ & E & H1 & H2). exists i, c0, c1. repeat split; auto.
  rewrite K; auto. apply nth_error_Some. congruence.
Qed.

Section Thm.
Variable W : N.

(* One call: whatever the heap and the arguments (they need not be well formed),
   whether the call returns or panics, every node that existed before is
   unchanged in every field, and every pointer denotes what it denoted. *)
Theorem C20_call_changes_no_node : forall (T : Type) (ieq : option T -> option T -> res bool) (c : node_call T) (h : heap T),
  (forall i, (i < length h)%nat -> nth_error (fst (run (call_prog W ieq c) h)) i = nth_error h i) /\
  (forall p t, denotes h p t -> denotes (fst (run (call_prog W ieq c) h)) p t).
Proof.
  intros T ieq c h. pose proof (owns_run _ none h (call_owns W ieq c)) as [_ K].
  assert (K' : forall i, (i < length h)%nat -> nth_error (fst (run (call_prog W ieq c) h)) i = nth_error h i) by (intros; apply K; auto).
  split; auto. intros p t. apply denotes_grow. exact K'.
Qed.
Theorem C20_set_call_changes_no_node : forall (c : set_call) (h : heap unit),
  (forall i, (i < length h)%nat -> nth_error (fst (run (set_prog W c) h)) i = nth_error h i) /\
  (forall p t, denotes h p t -> denotes (fst (run (set_prog W c) h)) p t).
Proof.
  intros c h. pose proof (owns_run _ none h (set_owns W c)) as [_ K].
  assert (K' : forall i, (i < length h)%nat -> nth_error (fst (run (set_prog W c) h)) i = nth_error h i) by (intros; apply K; auto).
  split; auto. intros p t. apply denotes_grow. exact K'.
Qed.

(* Any history of calls: a snapshot taken at any time keeps its contents. *)
Theorem C20_snapshots_are_immutable : forall (T : Type) (ieq : option T -> option T -> res bool) (cs : list (node_call T)) (h : heap T) p t,
  denotes h p t -> denotes (fold_left (fun h c => fst (run (call_prog W ieq c) h)) cs h) p t.
Proof.
  intros T ieq cs. induction cs as [|c cs IH]; intros h p t H; cbn [fold_left]; auto.
  apply IH. apply C20_call_changes_no_node. exact H.
Qed.
Theorem C20_set_snapshots_are_immutable : forall (cs : list set_call) (h : heap unit) p t,
  denotes h p t -> denotes (fold_left (fun h c => fst (run (set_prog W c) h)) cs h) p t.
Proof.
  intros cs. induction cs as [|c cs IH]; intros h p t H; cbn [fold_left]; auto.
  apply IH. apply C20_set_call_changes_no_node. exact H.
Qed.

(* a pointer denotes at most one tree *)
Theorem C20_denotes_unique : forall (T : Type) (h : heap T) p t t', denotes h p t -> denotes h p t' -> t = t'.
Proof. intros T h p t t' H H'. eapply repr_det; eauto. Qed.
End Thm.

(* ---- the heap programs compute the tree functions ---- *)
Section Refines.
Variable W : N.
Hypothesis HW : 0 < W /\ W < 2 ^ 15.

Lemma denotes_dom {T} (h : heap T) p t : denotes h p t -> repr (fun i => (i < length h)%nat) h p t.
Proof.
  unfold denotes. revert p. induction t as [|pr d s hh a l IHl r IHr]; intros p H; cbn [repr] in *; auto.
  destruct H as (i & c0 & c1 & -> & _ & E & H1 & H2). exists i, c0, c1. repeat split; auto.
  apply nth_error_Some. congruence.
Qed.
Lemma dom_all {T} (h : heap T) : dom (fun i => (i < length h)%nat) h.
Proof. intros i H. exact H. Qed.
Lemma repr_denotes {T} S (h : heap T) p t : repr S h p t -> denotes h p t.
Proof. intros H. eapply repr_keep; [exact H|intros i _; exact I|apply keeps_refl]. Qed.
Lemma run_rel {T A B} (R : A -> B -> (nat -> Prop) -> heap T -> Prop) (x : res A) (p : prog T B) (h : heap T) :
  wpi (fun i => (i < length h)%nat) h p (rel R x) -> exists S, rel R x (snd (run p h)) S (fst (run p h)).
Proof. intros H. destruct (wpi_run _ _ _ _ (dom_all h) H) as (S & K & _). eauto. Qed.

(* the outcome of a heap program against the outcome of a tree function *)
Definition same_outcome {T A B} (R : heap T -> A -> B -> Prop) (x : heap T * res A) (y : res B) : Prop :=
  match snd x, y with
  | Ok a, Ok b => R (fst x) a b
  | Panic, Panic => True
  | OutOfFuel, OutOfFuel => True   (* the tree functions for tables have no fuel: not reachable *)
  | _, _ => False
  end.
Definition same_tree {T} (h : heap T) (p : ptr) (t : trie T) : Prop := denotes h p t.
Definition same_tree_err {T} (h : heap T) (x : ptr * option terr) (y : trie T * option terr) : Prop :=
  denotes h (fst x) (fst y) /\ snd x = snd y.

Section Tables.
Context {T : Type}.
Variable ieq : option T -> option T -> res bool.
(* == on T does not panic and only equates identical values *)
Hypothesis OK : ieq_ok ieq.
Variables (h : heap T) (p : ptr) (t : trie T).
Hypothesis Hp : denotes h p t.
Hypothesis Hw : wf W [] t.
Let R0 := denotes_dom h p t Hp.

Ltac go L := let X := fresh in pose proof L as X; apply run_rel in X; let S0 := fresh "S0" in destruct X as (S0 & X); unfold same_outcome.

Theorem C20_table_calls_compute : forall q v eq,
  same_outcome same_tree_err (run (h_Insert W ieq p q v) h) (Insert W t q v) /\
  same_outcome same_tree_err (run (h_Update W ieq p q v eq) h) (Update W t q v eq) /\
  same_outcome same_tree (run (h_InsertOrUpdate W ieq p q v eq) h) (InsertOrUpdate W t q v eq) /\
  same_outcome (fun h' x y => denotes h' (fst x) (fst y) /\
                  exists i n, snd x = Some i /\ nth_error h' i = Some n /\ hData n = snd y)
     (run (h_GetOrInsert W ieq (pathW W) p q v) h) (GetOrInsert W t q v) /\
  same_outcome same_tree_err (run (h_del W ieq (pathW W) p q) h) (Ok (del W t q)) /\
  same_outcome (fun h' x y => match x, y with
                              | None, None => True
                              | Some i, Some (pr, d) => exists n, nth_error h' i = Some n /\ hPrefix n = pr /\ hData n = d
                              | _, _ => False
                              end) (run (h_Match W (pathW W) p q) h) (Ok (Match W t q)).
Proof.
  intros q v eq. pose proof (depth_wf W HW _ _ Hw) as Dp.
  split; [|split; [|split; [|split; [|split]]]].
  - go (wpi_Insert W _ OK HW _ h p [] t q v (dom_all h) R0 Hw). destruct (run _ h) as [h' r]. cbn [fst snd] in *.
    destruct (Insert W t q v), r; cbn in H; try tauto. destruct H. split; [eapply repr_denotes; eauto|auto].
  - go (wpi_Update W _ OK HW _ h p [] t q v eq (dom_all h) R0 Hw). destruct (run _ h) as [h' r]. cbn [fst snd] in *.
    destruct (Update W t q v eq), r; cbn in H; try tauto. destruct H. split; [eapply repr_denotes; eauto|auto].
  - go (wpi_InsertOrUpdate W _ OK HW _ h p [] t q v eq (dom_all h) R0 Hw). destruct (run _ h) as [h' r]. cbn [fst snd] in *.
    destruct (InsertOrUpdate W t q v eq), r; cbn in H; try tauto. eapply repr_denotes; eauto.
  - go (wpi_GetOrInsert W _ OK HW (pathW W) t p [] q v _ h (dom_all h) R0 Hw Dp). destruct (run _ h) as [h' r]. cbn [fst snd] in *.
    destruct (GetOrInsert W t q v), r; cbn in H; try tauto. destruct H as (H1 & i & n & H2 & _ & H3 & H4).
    split; [eapply repr_denotes; eauto|eauto].
  - go (wpi_del W _ OK HW (pathW W) t p q _ h (dom_all h) R0 Dp). destruct (run _ h) as [h' r]. cbn [fst snd] in *.
    destruct r; cbn in H; try tauto. destruct H. split; [eapply repr_denotes; eauto|auto].
  - go (wpi_Match W HW (pathW W) t p q _ h (dom_all h) R0 Dp). destruct (run _ h) as [h' r]. cbn [fst snd] in *.
    destruct r as [x| |]; cbn in H; try tauto. destruct (Match W t q) as [[pr d]|], x as [i|]; try tauto.
    destruct H as (n & _ & H). eauto.
Qed.

Theorem C20_table_builders_compute : forall (S : Type) (mapper : prefix -> option T -> S -> S * option T) (eq : comparator T) (st : S),
  same_outcome (fun h' x y => fst x = fst y /\ denotes h' (snd x) (snd y))
    (run (h_Map ieq (pathW W) p mapper eq st) h) (Map t mapper eq st) /\
  ((forall x y, exists b, eq x y = Ok b) -> (forall x y, eq x y = Ok true -> eq y x = Ok true) ->
   (forall x, eq x None = Ok true -> x = None) -> tidy t ->
   same_outcome same_tree (run (h_Aggregate W ieq p eq) h) (Aggregate (fun _ _ => false) t eq)).
Proof.
  intros S mapper eq st. pose proof (depth_wf W HW _ _ Hw) as Dp. split.
  - go (wpi_Map _ OK mapper eq (pathW W) t p st _ h (dom_all h) R0 Dp). destruct (run _ h) as [h' r]. cbn [fst snd] in *.
    destruct (Map t mapper eq st), r; cbn in H; try tauto. destruct H. split; [auto|eapply repr_denotes; eauto].
  - intros E1 E2 E3 Ti.
    go (wpi_aggregate W _ OK eq E1 E2 E3 (pathW W) t p [] None _ h (dom_all h) R0 Hw Ti Dp). change (@nop T) with (fun _ _ : trie T => false) in H.
    unfold h_Aggregate, Aggregate. destruct (run _ h) as [h' r]. cbn [fst snd] in *.
    destruct (aggregate _ t None eq), r; cbn in H; try tauto. eapply repr_denotes; eauto.
Qed.
End Tables.

Section Sets.
Variables (h : heap unit) (p q : ptr) (s t : snode).
Hypothesis Hp : denotes h p s.
Hypothesis Hq : denotes h q t.
Hypothesis Hs : SetProof.swf W [] s.
Hypothesis Ht : SetProof.swf W [] t.
Notation np := (fun _ _ : snode => false).

Theorem C20_set_calls_compute :
  same_outcome same_tree (run (h_Union W p q) h) (Union W np s t) /\
  same_outcome same_tree (run (h_Difference W p q) h) (Difference W np s t) /\
  same_outcome same_tree (run (h_Intersect W p q) h) (Intersect W np s t) /\
  (forall r, wf_range W r -> same_outcome same_tree (run (h_setNodeFromRange W r) h) (setNodeFromRange W np r)).
Proof.
  pose proof (denotes_dom h p s Hp) as Rp. pose proof (denotes_dom h q t Hq) as Rq.
  split; [|split; [|split]].
  - pose proof (wpi_Union W HW [] s t p q _ h (dom_all h) Rp Rq Hs Ht) as H. apply run_rel in H. destruct H as (S & H).
    change (@nop unit) with np in H. unfold same_outcome. destruct (run _ h) as [h' r]. cbn [fst snd] in *.
    destruct (Union W np s t), r; cbn in H; try tauto. eapply repr_denotes; eauto.
  - pose proof (wpi_Difference W HW [] s t p q _ h (dom_all h) Rp Rq Hs Ht) as H. apply run_rel in H. destruct H as (S & H).
    change (@nop unit) with np in H. unfold same_outcome. destruct (run _ h) as [h' r]. cbn [fst snd] in *.
    destruct (Difference W np s t), r; cbn in H; try tauto. eapply repr_denotes; eauto.
  - pose proof (wpi_Intersect W HW s t p q _ h (dom_all h) Rp Rq Hs Ht) as H. apply run_rel in H. destruct H as (S & H).
    change (@nop unit) with np in H. unfold same_outcome. destruct (run _ h) as [h' r]. cbn [fst snd] in *.
    destruct (Intersect W np s t), r; cbn in H; try tauto. eapply repr_denotes; eauto.
  - intros rg Hr. pose proof (wpi_setNodeFromRange W HW rg _ h (dom_all h) Hr) as H. apply run_rel in H. destruct H as (S & H).
    change (@nop unit) with np in H. unfold same_outcome. destruct (run _ h) as [h' r]. cbn [fst snd] in *.
    destruct (setNodeFromRange W np rg), r; cbn in H; try tauto. eapply repr_denotes; eauto.
Qed.
End Sets.
End Refines.
