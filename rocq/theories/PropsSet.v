(* PropsSet.v - the set properties C22 (sets), C23-C35 as theorems.
   Throughout: W is 32 or 128, peq any way pointer comparisons may come out
   (pointer_eq), s any set a program can obtain (set_value). *)
From Verif Require Export SetThm3 SetAbsorb TableThm.
From Coq Require Import Arith Sorted Permutation ZifyBool ZifyNat ZifyN.

Section Props.
Variable W : N.
Hypothesis IPW : ip_width W.
Notation mem := (mem W).
Notation set_value := (set_value W).
Notation valid_arg := (valid_arg W).
Notation arg_mem := (arg_mem W).
Notation exact_arg := (exact_arg W).
Notation canonical := (canonical W).
Let HW : 0 < W /\ W < 2 ^ 15 := ip_HW W IPW.

Lemma vswf s : set_value s -> swf W [] s.
Proof. apply value_swf; exact HW. Qed.

(* ---------------- C23 ---------------- *)

Theorem C23_argument : forall peq i, pointer_eq peq -> valid_arg i ->
  exists t, setI W peq i = Ok t /\ set_value t /\ (exact_arg i -> forall a, mem t a <-> arg_mem i a).
Proof. intros peq i P V. destruct (arg_ok W HW peq i P V) as (t & E & _ & SV & X). eauto. Qed.

Theorem C23_union : forall peq s i, pointer_eq peq -> set_value s -> valid_arg i ->
  exists t u, setI W peq i = Ok t /\ set_Union W peq s i = Ok u /\ set_value u /\
    (forall a, mem u a <-> mem s a \/ mem t a) /\
    (exact_arg i -> forall a, mem u a <-> mem s a \/ arg_mem i a).
Proof.
  intros peq s i P Hs V. destruct (arg_ok W HW peq i P V) as (t & E & St & SV & X).
  destruct (union_mem W HW peq s t P (vswf s Hs) St) as (u & EU & _ & M). exists t, u. split; [exact E|].
  assert (EU' : set_Union W peq s i = Ok u) by (unfold set_Union; rewrite E; exact EU).
  split; [exact EU'|]. split; [exact (sv_union W peq s i u P Hs V EU')|]. split; [exact M|]. intros XA a. rewrite (M a), (X XA a). reflexivity.
Qed.
Theorem C23_intersection : forall peq s i, pointer_eq peq -> set_value s -> valid_arg i ->
  exists t u, setI W peq i = Ok t /\ set_Intersection W peq s i = Ok u /\ set_value u /\
    (forall a, mem u a <-> mem s a /\ mem t a) /\
    (exact_arg i -> forall a, mem u a <-> mem s a /\ arg_mem i a).
Proof.
  intros peq s i P Hs V. destruct (arg_ok W HW peq i P V) as (t & E & St & SV & X).
  destruct (inter_mem W HW peq s t P (vswf s Hs) St) as (u & EU & _ & M). exists t, u. split; [exact E|].
  assert (EU' : set_Intersection W peq s i = Ok u) by (unfold set_Intersection; rewrite E; exact EU).
  split; [exact EU'|]. split; [exact (sv_inter W peq s i u P Hs V EU')|]. split; [exact M|]. intros XA a. rewrite (M a), (X XA a). reflexivity.
Qed.
Theorem C23_difference : forall peq s i, pointer_eq peq -> set_value s -> valid_arg i ->
  exists t u, setI W peq i = Ok t /\ set_Difference W peq s i = Ok u /\ set_value u /\
    (forall a, mem u a <-> mem s a /\ ~ mem t a) /\
    (exact_arg i -> forall a, mem u a <-> mem s a /\ ~ arg_mem i a).
Proof.
  intros peq s i P Hs V. destruct (arg_ok W HW peq i P V) as (t & E & St & SV & X).
  destruct (diff_mem W HW peq s t P (vswf s Hs) St) as (u & EU & _ & M). exists t, u. split; [exact E|].
  assert (EU' : set_Difference W peq s i = Ok u) by (unfold set_Difference; rewrite E; exact EU).
  split; [exact EU'|]. split; [exact (sv_diff W peq s i u P Hs V EU')|]. split; [exact M|]. intros XA a. rewrite (M a), (X XA a). reflexivity.
Qed.

(* Set_.Insert and Set_.Remove are in-place union and difference; the read-only
   Set_ operations are those of its current value *)
Theorem C23_insert_remove : forall peq s i,
  set__Insert W peq (Some s) i = (u <- set_Union W peq s i ;; Ok (Some u)) /\
  set__Remove W peq (Some s) i = (u <- set_Difference W peq s i ;; Ok (Some u)) /\
  set__Union W peq (Some s) i = set_Union W peq s i /\
  set__Intersection W peq (Some s) i = set_Intersection W peq s i /\
  set__Difference W peq (Some s) i = set_Difference W peq s i.
Proof.
  intros peq s i. unfold set__Insert, set__Remove, set_Union, set_Difference.
  split; [destruct (setI W peq i); reflexivity|]. split; [destruct (setI W peq i); reflexivity|]. repeat split.
Qed.

(* ---------------- C24 ---------------- *)

(* one call, with its own outcome of pointer comparisons *)
Definition sop_run (m : option snode) (x : (snode -> snode -> bool) * sop) : res (option snode) :=
  match snd x with SInsert i => set__Insert W (fst x) m i | SRemove i => set__Remove W (fst x) m i end.
Fixpoint sop_runs (m : option snode) (os : list ((snode -> snode -> bool) * sop)) : res (option snode) :=
  match os with [] => Ok m | o :: os' => m' <- sop_run m o ;; sop_runs m' os' end.

Lemma sop_step_ext (P Q : N -> Prop) o : (forall a, P a <-> Q a) -> forall a, sop_step W P o a <-> sop_step W Q o a.
Proof. intros H a. destruct o; cbn; rewrite (H a); reflexivity. Qed.
Lemma sop_fold_ext os : forall P Q : N -> Prop, (forall a, P a <-> Q a) -> forall a, fold_left (sop_step W) os P a <-> fold_left (sop_step W) os Q a.
Proof. induction os as [|o os IH]; intros P Q H a; cbn [fold_left]; [apply H|]. apply IH. apply sop_step_ext. exact H. Qed.

Theorem C24_from : forall (os : list ((snode -> snode -> bool) * sop)) s0 P,
  Forall (fun x => pointer_eq (fst x) /\ valid_arg (sop_arg (snd x)) /\ exact_arg (sop_arg (snd x))) os ->
  set_value s0 -> (forall a, mem s0 a <-> P a) ->
  exists s, sop_runs (Some s0) os = Ok (Some s) /\ set_value s /\ forall a, mem s a <-> fold_left (sop_step W) (map snd os) P a.
Proof.
  intros os s0 P F. revert s0 P.
  induction F as [|[peq o] os (Hp & V & X) F IH]; intros s0 P0 Hs HP; cbn [sop_runs map fold_left].
  - exists s0. auto.
  - cbn [fst snd] in Hp, V, X. destruct o as [i|i]; cbn [sop_arg] in V, X; unfold sop_run; cbn [fst snd].
    + destruct (C23_union peq s0 i Hp Hs V) as (t & u & Et & EU & SU & _ & M). specialize (M X).
      destruct (C23_insert_remove peq s0 i) as (E & _). rewrite E, EU. cbn [bind].
      apply IH; [exact SU|]. intros a. rewrite (M a), (HP a). reflexivity.
    + destruct (C23_difference peq s0 i Hp Hs V) as (t & u & Et & EU & SU & _ & M). specialize (M X).
      destruct (C23_insert_remove peq s0 i) as (_ & E & _). rewrite E, EU. cbn [bind].
      apply IH; [exact SU|]. intros a. rewrite (M a), (HP a). reflexivity.
Qed.
Theorem C24_histories : forall os : list ((snode -> snode -> bool) * sop),
  Forall (fun x => pointer_eq (fst x) /\ valid_arg (sop_arg (snd x)) /\ exact_arg (sop_arg (snd x))) os ->
  exists s, sop_runs NewSet_ os = Ok (Some s) /\ set_value s /\ forall a, mem s a <-> sop_spec W (map snd os) a.
Proof.
  intros os F. unfold sop_spec, NewSet_. apply C24_from; [exact F|apply sv_empty|].
  intros a. unfold SetSpec.mem. cbn. split; [intros [_ (p & [] & _)]|intros []].
Qed.

(* ---------------- C25 ---------------- *)

(* Equal compares the stored prefixes, host bits included ... *)
Theorem C25_equal_stored : forall peq s t, pointer_eq peq -> set_value s -> set_value t ->
  exists b, set_Equal peq s t = Ok b /\ (b = true <-> stored s = stored t).
Proof.
  intros peq s t P Hs Ht. destruct (Equal_total peq s t) as (b & E). exists b. split; [exact E|].
  rewrite <- (Equal_iff_stored W HW peq [] [] s t P (vswf s Hs) (vswf t Ht)). unfold set_Equal in E. rewrite E. split; congruence.
Qed.
(* ... so "equal" implies the same addresses ... *)
Theorem C25_equal_sound : forall peq s t, pointer_eq peq -> set_value s -> set_value t ->
  set_Equal peq s t = Ok true -> forall a, mem s a <-> mem t a.
Proof.
  intros peq s t P Hs Ht E a. destruct (C25_equal_stored peq s t P Hs Ht) as (b & E' & X). rewrite E in E'. injection E' as <-.
  unfold SetSpec.mem. rewrite (proj1 X eq_refl). reflexivity.
Qed.
(* ... and, when no prefix with host bits set was stored, conversely. *)
Theorem C25_equal_partial : forall peq s t, pointer_eq peq -> set_value s -> set_value t ->
  Forall canonical (stored s) -> Forall canonical (stored t) ->
  exists b, set_Equal peq s t = Ok b /\ (b = true <-> forall a, mem s a <-> mem t a).
Proof.
  intros peq s t P Hs Ht Cs Ct. destruct (C25_equal_stored peq s t P Hs Ht) as (b & E & X). exists b. split; [exact E|].
  rewrite X. pose proof (vswf s Hs) as Ss. pose proof (vswf t Ht) as St. split.
  - intros ES a. unfold SetSpec.mem. rewrite ES. reflexivity.
  - intros M. pose proof (proj1 (mem_ext W HW s t (proj1 Ss) (proj1 St)) M) as M'. clear M. rename M' into M.
    pose proof (canonicity W HW s t [] [] Ss St M) as N.
    rewrite (norm_canonical W [] s Ss Cs), (norm_canonical W [] t St Ct) in N. rewrite N. reflexivity.
Qed.
(* Nothing but a prefix argument with host bits brings in a non-canonical stored
   prefix: the operations keep sets canonical. *)
Definition canonical_arg (i : option SetI) : Prop :=
  match i with
  | None => True
  | Some (AddressSet _) => True
  | Some (PrefixSet p) => canonical p
  | Some (RangeSet r) => ~ centred W r
  | Some (TheSet s) => Forall canonical (stored s)
  | Some (TheSet_ None) => True
  | Some (TheSet_ (Some s)) => Forall canonical (stored s)
  end.
Lemma canonical_argument peq i t : pointer_eq peq -> valid_arg i -> canonical_arg i -> setI W peq i = Ok t -> Forall canonical (stored t).
Proof.
  intros P V C E. destruct i as [[a|p|r|s|[s|]]|]; cbn in E, C; try (injection E as <-); auto.
  - constructor; [|constructor]. unfold SetSpec.canonical, net, addr_prefix. cbn [paddr plen]. rewrite N.sub_diag. change (2 ^ 0) with 1. rewrite N.div_1_r. lia.
  - constructor; [exact C|constructor].
  - inversion V; subst. destruct (setNodeFromRange_ok W HW peq P r) as (u & EU & _ & X & _); auto. change (setNodeFromRange W peq r = Ok t) in E. rewrite EU in E. injection E as <-.
    apply X. rewrite (twisted_centred W HW); auto.
  - constructor.
  - constructor.
Qed.
Theorem C25_canonical_kept : forall peq s i u, pointer_eq peq -> set_value s -> valid_arg i ->
  Forall canonical (stored s) -> canonical_arg i ->
  (set_Union W peq s i = Ok u \/ set_Intersection W peq s i = Ok u \/ set_Difference W peq s i = Ok u \/ setI W peq i = Ok u) ->
  Forall canonical (stored u).
Proof.
  intros peq s i u P Hs V Cs Ci E. destruct (arg_ok W HW peq i P V) as (t & Et & St & _ & _).
  pose proof (canonical_argument peq i t P V Ci Et) as Ct. pose proof (vswf s Hs) as Ss.
  unfold set_Union, set_Intersection, set_Difference in E. rewrite Et in E. cbn [bind] in E.
  destruct E as [E|[E|[E|E]]].
  - exact (clean_Union W HW peq P [] s t u Ss St Cs Ct E).
  - exact (clean_Intersect W HW peq P s t u Ss St Cs Ct E).
  - exact (clean_Difference W HW peq P [] s t u Ss St Cs E).
  - injection E as <-. exact Ct.
Qed.

(* ---------------- C26 ---------------- *)

(* WalkPrefixes calls back for each stored prefix in order until the callback
   returns false, ... *)
Theorem C26_walk_prefixes : forall peq s {S} (cb : prefix -> S -> S * bool) (st : S), pointer_eq peq -> set_value s ->
  set_WalkPrefixes W peq s cb st = Ok (until_false cb (stored s) st).
Proof. intros peq s S cb st P Hs. apply WalkPrefixes_eq; auto. apply vswf; exact Hs. Qed.

(* ... and the stored prefixes are the unique minimal family: they cover exactly
   the set, come in increasing disjoint order, each is a largest prefix inside
   the set, every largest prefix is among them, no exact family has fewer
   members, and one with as many members is the same up to order and host bits. *)
Theorem C26_minimal : forall s, set_value s ->
  Forall (wf_prefix W) (stored s) /\
  exactly W (stored s) (mem s) /\
  StronglySorted (fun p q => forall a b, in_prefix W p a -> in_prefix W q b -> a < b) (stored s) /\
  (forall p, wf_prefix W p -> maximal W (mem s) p <-> exists q, In q (stored s) /\ pkey W q = pkey W p) /\
  (forall L, Forall (wf_prefix W) L -> exactly W L (mem s) ->
     (length (stored s) <= length L)%nat /\
     (length L = length (stored s) -> Permutation (map (pkey W) (stored s)) (map (pkey W) L))).
Proof.
  intros s Hs. pose proof (vswf s Hs) as Ss. pose proof (stored_wfs W s Ss) as F. split; [exact F|]. split; [|split; [|split]].
  - intros a A. split; [intros X; split; auto|intros [_ X]; exact X].
  - pose proof (stored_before W HW [] s Ss) as SS. induction SS as [|p L SS IH X]; constructor.
    + apply IH. inversion F; auto.
    + rewrite Forall_forall in *. intros q I a b A B. specialize (X q I). unfold before in X.
      apply in_prefix_bounds in A. apply in_prefix_bounds in B. unfold size in X. pose proof (pow2_pos (W - plen p)). lia.
  - intros p Hp. apply maximal_stored; auto.
  - intros L FL E. apply minimal; auto.
Qed.

(* ---------------- C27 ---------------- *)

Theorem C27_cardinality : forall s, set_value s ->
  (exists l, StronglySorted N.lt l /\ (forall a, In a l <-> mem s a) /\ set_NumAddresses W s = N.of_nat (length l)) /\
  (forall l, NoDup l -> (forall a, In a l <-> mem s a) -> set_NumAddresses W s = N.of_nat (length l)) /\
  (set_IsEmpty W s = true <-> forall a, ~ mem s a).
Proof.
  intros s Hs. pose proof (vswf s Hs) as Ss. split; [|split].
  - exists (set_addrs W s). split; [apply set_addrs_sorted; auto|]. split; [intros a; apply set_addrs_In; auto|]. eapply NumAddresses_len; eauto.
  - intros l ND H. eapply NumAddresses_card; eauto.
  - apply IsEmpty_mem; auto.
Qed.
Theorem C27_set_ : forall s, set__NumAddresses W (Some s) = set_NumAddresses W s /\ set__IsEmpty W (Some s) = set_IsEmpty W s.
Proof. intros s. split; [reflexivity|]. unfold set__IsEmpty, set_IsEmpty. destruct (W =? 32); reflexivity. Qed.

(* ---------------- C28 ---------------- *)

Lemma mem_dec s a : mem s a \/ ~ mem s a.
Proof.
  unfold SetSpec.mem. destruct (N.lt_ge_cases a (2 ^ W)) as [L|L]; [|right; intros [X _]; lia].
  induction (stored s) as [|p l IH]; [right; intros [_ (p & [] & _)]|].
  destruct IH as [[_ (q & I & A)]|IH]; [left; split; [exact L|exists q; split; [right|]; auto]|].
  destruct (N.eq_dec (a / 2 ^ (W - plen p)) (paddr p / 2 ^ (W - plen p))) as [E|E].
  - left. split; [exact L|]. exists p. split; [left; auto|exact E].
  - right. intros [_ (q & [<-|I] & A)]; [contradiction|]. apply IH. split; [exact L|eauto].
Qed.
Lemma contains_of peq s t : pointer_eq peq -> swf W [] s -> swf W [] t ->
  exists b, (d <- Difference W peq t s ;; Ok (set_IsEmpty W d)) = Ok b /\ (b = true <-> forall a, mem t a -> mem s a).
Proof.
  intros P Ss St. destruct (diff_mem W HW peq t s P St Ss) as (u & E & Su & M). rewrite E. cbn [bind]. eexists. split; [reflexivity|].
  rewrite (IsEmpty_mem W HW u Su). split.
  - intros H a A. destruct (mem_dec s a) as [X|X]; [exact X|]. exfalso. apply (H a). apply M. auto.
  - intros H a A. apply M in A. destruct A as [A B]. auto.
Qed.
Theorem C28_contains : forall peq s i, pointer_eq peq -> set_value s -> valid_arg i ->
  exists t b, setI W peq i = Ok t /\ set_Contains W peq s i = Ok b /\ set__Contains W peq (Some s) i = Ok b /\
    (b = true <-> forall a, mem t a -> mem s a) /\
    (exact_arg i -> (b = true <-> forall a, arg_mem i a -> mem s a)).
Proof.
  intros peq s i P Hs V. destruct (arg_ok W HW peq i P V) as (t & E & St & _ & X).
  destruct (contains_of peq s t P (vswf s Hs) St) as (b & EB & B). exists t, b. split; [exact E|].
  assert (EC : set_Contains W peq s i = Ok b) by (unfold set_Contains; rewrite E; exact EB).
  split; [exact EC|]. split; [exact EC|]. split; [exact B|]. intros XA. rewrite B. split; intros H a A; apply H; apply (X XA); auto.
Qed.
(* C23: inserting what is already there, or removing what is not, gives back the
   very same set, host bits of its stored prefixes included *)
Theorem C23_insert_contained : forall peq s i, pointer_eq peq -> set_value s -> valid_arg i ->
  set_Contains W peq s i = Ok true ->
  set_Union W peq s i = Ok s /\ set__Insert W peq (Some s) i = Ok (Some s).
Proof.
  intros peq s i P Hs V HC. destruct (arg_ok W HW peq i P V) as (t & E & St & SV & X).
  destruct (C28_contains peq s i P Hs V) as (t' & b & E' & EC & _ & B & _). rewrite E in E'. injection E' as <-. rewrite HC in EC. injection EC as <-.
  pose proof (proj1 B eq_refl) as M. pose proof (vswf s Hs) as Ss.
  assert (EU : set_Union W peq s i = Ok s).
  { unfold set_Union. rewrite E. cbn [bind]. apply (Union_absorb W HW peq P [] s t Ss St). intros x Lx.
    destruct (full_of W HW x Lx) as (a & Ha & <-). rewrite <- (mem_den W [] t a (proj1 St) Ha), <- (mem_den W [] s a (proj1 Ss) Ha). apply M. }
  split; [exact EU|]. destruct (C23_insert_remove peq s i) as (-> & _). rewrite EU. reflexivity.
Qed.
Theorem C23_remove_disjoint : forall peq s i t, pointer_eq peq -> set_value s -> valid_arg i ->
  setI W peq i = Ok t -> (forall a, mem t a -> ~ mem s a) ->
  set_Difference W peq s i = Ok s /\ set__Remove W peq (Some s) i = Ok (Some s).
Proof.
  intros peq s i t P Hs V E M. destruct (arg_ok W HW peq i P V) as (t' & E' & St & SV & X). rewrite E in E'. injection E' as <-. pose proof (vswf s Hs) as Ss.
  assert (EU : set_Difference W peq s i = Ok s).
  { unfold set_Difference. rewrite E. cbn [bind]. apply (Difference_absorb W HW peq P [] s t Ss St). intros x Lx.
    destruct (full_of W HW x Lx) as (a & Ha & <-). rewrite <- (mem_den W [] t a (proj1 St) Ha), <- (mem_den W [] s a (proj1 Ss) Ha). intros A B. exact (M a B A). }
  split; [exact EU|]. destruct (C23_insert_remove peq s i) as (_ & -> & _). rewrite EU. reflexivity.
Qed.
Theorem C28_contains_address : forall peq s a, pointer_eq peq -> set_value s -> a < 2 ^ W ->
  exists b, set_Contains W peq s (Some (AddressSet a)) = Ok b /\ (b = true <-> mem s a).
Proof.
  intros peq s a P Hs A. destruct (C28_contains peq s (Some (AddressSet a)) P Hs (va_addr W a A)) as (t & b & _ & E & _ & _ & B).
  exists b. split; [exact E|]. rewrite (B I). cbn. split; [auto|intros M x ->; exact M].
Qed.
Theorem C28_prefix_contains : forall peq p i, pointer_eq peq -> wf_prefix W p -> valid_arg i -> exact_arg i ->
  exists b, prefix_Contains W peq p i = Ok b /\ (b = true <-> forall a, arg_mem i a -> in_prefix W p a).
Proof.
  intros peq p i P Hp V X. assert (Hs : set_value (setNodeFromPrefix p)) by (eapply (sv_arg W peq (Some (PrefixSet p))); auto; constructor; auto).
  destruct (C28_contains peq _ i P Hs V) as (t & b & _ & E & _ & _ & B). exists b. split; [exact E|]. rewrite (B X).
  split; intros H a A; apply (mem_leaf W HW p a Hp); auto.
Qed.

(* ---------------- C29 ---------------- *)

Theorem C29_range_set_partial : forall peq r, pointer_eq peq -> wf_range W r -> ~ centred W r ->
  exists t, asSet W peq (RangeSet r) = Ok t /\ set_value t /\ forall a, mem t a <-> in_range r a.
Proof.
  intros peq r P R C. destruct (arg_ok W HW peq (Some (RangeSet r)) P (va_range W r R)) as (t & E & _ & SV & X).
  exists t. split; [exact E|]. split; [exact SV|]. exact (X C).
Qed.
(* the defect: the range x addresses short, at either end, of an aligned block
   of 2^k becomes the whole block *)
Theorem C29_centred_becomes_block : forall peq r k b x, pointer_eq peq -> wf_range W r ->
  0 < x -> x < 2 ^ (k - 1) -> 0 < k -> k <= W ->
  rfirst r = b * 2 ^ k + x -> rlast r + x + 1 = (b + 1) * 2 ^ k ->
  exists t, asSet W peq (RangeSet r) = Ok t /\ forall a, mem t a <-> b * 2 ^ k <= a /\ a < (b + 1) * 2 ^ k.
Proof.
  intros peq r k b x P R X1 X2 K1 K2 EF EL. destruct (setNodeFromRange_ok W HW peq P r R) as (t & E & St & _ & Y).
  destruct (centred_fork W HW r k b x) as (q & ra & F & _ & LQ & VQ); auto; [apply R|].
  specialize (Y q ra F). subst t. exists (setNodeFromPrefix (mkPrefix (rfirst r) (nlen q))). split; [exact E|].
  assert (EK : 2 ^ k = 2 * 2 ^ (k - 1)) by (rewrite <- N.pow_succ_r'; f_equal; lia).
  assert (Hp : wf_prefix W (mkPrefix (rfirst r) (nlen q))) by (split; cbn [paddr plen]; destruct R; lia).
  intros a. rewrite (mem_leaf W HW _ a Hp), in_prefix_bounds. unfold net. cbn [paddr plen]. rewrite LQ.
  replace (W - (W - k)) with k by lia. rewrite EF. rewrite N.div_add_l by lia. rewrite (N.div_small x) by lia. pose proof (pow2_pos k). lia.
Qed.
(* what depends on the conversion is right for the other ranges *)
Theorem C29_range_contains_partial : forall peq r i, pointer_eq peq -> wf_range W r -> ~ centred W r -> valid_arg i -> exact_arg i ->
  exists b, range_Contains W peq r i = Ok b /\ (b = true <-> forall a, arg_mem i a -> in_range r a).
Proof.
  intros peq r i P R C V X. destruct (C29_range_set_partial peq r P R C) as (s & E & Hs & M).
  destruct (C28_contains peq s i P Hs V) as (t & b & _ & EC & _ & _ & B). exists b. unfold range_Contains. rewrite E. cbn [bind].
  split; [exact EC|]. rewrite (B X). split; intros H a A; apply M; auto.
Qed.

(* ---------------- C30 ---------------- *)

Theorem C30_walk_ranges : forall peq s, pointer_eq peq -> set_value s ->
  exists rs, separated rs /\ Forall (wf_range W) rs /\ (forall a, in_ranges rs a <-> mem s a) /\
    forall S (cb : range -> S -> S * bool) (st : S), set_WalkRanges W peq s cb st = Ok (until_false cb rs st).
Proof.
  intros peq s P Hs. pose proof (vswf s Hs) as Ss. exists (runs_of W (stored s)).
  destruct (runs_of_spec W HW s Ss) as (A & B & C). split; [exact A|]. split; [exact B|]. split; [exact C|].
  intros S cb st. apply WalkRanges_eq; auto.
Qed.

(* ---------------- C32 ---------------- *)

(* the prefixes of length n (without host bits) that lie inside the set, each once *)
Definition all_prefixes_in (s : snode) (n : N) (l : list prefix) : Prop :=
  NoDup l /\ forall q, In q l <-> plen q = n /\ canonical q /\ wf_prefix W q /\ prefix_in W (mem s) q.

Lemma all_in_exists s n : set_value s -> n <= W -> all_prefixes_in s n (set_subs W n s).
Proof. intros Hs Hn. pose proof (vswf s Hs) as Ss. split; [apply set_subs_NoDup; auto|]. intros q. apply set_subs_In; auto. Qed.
Lemma all_in_length s n l l' : all_prefixes_in s n l -> all_prefixes_in s n l' -> length l = length l'.
Proof. intros [A B] [A' B']. apply Permutation_length, NoDup_Permutation; auto. intros q. rewrite B, B'. reflexivity. Qed.
Lemma all_in_bound s n l : n <= W -> all_prefixes_in s n l -> N.of_nat (length l) <= 2 ^ n.
Proof.
  intros Hn [ND H]. pose proof (pow2_pos n) as PN. pose proof (pow2_pos (W - n)) as P1.
  set (f := fun q : prefix => paddr q / 2 ^ (W - n)). assert (NF : NoDup (map f l)).
  { assert (G : forall q, In q l -> paddr q = f q * 2 ^ (W - n) /\ plen q = n).
    { intros q I. apply H in I. destruct I as (E & C & _). subst n. split; [exact C|reflexivity]. }
    clear H. induction ND as [|q l X ND IH]; cbn [map]; constructor; [|apply IH; intros; apply G; right; auto].
    intros I. apply in_map_iff in I. destruct I as (r & E & I). apply X.
    destruct (G q (or_introl eq_refl)) as [A1 A2]. destruct (G r (or_intror I)) as [B1 B2].
    assert (q = r); [|subst; auto]. destruct q as [qa ql], r as [ra rl]. cbn in *. congruence. }
  assert (INC : incl (map f l) (map N.of_nat (seq 0 (N.to_nat (2 ^ n))))).
  { intros y I. apply in_map_iff in I. destruct I as (q & <- & I). apply H in I. destruct I as (E & _ & (B & _) & _).
    apply in_map_iff. exists (N.to_nat (f q)). split; [lia|]. apply in_seq.
    assert (f q < 2 ^ n); [|lia]. unfold f. apply N.div_lt_upper_bound; [lia|]. rewrite <- N.pow_add_r. replace (W - n + n) with W by lia. exact B. }
  pose proof (NoDup_incl_length NF INC) as L. rewrite !map_length, seq_length in L. lia.
Qed.

(* IPv4: the exact number, for lengths up to 32; but no error for longer ones *)
Theorem C32_v4_partial : forall peq s n, pointer_eq peq -> set_value s -> W = 32 ->
  (n <= 32 -> exists l, all_prefixes_in s n l /\ set_NumPrefixes W peq s n = Ok (N.of_nat (length l), false)) /\
  (32 < n -> set_NumPrefixes W peq s n = Ok (0, false)).
Proof.
  intros peq s n P Hs EW. pose proof (vswf s Hs) as Ss. unfold set_NumPrefixes. assert (W =? 32 = true) as -> by (apply N.eqb_eq; exact EW).
  split; intros Hn.
  - exists (set_subs W n s). assert (Hn' : n <= W) by lia. pose proof (all_in_exists s n Hs Hn') as A. split; [exact A|].
    rewrite (NumPrefixes4_eq W HW peq s n P Ss Hn'). unfold total. change (flat_map (subs W n) (stored s)) with (set_subs W n s).
    pose proof (all_in_bound s n _ Hn' A) as B. rewrite N.mod_small; [reflexivity|].
    assert (2 ^ n <= 2 ^ 32) by (apply N.pow_le_mono_r; lia). assert (2 ^ 32 < 2 ^ 64) by reflexivity. lia.
  - apply NumPrefixes4_big; auto. lia.
Qed.
(* IPv6: the exact number when it fits 64 bits, an error when it does not; an
   error for lengths beyond 128 unless the set is empty *)
Theorem C32_v6_partial : forall peq s n, pointer_eq peq -> set_value s -> W = 128 ->
  (n <= 128 -> exists l c e, all_prefixes_in s n l /\ set_NumPrefixes W peq s n = Ok (c, e) /\
     (N.of_nat (length l) < 2 ^ 64 -> e = false /\ c = N.of_nat (length l)) /\
     (2 ^ 64 <= N.of_nat (length l) -> e = true)) /\
  (128 < n -> exists e, set_NumPrefixes W peq s n = Ok (0, e) /\ (e = true <-> exists a, mem s a)).
Proof.
  intros peq s n P Hs EW. pose proof (vswf s Hs) as Ss. unfold set_NumPrefixes. assert (W =? 32 = false) as -> by (rewrite EW; reflexivity).
  split; intros Hn.
  - assert (Hn' : n <= W) by lia. destruct (NumPrefixes6_eq W HW peq s n P Ss Hn') as (c & E & C).
    exists (set_subs W n s), c, (2 ^ 64 <=? total W n (stored s)). split; [apply all_in_exists; auto|]. split; [exact E|].
    change (N.of_nat (length (set_subs W n s))) with (total W n (stored s)). split; intros G.
    + split; [apply N.leb_gt; exact G|auto].
    + apply N.leb_le; exact G.
  - exists (match s with Nil => false | _ => true end). split; [apply NumPrefixes6_big; auto; lia|].
    destruct s as [|p d z h a l r] eqn:ES; rewrite <- ES in *.
    + split; [discriminate|]. intros (a & M). exfalso. revert M. apply (nil_mem W HW s Ss). exact ES.
    + split; [|reflexivity]. intros _. destruct (den_nonempty W [] s Ss ltac:(subst; discriminate)) as (x & Lx & D).
      destruct (full_of W HW x Lx) as (b & B & EB). exists b. apply (mem_full W); auto. rewrite EB. exact D.
Qed.

(* the same for a prefix ... *)
Theorem C32_prefix : forall p n, wf_prefix W p ->
  (W < n -> prefix_num_prefixes4 W p n = (0, true) /\ prefix_num_prefixes6 W p n = (0, true)) /\
  (n <= W -> exists l, NoDup l /\ (forall q, In q l <-> plen q = n /\ canonical q /\ wf_prefix W q /\ covers W p q) /\
     (W = 32 -> prefix_num_prefixes4 W p n = (N.of_nat (length l), false)) /\
     (N.of_nat (length l) < 2 ^ 64 -> prefix_num_prefixes6 W p n = (N.of_nat (length l), false)) /\
     (2 ^ 64 <= N.of_nat (length l) -> snd (prefix_num_prefixes6 W p n) = true)).
Proof.
  intros p n Hp. unfold prefix_num_prefixes4, prefix_num_prefixes6. split; intros Hn.
  - destruct (N.ltb_spec W n); [split; reflexivity|lia].
  - destruct (N.ltb_spec W n); [lia|]. exists (subs W n p). split; [apply (subs_NoDup W HW)|]. split; [intros q; apply (subs_In W HW); auto|].
    rewrite (subs_len W HW). destruct (N.ltb_spec n (plen p)) as [G|G].
    { split; [auto|]. split; [auto|]. intros L. exfalso. assert (2 ^ 64 <> 0) by discriminate. lia. }
    split; [auto|]. destruct (N.ltb_spec 63 (n - plen p)) as [K|K].
    + assert (2 ^ 64 <= 2 ^ (n - plen p)) by (apply N.pow_le_mono_r; lia). split; [lia|auto].
    + assert (2 ^ (n - plen p) < 2 ^ 64) by (apply N.pow_lt_mono_r; lia). split; [auto|lia].
Qed.
(* ... whose NumAddresses is the number of its addresses ... *)
Theorem C32_prefix_num_addresses : forall p, W = 32 -> wf_prefix W p ->
  exists l, NoDup l /\ (forall a, In a l <-> a < 2 ^ W /\ in_prefix W p a) /\ prefix_NumAddresses W p = N.of_nat (length l).
Proof.
  intros p EW Hp. exists (map paddr (subs W W p)). pose proof (subs_NoDup W HW W p) as ND.
  assert (IN : forall q, In q (subs W W p) <-> plen q = W /\ canonical q /\ wf_prefix W q /\ covers W p q) by (intros q; apply (subs_In W HW); auto; lia).
  split; [|split].
  - assert (G : forall q, In q (subs W W p) -> plen q = W) by (intros q I; apply IN in I; apply I). clear IN.
    induction ND as [|q l X ND IH]; cbn [map]; constructor; [|apply IH; intros; apply G; right; auto].
    intros I. apply in_map_iff in I. destruct I as (r & E & I). apply X.
    pose proof (G q (or_introl eq_refl)) as A. pose proof (G r (or_intror I)) as B.
    assert (q = r); [|subst; auto]. destruct q as [qa ql], r as [ra rl]. cbn in *. congruence.
  - intros a. rewrite in_map_iff. split.
    + intros (q & <- & I). apply IN in I. destruct I as (E & _ & [B _] & (_ & C)). auto.
    + intros [A I]. exists (mkPrefix a W). split; [reflexivity|]. apply IN. cbn [plen paddr]. split; [reflexivity|].
      split; [unfold SetSpec.canonical, net; cbn [plen paddr]; rewrite N.sub_diag; change (2 ^ 0) with 1; rewrite N.div_1_r; lia|].
      split; [split; cbn; [exact A|lia]|]. split; [cbn; destruct Hp; lia|exact I].
  - unfold prefix_NumAddresses. rewrite map_length, (subs_len W HW). unfold prefix_num_prefixes4.
    destruct Hp as [_ L]. rewrite EW in *. change (32 <? 32) with false. destruct (N.ltb_spec 32 (plen p)); [lia|]. reflexivity.
Qed.
(* ... and for a range that is not centred (C29) *)
Theorem C29_range_num_prefixes_partial : forall peq r n, pointer_eq peq -> wf_range W r -> ~ centred W r -> n <= W ->
  exists l c e, NoDup l /\ (forall q, In q l <-> plen q = n /\ canonical q /\ wf_prefix W q /\ forall a, in_prefix W q a -> in_range r a) /\
    range_NumPrefixes W peq r n = Ok (c, e) /\
    (N.of_nat (length l) < 2 ^ 64 -> e = false /\ c = N.of_nat (length l)) /\ (2 ^ 64 <= N.of_nat (length l) -> e = true).
Proof.
  intros peq r n P R C Hn. destruct (C29_range_set_partial peq r P R C) as (s & E & Hs & M).
  unfold range_NumPrefixes. rewrite E. cbn [bind].
  assert (X : exists l c e, all_prefixes_in s n l /\ set_NumPrefixes W peq s n = Ok (c, e) /\
     (N.of_nat (length l) < 2 ^ 64 -> e = false /\ c = N.of_nat (length l)) /\ (2 ^ 64 <= N.of_nat (length l) -> e = true)).
  { pose proof IPW as IPW0. destruct IPW0 as [EW|EW].
    - destruct (C32_v4_partial peq s n P Hs EW) as [F _]. destruct (F ltac:(lia)) as (l & A & EN).
      exists l, (N.of_nat (length l)), false. split; [exact A|]. split; [exact EN|]. split; [auto|]. intros G. exfalso.
      pose proof (all_in_bound s n l Hn A) as B. assert (2 ^ n <= 2 ^ 32) by (apply N.pow_le_mono_r; lia). assert (2 ^ 32 < 2 ^ 64) by reflexivity. lia.
    - destruct (C32_v6_partial peq s n P Hs EW) as [F _]. destruct (F ltac:(lia)) as (l & c & e & X). eauto. }
  destruct X as (l & c & e & [ND A] & EN & X). exists l, c, e. split; [exact ND|]. split; [|split; [exact EN|exact X]].
  intros q. rewrite A. split; intros (B1 & B2 & B3 & B4); (split; [exact B1|]; split; [exact B2|]; split; [exact B3|]); intros a Ia; apply M; apply B4; exact Ia.
Qed.
Theorem C29_range_num_addresses_partial : forall peq r, W = 32 -> pointer_eq peq -> wf_range W r -> ~ centred W r ->
  range_NumAddresses W peq r = Ok (rlast r - rfirst r + 1).
Proof.
  intros peq r EW P R C. unfold range_NumAddresses.
  assert (Hn : 32 <= W) by lia. destruct (C29_range_num_prefixes_partial peq r 32 P R C Hn) as (l & c & e & ND & IN & E & F & _).
  rewrite E. cbn [bind].
  set (L := map (fun i => mkPrefix (rfirst r + N.of_nat i) 32) (seq 0 (N.to_nat (rlast r - rfirst r + 1)))).
  assert (LL : length l = length L).
  { apply Permutation_length, NoDup_Permutation; auto.
    - unfold L. generalize (N.to_nat (rlast r - rfirst r + 1)) as m. intros m. generalize O as k.
      induction m as [|m IH]; intros k; cbn [seq map]; constructor; [|apply IH].
      intros I. apply in_map_iff in I. destruct I as (i & Ei & I). injection Ei as Ei. apply in_seq in I. lia.
    - intros q. rewrite IN. unfold L. rewrite in_map_iff. destruct R as [R1 R2]. rewrite EW in *. split.
      + intros (E1 & _ & [B1 _] & H). specialize (H (paddr q) eq_refl). unfold in_range in H.
        exists (N.to_nat (paddr q - rfirst r)). split; [destruct q; cbn in *; f_equal; [lia|auto]|]. apply in_seq. lia.
      + intros (i & <- & I). apply in_seq in I. cbn [plen paddr]. split; [reflexivity|].
        split; [unfold SetSpec.canonical, net; cbn [plen paddr]; change (32 - 32) with 0; change (2 ^ 0) with 1; rewrite N.div_1_r; lia|].
        split; [split; cbn; [|lia]|].
        * lia.
        * intros a Ia. unfold in_prefix in Ia. cbn [plen paddr] in Ia. change (32 - 32) with 0 in Ia. change (2 ^ 0) with 1 in Ia. rewrite !N.div_1_r in Ia. unfold in_range. lia. }
  unfold L in LL. rewrite map_length, seq_length in LL. destruct R as [R1 R2]. rewrite EW in R2.
  assert (2 ^ 32 < 2 ^ 64) by reflexivity. destruct F as [_ ->]; [lia|]. f_equal. lia.
Qed.

(* ---------------- C33, C34 ---------------- *)

Lemma find_of peq s i n : pointer_eq peq -> set_value s -> valid_arg (Some i) ->
  exists t d, asSet W peq i = Ok t /\ set_value t /\ (exact_arg (Some i) -> forall a, mem t a <-> arg_mem (Some i) a) /\
    swf W [] d /\ (forall a, mem d a <-> mem s a /\ ~ mem t a) /\
    set_FindAvailablePrefix W peq s (Some i) n =
      Ok (match pick n (stored d) with Some p => Some (mkPrefix (net W p) n) | None => None end).
Proof.
  intros P Hs V. destruct (arg_ok W HW peq (Some i) P V) as (t & E & St & SV & X). cbn [setI] in E.
  destruct (Find_mem W HW s t n (vswf s Hs) St) as (d & EF & Sd & D). exists t, d.
  split; [exact E|]. split; [exact SV|]. split; [exact X|]. split; [exact Sd|]. split; [exact D|].
  unfold set_FindAvailablePrefix. rewrite E. cbn [bind]. rewrite EF. cbn [bind].
  destruct (pick n (stored d)) as [p|] eqn:EP; [|reflexivity]. apply pick_le in EP. destruct EP as [I _].
  rewrite Network_eq by (eapply stored_wfp; eauto). reflexivity.
Qed.

Lemma sub_start p n : wf_prefix W p -> plen p <= n -> n <= W ->
  wf_prefix W (mkPrefix (net W p) n) /\ canonical (mkPrefix (net W p) n) /\ covers W p (mkPrefix (net W p) n).
Proof.
  intros Hp H Hn. assert (I : In (mkPrefix (net W p) n) (subs W n p)).
  { unfold subs. destruct (N.ltb_spec n (plen p)); [lia|]. pose proof (pow2_pos (n - plen p)).
    apply in_map_iff. exists O. split; [f_equal; lia|]. apply in_seq. lia. }
  apply subs_In in I; auto. tauto.
Qed.

Theorem C33_find_sound_complete : forall peq s i n, pointer_eq peq -> set_value s -> valid_arg (Some i) -> exact_arg (Some i) -> n <= W ->
  exists x, set_FindAvailablePrefix W peq s (Some i) n = Ok x /\
    (forall q, x = Some q ->
       plen q = n /\ wf_prefix W q /\ canonical q /\ forall a, in_prefix W q a -> mem s a /\ ~ arg_mem (Some i) a) /\
    (x = None <-> ~ exists q, wf_prefix W q /\ plen q = n /\ forall a, in_prefix W q a -> mem s a /\ ~ arg_mem (Some i) a).
Proof.
  intros peq s i n P Hs V X Hn. destruct (find_of peq s i n P Hs V) as (t & d & E & SV & M & Sd & D & EF). specialize (M X).
  eexists. split; [exact EF|].
  assert (FREE : forall q, prefix_in W (mem d) q <-> forall a, in_prefix W q a -> mem s a /\ ~ arg_mem (Some i) a).
  { intros q. unfold prefix_in. split; intros H a A; [rewrite <- (M a), <- (D a); auto|rewrite (D a), (M a); auto]. }
  split.
  - intros q EQ. destruct (pick n (stored d)) as [p|] eqn:EP; [|discriminate]. injection EQ as <-. apply pick_le in EP. destruct EP as [I L].
    pose proof (stored_wfp W d p Sd I) as Hp. destruct (sub_start p n Hp L Hn) as (A1 & A2 & A3).
    split; [reflexivity|]. split; [exact A1|]. split; [exact A2|]. apply FREE. intros a A. apply (stored_in W HW d p I Hp).
    eapply (covers_in W HW); [| |exact A3|exact A]; auto.
  - split.
    + intros EN (q & Hq & L & A). apply FREE in A. destruct (stored_full W HW d q Sd Hq A) as (p & I & C & _).
      destruct (pick n (stored d)) eqn:EP; [discriminate|]. apply (proj1 (pick_none n (stored d))) with (p := p) in EP; auto. lia.
    + intros N. destruct (pick n (stored d)) as [p|] eqn:EP; [|reflexivity]. exfalso. apply N. apply pick_le in EP. destruct EP as [I L].
      pose proof (stored_wfp W d p Sd I) as Hp. destruct (sub_start p n Hp L Hn) as (A1 & A2 & A3).
      exists (mkPrefix (net W p) n). split; [exact A1|]. split; [reflexivity|]. apply FREE. intros a A. apply (stored_in W HW d p I Hp).
      eapply (covers_in W HW); [| |exact A3|exact A]; auto.
Qed.

(* the chosen prefix starts a largest free block p; every other free block that
   could hold it is at least as large, and those just as large come later *)
Theorem C34_best_fit : forall peq s i n q, pointer_eq peq -> set_value s -> valid_arg (Some i) -> exact_arg (Some i) -> n <= W ->
  set_FindAvailablePrefix W peq s (Some i) n = Ok (Some q) ->
  let free := fun a => mem s a /\ ~ arg_mem (Some i) a in
  exists p, wf_prefix W p /\ maximal W free p /\ plen p <= n /\ paddr q = net W p /\
    forall p', wf_prefix W p' -> maximal W free p' -> plen p' <= n ->
      plen p' < plen p \/ (plen p' = plen p /\ net W p <= net W p').
Proof.
  intros peq s i n q P Hs V X Hn EQ free. destruct (find_of peq s i n P Hs V) as (t & d & E & SV & M & Sd & D & EF). specialize (M X).
  rewrite EF in EQ. destruct (pick n (stored d)) as [p|] eqn:EP; [|discriminate]. injection EQ as <-.
  assert (FD : forall a, free a <-> mem d a) by (intros a; unfold free; rewrite (D a), (M a); reflexivity).
  destruct (pick_le _ _ _ EP) as [I L]. pose proof (stored_wfp W d p Sd I) as Hp. exists p. split; [exact Hp|]. split.
  { apply (maximal_ext W _ _ p FD). apply (maximal_stored W HW d p Sd Hp). eauto. }
  split; [exact L|]. split; [reflexivity|]. intros p' Hp' MX L'. apply (maximal_ext W _ _ p' FD) in MX.
  apply (maximal_stored W HW d p' Sd Hp') in MX. destruct MX as (q & Iq & EK). unfold pkey in EK. injection EK as EK1 EK2.
  pose proof (pick_best _ _ _ EP q Iq ltac:(lia)) as B. rewrite EK2 in B.
  destruct (N.eq_dec (plen p') (plen p)) as [EL|EL]; [right; split; [exact EL|]|left; lia].
  destruct (pick_first _ _ _ EP) as (L1 & L2 & ES & F). pose proof (stored_before W HW [] d Sd) as SS. rewrite ES in *.
  apply in_app_or in Iq. destruct Iq as [Iq|[<-|Iq]].
  - specialize (F q Iq ltac:(lia)). lia.
  - lia.
  - assert (B' : before W p q).
    { clear - SS Iq. induction L1 as [|r L1 IH]; cbn [app] in SS; inversion SS as [|? ? SS' X]; subst; [|auto]. rewrite Forall_forall in X. auto. }
    unfold before in B'. rewrite <- EK1. lia.
Qed.

(* ---------------- C35 (sets) ---------------- *)

(* the integrity check holds of every set a program can obtain; and no set
   operation panics: C23-C34 give Ok results for all of them, except
   FindAvailablePrefix with a nil reserved set (C22_find_nil_refuted) *)
Theorem C35_sets_valid : forall s, set_value s -> set_isValid s = true.
Proof. intros s Hs. apply (wf_isValid W HW [] s 0 (proj1 (vswf s Hs))). reflexivity. Qed.

(* ---------------- C22 (sets) ---------------- *)

(* an uninitialised Set_ reads like an empty one, and panics on writing *)
Theorem C22_uninitialised_set : forall peq i, pointer_eq peq -> valid_arg i ->
  set__Set None = Nil /\ set__IsEmpty W None = true /\ set__NumAddresses W None = 0 /\
  set__Contains W peq None i = set__Contains W peq (Some Nil) i /\
  (forall o, (forall s, o = Some s -> set_value s) -> set__Equal W peq None o = set__Equal W peq (Some Nil) o) /\
  set__Union W peq None i = set__Union W peq (Some Nil) i /\
  set__Intersection W peq None i = set__Intersection W peq (Some Nil) i /\
  set__Difference W peq None i = set__Difference W peq (Some Nil) i /\
  set__Insert W peq None i = Panic /\ set__Remove W peq None i = Panic.
Proof.
  intros peq i P V. destruct (arg_ok W HW peq i P V) as (t & E & St & _ & _).
  split; [reflexivity|]. split; [unfold set__IsEmpty; destruct (W =? 32); reflexivity|]. split; [reflexivity|].
  assert (FU : exists f, fuelW W = S f) by (unfold fuelW; exists (2 * N.to_nat W + 5)%nat; lia). destruct FU as [f FU].
  split.
  { unfold set__Contains, set_Contains. destruct i as [i|].
    - cbn [setI] in E. cbn [setI]. rewrite E. cbn [bind]. unfold Difference. rewrite FU. cbn [difference]. destruct t; reflexivity.
    - cbn [setI bind]. unfold Difference. rewrite FU. cbn [difference bind]. unfold set_IsEmpty. destruct (W =? 32); reflexivity. }
  split.
  { intros o Ho. cbn [set__Equal]. destruct o as [s|]; cbn [set__Set].
    - pose proof (vswf s (Ho s eq_refl)) as Ss. destruct (Equal_total peq Nil s) as (b & EB). unfold set_Equal. rewrite EB. f_equal.
      destruct (C27_set_ s) as [_ ->]. destruct (C27_cardinality s (Ho s eq_refl)) as (_ & _ & EM).
      rewrite <- (nil_mem W HW s Ss) in EM. pose proof (Equal_iff_stored W HW peq [] [] Nil s P (swf_nil W []) Ss) as EI. rewrite EB in EI.
      assert (SN : stored Nil = stored s <-> s = Nil).
      { split; [|intros ->; reflexivity]. intros ES. apply (nil_mem W HW s Ss). intros a [_ (p & I & _)]. rewrite <- ES in I. contradiction. }
      rewrite SN, <- EM in EI. destruct b, (set_IsEmpty W s); try reflexivity; exfalso; intuition discriminate.
    - unfold set_Equal. rewrite (Equal_refl peq Nil). unfold set__IsEmpty. destruct (W =? 32); reflexivity. }
  cbn [set__Union set__Intersection set__Difference]. unfold set_Union, set_Intersection, set_Difference. rewrite E. cbn [bind].
  split.
  { unfold Union. rewrite FU. cbn [union]. destruct (peq Nil t) eqn:EP; [apply P in EP; subst; reflexivity|]. destruct t; reflexivity. }
  split; [unfold Intersect; rewrite FU; reflexivity|]. split; [unfold Difference; rewrite FU; reflexivity|]. split; reflexivity.
Qed.

(* a nil SetI is the empty set for every operation that accepts it ... *)
Theorem C22_nil_set : forall peq s,
  set_Union W peq s None = set_Union W peq s (Some (TheSet Nil)) /\
  set_Intersection W peq s None = set_Intersection W peq s (Some (TheSet Nil)) /\
  set_Difference W peq s None = set_Difference W peq s (Some (TheSet Nil)) /\
  set_Contains W peq s None = set_Contains W peq s (Some (TheSet Nil)) /\
  (forall m, set__Insert W peq m None = set__Insert W peq m (Some (TheSet Nil))) /\
  (forall m, set__Remove W peq m None = set__Remove W peq m (Some (TheSet Nil))).
Proof. intros peq s. repeat split. Qed.
(* ... but FindAvailablePrefix panics on it *)
Theorem C22_find_nil_refuted : forall peq s n, set_FindAvailablePrefix W peq s None n = Panic.
Proof. reflexivity. Qed.
End Props.

(* ---------------- C31 (IPv4 only) ---------------- *)

(* WalkAddresses with cb from st finishes with r, given enough time *)
Definition walk_returns (peq : snode -> snode -> bool) {S} (s : snode) (cb : N -> S -> S * bool) (st : S) (r : S * bool) : Prop :=
  exists fuel0, forall fuel, (fuel0 <= fuel)%nat -> set_WalkAddresses 32 peq fuel s cb st = Ok r.
(* it is still running however long one waits *)
Definition walk_runs_forever (peq : snode -> snode -> bool) {S} (s : snode) (cb : N -> S -> S * bool) (st : S) : Prop :=
  exists fuel0, forall fuel, (fuel0 <= fuel)%nat -> set_WalkAddresses 32 peq fuel s cb st = OutOfFuel.

(* without 255.255.255.255 in the set: every address once, in order, then done *)
Theorem C31_walk_addresses_partial : forall peq s, pointer_eq peq -> set_value 32 s -> ~ mem 32 s (2 ^ 32 - 1) ->
  exists l, StronglySorted N.lt l /\ (forall a, In a l <-> mem 32 s a) /\
    forall S (cb : N -> S -> S * bool) st, walk_returns peq s cb st (until_false cb l st).
Proof.
  intros peq s P Hs M. assert (HW : 0 < 32 /\ 32 < 2 ^ 15) by (split; reflexivity). pose proof (value_swf 32 HW s Hs) as Ss.
  exists (set_addrs 32 s). split; [apply set_addrs_sorted; auto|]. split; [intros a; apply set_addrs_In; auto|].
  intros S cb st. exists (Datatypes.S (N.to_nat (2 ^ 32))). intros fuel F. apply walk_addresses_ok; auto.
Qed.

(* With 255.255.255.255 in the set: the addresses l of the set in order, and then
   0, 1, 2, ... again and again, until the callback says false. *)
Theorem C31_wraps_around : forall peq s, pointer_eq peq -> set_value 32 s -> mem 32 s (2 ^ 32 - 1) ->
  exists l, StronglySorted N.lt l /\ (forall a, In a l <-> mem 32 s a) /\
    forall S (cb : N -> S -> S * bool) st,
      let visited n := l ++ map (fun i => N.of_nat i mod 2 ^ 32) (seq 0 n) in
      (forall n st', until_false cb (visited n) st = (st', false) -> walk_returns peq s cb st (st', false)) /\
      ((forall n, snd (until_false cb (visited n) st) = true) -> walk_runs_forever peq s cb st).
Proof.
  intros peq s P Hs M. assert (HW : 0 < 32 /\ 32 < 2 ^ 15) by (split; reflexivity). pose proof (value_swf 32 HW s Hs) as Ss.
  exists (set_addrs 32 s). split; [apply set_addrs_sorted; auto|]. split; [intros a; apply set_addrs_In; auto|].
  intros S cb st visited.
  assert (EV : forall n, visited n = set_addrs 32 s ++ wrap_up 32 0 n) by reflexivity.
  split.
  - intros n st' E. exists (N.to_nat (2 ^ 32) + n + 1)%nat. intros fuel F.
    destruct (walk_addresses_wrap 32 HW peq s fuel cb st P Ss M ltac:(lia)) as (m & L & ->). rewrite EV in E.
    assert (X : wrap_up 32 0 m = wrap_up 32 0 n ++ map (fun i => (0 + N.of_nat i) mod 2 ^ 32) (seq n (m - n))).
    { unfold wrap_up. rewrite <- map_app. f_equal. replace m with (n + (m - n))%nat at 1 by lia. apply seq_app. }
    rewrite X, app_assoc, until_app, E. reflexivity.
  - intros H. exists (N.to_nat (2 ^ 32) + 1)%nat. intros fuel F.
    destruct (walk_addresses_wrap 32 HW peq s fuel cb st P Ss M ltac:(lia)) as (m & L & ->).
    specialize (H m). rewrite EV in H. destruct (until_false cb (set_addrs 32 s ++ wrap_up 32 0 m) st) as [st' b]. cbn [snd] in H. subst b. reflexivity.
Qed.
