(* SetThm.v - lemmas behind the set properties: from bit strings back to
   arithmetic. *)
From Verif Require Export SetProv RangeProof FindProof TableSpec DiffChar.
From Coq Require Import Arith Sorted Permutation ZifyBool ZifyNat ZifyN.

Scheme set_value_mind := Induction for set_value Sort Prop
  with valid_arg_mind := Induction for valid_arg Sort Prop.

Section SetThm.
Variable W : N.
Hypothesis HW : 0 < W /\ W < 2 ^ 15.
Notation key := (key W).
Notation swf := (swf W).
Notation den := (den W).
Notation full := (full W).
Notation WN := (N.to_nat W).
Notation sound peq := (pointer_eq peq).
Notation set_value := (set_value W).
Notation valid_arg := (valid_arg W).
Notation mem := (mem W).

Lemma mem_lt s a : mem s a -> a < 2 ^ W.
Proof. intros [H _]. exact H. Qed.

Lemma mem_full s a : swf [] s -> a < 2 ^ W -> mem s a <-> den s (full a).
Proof. intros [H _] A. eapply mem_den; eauto. Qed.

Lemma mem_leaf p a : wf_prefix W p -> mem (setNodeFromPrefix p) a <-> in_prefix W p a.
Proof.
  intros Hp. unfold SetSpec.mem. cbn [setNodeFromPrefix stored app]. split.
  - intros [_ (q & [<-|[]] & H)]. exact H.
  - intros H. split; [|exists p; split; [left; reflexivity|exact H]].
    apply (in_prefix_bounds W) in H. pose proof (net_bound W p Hp). pose proof (pow2_pos (W - plen p)). lia.
Qed.

Lemma in_addr_prefix a b : a < 2 ^ W -> in_prefix W (addr_prefix W a) b <-> b = a.
Proof.
  intros H. unfold in_prefix, addr_prefix. cbn [plen paddr]. rewrite N.sub_diag, !N.div_1_r. tauto.
Qed.

(* ---- arguments ---- *)
Definition arg_fact (i : option SetI) : Prop :=
  forall peq, sound peq -> exists t, setI W peq i = Ok t /\ swf [] t /\
    (exact_arg W i -> forall a, mem t a <-> arg_mem W i a).

Lemma range_fact r : wf_range W r -> arg_fact (Some (RangeSet r)).
Proof.
  intros H peq P. destruct (setNodeFromRange_ok W HW peq P r H) as (t & E & St & X & _). exists t.
  split; [exact E|]. split; [exact St|]. intros NC a. cbn [exact_arg] in NC.
  rewrite <- (twisted_centred W HW r H) in NC. destruct (X NC) as [_ D]. cbn [arg_mem].
  destruct (N.lt_ge_cases a (2 ^ W)) as [A|A].
  - rewrite (mem_full t a St A), (D (full a) (full_len W a)). unfold within. rewrite val_full by exact A. reflexivity.
  - destruct H as [_ H]. split; [intros M; apply mem_lt in M; lia|]. unfold in_range. lia.
Qed.

Lemma arg_fact_all i : (forall s, set_value s -> swf [] s) -> valid_arg i -> arg_fact i.
Proof.
  intros VS H. destruct H as [|a A|p P|r R|s V| |s V]; intros peq Pq.
  - exists Nil. split; [reflexivity|]. split; [apply swf_nil|]. intros _ a. cbn. unfold SetSpec.mem. cbn. split; [intros [_ (p & [] & _)]|intros []].
  - assert (WP : wf_prefix W (addr_prefix W a)) by (split; cbn; [exact A|lia]).
    eexists. split; [reflexivity|]. split; [apply swf_leaf; [exact WP|apply pre_nil]|]. intros _ b. rewrite mem_leaf by exact WP.
    apply in_addr_prefix. exact A.
  - eexists. split; [reflexivity|]. split; [apply swf_leaf; [exact P|apply pre_nil]|]. intros _ b. rewrite mem_leaf by exact P. reflexivity.
  - apply range_fact; auto.
  - exists s. split; [reflexivity|]. split; [apply VS; exact V|]. reflexivity.
  - exists Nil. split; [reflexivity|]. split; [apply swf_nil|]. intros _ a. cbn. unfold SetSpec.mem. cbn. split; [intros [_ (p & [] & _)]|intros []].
  - exists s. split; [reflexivity|]. split; [apply VS; exact V|]. reflexivity.
Qed.

Lemma value_swf s : set_value s -> swf [] s.
Proof.
  apply (set_value_mind W (fun s _ => swf [] s) (fun i _ => forall peq, sound peq -> exists t, setI W peq i = Ok t /\ swf [] t)).
  - apply swf_nil.
  - intros peq i t P _ IH E. destruct (IH peq P) as (t' & E' & S'). rewrite E' in E. injection E as <-. exact S'.
  - intros peq a i t P _ IHa _ IH E. unfold set_Union in E. destruct (IH peq P) as (t' & E' & S'). rewrite E' in E. cbn [bind] in E.
    destruct (Union_ok W HW peq P [] a t' IHa S') as (u & EU & SU & _). rewrite EU in E. injection E as <-. exact SU.
  - intros peq a i t P _ IHa _ IH E. unfold set_Intersection in E. destruct (IH peq P) as (t' & E' & S'). rewrite E' in E. cbn [bind] in E.
    destruct (Intersect_ok W HW peq P a t' IHa S') as (u & EU & SU & _). rewrite EU in E. injection E as <-. auto.
  - intros peq a i t P _ IHa _ IH E. unfold set_Difference in E. destruct (IH peq P) as (t' & E' & S'). rewrite E' in E. cbn [bind] in E.
    destruct (Difference_ok W HW peq P [] a t' IHa S') as (u & EU & SU & _). rewrite EU in E. injection E as <-. exact SU.
  - intros peq _. eexists. split; [reflexivity|apply swf_nil].
  - intros a A peq _. eexists. split; [reflexivity|]. apply swf_leaf; [|apply pre_nil]. split; cbn; [exact A|lia].
  - intros p P peq _. eexists. split; [reflexivity|]. apply swf_leaf; [exact P|apply pre_nil].
  - intros r R peq P. destruct (range_fact r R peq P) as (t & E & S' & _). eauto.
  - intros t _ IH peq _. eexists. split; [reflexivity|exact IH].
  - intros peq _. eexists. split; [reflexivity|apply swf_nil].
  - intros t _ IH peq _. eexists. split; [reflexivity|exact IH].
Qed.

Lemma arg_ok peq i : sound peq -> valid_arg i ->
  exists t, setI W peq i = Ok t /\ swf [] t /\ set_value t /\ (exact_arg W i -> forall a, mem t a <-> arg_mem W i a).
Proof.
  intros P V. destruct (arg_fact_all i value_swf V peq P) as (t & E & S & X). exists t. split; [exact E|]. split; [exact S|].
  split; [eapply sv_arg; eauto|exact X].
Qed.

Lemma lt_dec_mem (P Q : N -> Prop) : (forall a, P a -> a < 2 ^ W) -> (forall a, Q a -> a < 2 ^ W) ->
  (forall a, a < 2 ^ W -> P a <-> Q a) -> forall a, P a <-> Q a.
Proof. intros A B H a. split; intros X; apply (H a); auto. Qed.

Lemma union_mem peq s t : sound peq -> swf [] s -> swf [] t ->
  exists u, Union W peq s t = Ok u /\ swf [] u /\ forall a, mem u a <-> mem s a \/ mem t a.
Proof.
  intros P Hs Ht. destruct (Union_ok W HW peq P [] s t Hs Ht) as (u & E & Su & _ & D). exists u. split; [exact E|]. split; [exact Su|].
  apply lt_dec_mem; [apply mem_lt|intros a [M|M]; apply mem_lt in M; exact M|].
  intros a A. rewrite !mem_full by auto. apply D. apply full_len.
Qed.
Lemma inter_mem peq s t : sound peq -> swf [] s -> swf [] t ->
  exists u, Intersect W peq s t = Ok u /\ swf [] u /\ forall a, mem u a <-> mem s a /\ mem t a.
Proof.
  intros P Hs Ht. destruct (Intersect_ok W HW peq P s t Hs Ht) as (u & E & Su & _ & D). exists u. split; [exact E|]. split; [auto|].
  apply lt_dec_mem; [apply mem_lt|intros a [M _]; apply mem_lt in M; exact M|].
  intros a A. rewrite !mem_full by auto. apply D. apply full_len.
Qed.
Lemma diff_mem peq s t : sound peq -> swf [] s -> swf [] t ->
  exists u, Difference W peq s t = Ok u /\ swf [] u /\ forall a, mem u a <-> mem s a /\ ~ mem t a.
Proof.
  intros P Hs Ht. destruct (Difference_ok W HW peq P [] s t Hs Ht) as (u & E & Su & D). exists u. split; [exact E|]. split; [exact Su|].
  apply lt_dec_mem; [apply mem_lt|intros a [M _]; apply mem_lt in M; exact M|].
  intros a A. rewrite !mem_full by auto. apply D. apply full_len.
Qed.

(* ---- the stored prefixes as intervals ---- *)
Definition size (p : prefix) : N := 2 ^ (W - plen p).
Definition before (p q : prefix) : Prop := net W p + size p <= net W q.

Lemma size_pos p : 0 < size p.
Proof. apply pow2_pos. Qed.

Lemma stored_wfp s p : swf [] s -> In p (stored s) -> wf_prefix W p.
Proof. intros [H _] I. apply (stored_wf W [] s p H I). Qed.

Lemma in_net p : in_prefix W p (net W p).
Proof. apply in_prefix_bounds. pose proof (pow2_pos (W - plen p)). lia. Qed.
Lemma in_last p : in_prefix W p (net W p + size p - 1).
Proof. apply in_prefix_bounds. unfold size. pose proof (pow2_pos (W - plen p)). lia. Qed.
Lemma in_lt p a : wf_prefix W p -> in_prefix W p a -> a < 2 ^ W.
Proof. intros H A. apply (in_prefix_bounds W) in A. pose proof (net_bound W p H). pose proof (pow2_pos (W - plen p)). lia. Qed.

Lemma fork_before p q x r t : wf_prefix W p -> wf_prefix W q -> key p = x ++ false :: r -> key q = x ++ true :: t -> before p q.
Proof.
  intros Hp Hq Ep Eq. pose proof (in_last p) as A. pose proof (in_net q) as B. unfold before. pose proof (size_pos p).
  set (a := net W p + size p - 1) in *. set (b := net W q) in *.
  pose proof (in_lt p a Hp A) as La. pose proof (in_lt q b Hq B) as Lb.
  apply (in_prefix_pre W p a Hp La) in A. apply (in_prefix_pre W q b Hq Lb) in B.
  rewrite Ep in A. rewrite Eq in B. destruct A as [u A]. destruct B as [v B].
  rewrite <- app_assoc in A, B. cbn [app] in A, B.
  pose proof (val_full W a La) as Va. pose proof (val_full W b Lb) as Vb. rewrite A in Va. rewrite B in Vb.
  rewrite val_app in Va, Vb. cbn [val] in Va, Vb.
  assert (EL : nlen (r ++ u) = nlen (t ++ v)).
  { pose proof (nlen_full' W a) as L1. pose proof (nlen_full' W b) as L2. rewrite A in L1. rewrite B in L2.
    rewrite nlen_app, nlen_cons in L1, L2. lia. }
  rewrite !nlen_cons, EL in *. pose proof (val_lt (r ++ u)) as V1. rewrite EL in V1. lia.
Qed.

Lemma stored_before k s : swf k s -> StronglySorted before (stored s).
Proof.
  intros Hs. pose proof (stored_sorted W k s (proj1 Hs)) as S.
  assert (D : forall p q, In p (stored s) -> In q (stored s) -> pre (key p) (key q) -> p = q) by (intros; eapply stored_disjoint; eauto).
  assert (F : forall p, In p (stored s) -> wf_prefix W p) by (intros p I; apply (stored_wf W k s p (proj1 Hs) I)).
  clear Hs. induction S as [|p L S IH X]; constructor.
  - apply IH; intros; [apply D|apply F]; cbn; auto.
  - rewrite Forall_forall in *. intros q I. specialize (X q I).
    destruct X as [(c & r & E)|(x & r & t & E1 & E2)].
    + exfalso. assert (p = q) by (apply D; cbn; auto; rewrite E; apply pre_app_r). subst q.
      apply (f_equal (@length bool)) in E. rewrite app_length in E. cbn in E. lia.
    + eapply fork_before; eauto; apply F; cbn; auto.
Qed.

(* a prefix inside the set lies inside one stored prefix *)
Lemma stored_full s q : swf [] s -> wf_prefix W q -> prefix_in W (mem s) q -> exists p, In p (stored s) /\ covers W p q.
Proof.
  intros Hs Hq H.
  destruct (full_leaf W HW s [] (key q) Hs (wf_key_len W q Hq)) as (p & I & P).
  { intros x Lx Px. destruct (full_of W HW x Lx) as (a & A & <-). apply mem_full; auto. apply H. apply in_prefix_pre; auto. }
  exists p. split; [exact I|]. apply (covers_pre W); auto. eapply stored_wfp; eauto.
Qed.

Lemma covers_in p q a : wf_prefix W p -> wf_prefix W q -> covers W p q -> in_prefix W q a -> in_prefix W p a.
Proof.
  intros Hp Hq C A. pose proof (in_lt q a Hq A) as L. apply in_prefix_pre; auto. apply (covers_pre W) in C; auto.
  eapply pre_trans; [exact C|]. apply in_prefix_pre; auto.
Qed.
Lemma stored_in s p : In p (stored s) -> wf_prefix W p -> prefix_in W (mem s) p.
Proof. intros I Hp a A. split; [eapply in_lt; eauto|eauto]. Qed.

Lemma stored_unique s p q a : swf [] s -> In p (stored s) -> In q (stored s) -> in_prefix W p a -> in_prefix W q a -> p = q.
Proof.
  intros Hs Ip Iq A B. pose proof (stored_wfp s p Hs Ip) as Hp. pose proof (stored_wfp s q Hs Iq) as Hq.
  pose proof (in_lt p a Hp A) as L. apply in_prefix_pre in A; auto. apply in_prefix_pre in B; auto.
  destruct (Nat.le_ge_cases (length (key p)) (length (key q))) as [G|G].
  - eapply stored_disjoint; eauto. eapply pre_comparable; eauto.
  - symmetry. eapply stored_disjoint; eauto. eapply pre_comparable; eauto.
Qed.

Lemma stored_NoDup s : swf [] s -> NoDup (stored s).
Proof. intros Hs. eapply NoDup_map_inv. apply (stored_nodup W [] s (proj1 Hs)). Qed.

(* ---- Walk ---- *)
Lemma WalkPrefixes_eq peq s {S} (cb : prefix -> S -> S * bool) st : sound peq -> swf [] s ->
  set_WalkPrefixes W peq s cb st = Ok (until_false cb (stored s) st).
Proof.
  intros P Hs. unfold set_WalkPrefixes. rewrite (Walk_run W HW (fun _ _ => true) peq [] s _ st P (proj1 Hs)). f_equal. rewrite stored_entries.
  generalize (entries s). intros L. revert st. induction L as [|e L IH]; intros st; cbn; [reflexivity|]. destruct (cb (fst e) st) as [st' [|]]; auto.
Qed.

(* ---- counting ---- *)
Definition addrs_of (p : prefix) : list N := map (fun i => net W p + N.of_nat i) (seq 0 (N.to_nat (size p))).
Lemma addrs_of_In p a : In a (addrs_of p) <-> in_prefix W p a.
Proof.
  unfold addrs_of. rewrite in_map_iff, in_prefix_bounds. fold (size p). pose proof (size_pos p). split.
  - intros (i & <- & I). apply in_seq in I. lia.
  - intros [A B]. exists (N.to_nat (a - net W p)). split; [lia|]. apply in_seq. lia.
Qed.
Lemma addrs_of_len p : N.of_nat (length (addrs_of p)) = size p.
Proof. unfold addrs_of. rewrite map_length, seq_length. lia. Qed.
Lemma seq_sorted m n : StronglySorted N.lt (map (fun i => m + N.of_nat i) (seq 0 n)).
Proof.
  assert (forall k, StronglySorted N.lt (map (fun i => m + N.of_nat i) (seq k n))) as G; [|apply G].
  induction n as [|n IH]; intros k; cbn [seq map]; constructor; [apply IH|].
  rewrite Forall_forall. intros y I. apply in_map_iff in I. destruct I as (i & <- & I). apply in_seq in I. lia.
Qed.

Definition set_addrs s : list N := flat_map addrs_of (stored s).
Lemma set_addrs_In s a : swf [] s -> In a (set_addrs s) <-> mem s a.
Proof.
  intros Hs. unfold set_addrs. rewrite in_flat_map. split.
  - intros (p & I & A). apply addrs_of_In in A. split; [|eauto]. eapply in_lt; [|exact A]. eapply stored_wfp; eauto.
  - intros [_ (p & I & A)]. exists p. split; [exact I|]. apply addrs_of_In. exact A.
Qed.
Lemma set_addrs_sorted s : swf [] s -> StronglySorted N.lt (set_addrs s).
Proof.
  intros Hs. pose proof (stored_before [] s Hs) as S. unfold set_addrs. induction S as [|p L S IH X]; cbn [flat_map]; [constructor|].
  apply SSorted_app; [apply seq_sorted|exact IH|]. intros x y A B. apply addrs_of_In, in_prefix_bounds in A. apply in_flat_map in B.
  destruct B as (q & I & B). apply addrs_of_In, in_prefix_bounds in B. rewrite Forall_forall in X. specialize (X q I). unfold before, size in X.
  pose proof (pow2_pos (W - plen p)). lia.
Qed.
Lemma sorted_nodup (l : list N) : StronglySorted N.lt l -> NoDup l.
Proof.
  induction 1 as [|x l S IH X]; constructor; [|exact IH]. intros I. rewrite Forall_forall in X. specialize (X x I). lia.
Qed.
Lemma NumAddresses_len k s : swf k s -> NumAddresses W s = N.of_nat (length (set_addrs s)).
Proof.
  unfold set_addrs. revert k. induction s as [|p d z h a l IHl r IHr]; intros k Hs; [reflexivity|]. cbn [NumAddresses stored].
  pose proof (swf_prefix _ _ _ _ _ _ _ _ _ Hs) as Hp.
  destruct a.
  - destruct Hs as [_ (_ & (-> & ->) & _)]. cbn [stored app flat_map]. rewrite app_nil_r, addrs_of_len.
    unfold prefix_mask. rewrite wnot_mask by apply Hp. rewrite N.ones_equiv. unfold size. pose proof (pow2_pos (W - plen p)). lia.
  - rewrite (IHl _ (swf_l _ _ _ _ _ _ _ _ _ Hs)), (IHr _ (swf_r _ _ _ _ _ _ _ _ _ Hs)). cbn [app]. rewrite flat_map_app, app_length. lia.
Qed.

Lemma IsEmpty_nil k s : swf k s -> IsEmpty s = true <-> s = Nil.
Proof.
  revert k. induction s as [|p d z h a l IHl r IHr]; intros k Hs; cbn [IsEmpty]; [tauto|].
  destruct a; [split; discriminate|]. split; [|discriminate]. intros E. apply andb_true_iff in E.
  rewrite (IHl _ (swf_l _ _ _ _ _ _ _ _ _ Hs)) in E. destruct (swf_inactive _ _ _ _ _ _ _ _ Hs) as (_ & Nl & _). tauto.
Qed.
Lemma nil_mem s : swf [] s -> s = Nil <-> forall a, ~ mem s a.
Proof.
  intros Hs. split.
  - intros -> a [_ (p & [] & _)].
  - intros H. destruct s as [|p d z h a l r]; [reflexivity|]. exfalso.
    destruct (den_nonempty W [] _ Hs ltac:(discriminate)) as (x & Lx & D). destruct (full_of W HW x Lx) as (b & B & <-).
    apply (H b). apply mem_full; auto.
Qed.
Lemma IsEmpty_mem s : swf [] s -> set_IsEmpty W s = true <-> forall a, ~ mem s a.
Proof.
  intros Hs. rewrite <- nil_mem by exact Hs. unfold set_IsEmpty. destruct (W =? 32).
  - rewrite (NumAddresses_len [] s Hs), N.eqb_eq. rewrite nil_mem by exact Hs. split.
    + intros E a M. apply (set_addrs_In s a Hs) in M. destruct (set_addrs s); [contradiction|cbn in E; lia].
    + intros H. destruct (set_addrs s) as [|a L] eqn:E; [reflexivity|]. exfalso. apply (H a). apply set_addrs_In; auto. rewrite E. left; reflexivity.
  - eapply IsEmpty_nil; eauto.
Qed.
Lemma NumAddresses_card s l : swf [] s -> NoDup l -> (forall a, In a l <-> mem s a) -> NumAddresses W s = N.of_nat (length l).
Proof.
  intros Hs ND H. rewrite (NumAddresses_len [] s Hs). f_equal. apply Permutation_length, NoDup_Permutation; [|exact ND|].
  - apply sorted_nodup, set_addrs_sorted, Hs.
  - intros a. rewrite H, set_addrs_In by exact Hs. reflexivity.
Qed.
End SetThm.
