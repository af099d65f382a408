(* SetProof.v - the set algebra on set tries; proofs. *)
From Verif Require Export SetNode TrieOps KeyMore ValProof.
From Coq Require Import Arith Sorted ZifyBool ZifyNat ZifyN.

Section SetProof.
Variable W : N.
Hypothesis HW : 0 < W /\ W < 2 ^ 15.
Notation key := (key W).
Notation wf := (wf W).
Notation WN := (N.to_nat W).
Implicit Types t l r me other : snode.

(* the strings (of length W) in the set *)
Fixpoint den t (x : list bool) : Prop :=
  match t with
  | Nil => False
  | Node p _ _ _ a l r => (a = true /\ pre (key p) x) \/ den l x \/ den r x
  end.

Definition mergeable (p : prefix) l r : bool :=
  active l && active r && (plen (prefix_of l) =? plen p + 1) && (plen (prefix_of r) =? plen p + 1).
Definition normal (p : prefix) : Prop := paddr p = net W p.

Fixpoint sok t : Prop :=
  match t with
  | Nil => True
  | Node p d _ _ a l r =>
    d = None /\ (if a then l = Nil /\ r = Nil else normal p /\ mergeable p l r = false) /\ sok l /\ sok r
  end.
Definition swf (k : list bool) t : Prop := wf k t /\ sok t.

Lemma swf_nil k : swf k Nil.
Proof. split; exact I. Qed.
Lemma swf_weaken k k' t : pre k' k -> swf k t -> swf k' t.
Proof. intros H [A B]. split; [eapply wf_weaken; eassumption|exact B]. Qed.
Lemma swf_snoc k c t : swf (k ++ [c]) t -> swf k t.
Proof. apply swf_weaken. apply pre_app_r. Qed.
Lemma swf_rebase k k' p d s h a l r :
  swf k (Node p d s h a l r) -> pre k' (key p) -> swf k' (Node p d s h a l r).
Proof. intros [A B] H. split; [eapply wf_rebase; eassumption|exact B]. Qed.
Lemma swf_kid k p d s h a l r c : swf k (Node p d s h a l r) -> swf (key p ++ [c]) (kid c l r).
Proof. intros [A B]. split; [eapply wf_kid; exact A|]. destruct B as (_ & _ & B1 & B2). destruct c; assumption. Qed.
Lemma swf_l k p d s h a l r : swf k (Node p d s h a l r) -> swf (key p ++ [false]) l.
Proof. apply (swf_kid k p d s h a l r false). Qed.
Lemma swf_r k p d s h a l r : swf k (Node p d s h a l r) -> swf (key p ++ [true]) r.
Proof. apply (swf_kid k p d s h a l r true). Qed.
Lemma swf_prefix k p d s h a l r : swf k (Node p d s h a l r) -> wf_prefix W p.
Proof. intros [[A _] _]. exact A. Qed.
Lemma swf_pre k p d s h a l r : swf k (Node p d s h a l r) -> pre k (key p).
Proof. intros [(_ & A & _) _]. exact A. Qed.
Lemma swf_active k p d s h l r : swf k (Node p d s h true l r) -> Node p d s h true l r = setNodeFromPrefix p.
Proof. intros [(_ & _ & -> & -> & _) (-> & (-> & ->) & _)]. reflexivity. Qed.
Lemma swf_inactive k p d s h l r : swf k (Node p d s h false l r) ->
  Node p d s h false l r = mk p None false l r /\ l <> Nil /\ r <> Nil /\ normal p /\ mergeable p l r = false /\ plen p < W.
Proof. clear HW.
  intros H. pose proof (swf_l _ _ _ _ _ _ _ _ H) as Hl.
  destruct H as [(_ & _ & -> & -> & N & _) (-> & (A & B) & _)]. destruct (N eq_refl) as [N1 N2]. repeat split; auto.
  destruct l as [|q ? ? ? ? ? ?]; [congruence|]. pose proof (swf_prefix _ _ _ _ _ _ _ _ Hl) as [_ Q]. pose proof (swf_pre _ _ _ _ _ _ _ _ Hl) as P.
  apply pre_length in P. rewrite app_length, !key_length in P. cbn in P. lia.
Qed.
Lemma swf_leaf k p : wf_prefix W p -> pre k (key p) -> swf k (setNodeFromPrefix p).
Proof.
  intros H K. split.
  - cbn. repeat split; auto; try apply H; try discriminate; reflexivity.
  - cbn. repeat split.
Qed.
Lemma den_leaf p x : den (setNodeFromPrefix p) x <-> pre (key p) x.
Proof. clear HW. cbn. tauto. Qed.
Lemma den_mk p d a l r x : den (mk p d a l r) x <-> (a = true /\ pre (key p) x) \/ den l x \/ den r x.
Proof. reflexivity. Qed.
Lemma den_pre k t x : wf k t -> den t x -> pre k x.
Proof.
  revert k. induction t as [|p d s h a l IHl r IHr]; intros k Hw H; [contradiction|].
  destruct Hw as (_ & Hk & _ & _ & _ & Hl & Hr). destruct H as [[_ H]|[H|H]].
  - eapply pre_trans; eassumption.
  - eapply pre_trans; [exact Hk|]. eapply pre_app. apply (IHl _ Hl H).
  - eapply pre_trans; [exact Hk|]. eapply pre_app. apply (IHr _ Hr H).
Qed.
Lemma den_pre_node k p d s h a l r x : swf k (Node p d s h a l r) -> den (Node p d s h a l r) x -> pre (key p) x.
Proof. intros H. eapply den_pre. eapply swf_rebase; [exact H|apply pre_refl]. Qed.
Lemma den_inactive k p d s h l r x : swf k (Node p d s h false l r) -> den (Node p d s h false l r) x <-> den l x \/ den r x.
Proof. intros _. cbn. split; [intros [[E _]|E]; [discriminate|exact E]|auto]. Qed.
Lemma den_active k p d s h l r x : swf k (Node p d s h true l r) -> den (Node p d s h true l r) x <-> pre (key p) x.
Proof. clear HW. intros H. rewrite (swf_active _ _ _ _ _ _ _ H). apply den_leaf. Qed.

(* a key can be completed to a full string, in a chosen direction *)
Definition pad (k : list bool) : list bool := k ++ repeat false (WN - length k).
Lemma pad_length k : (length k <= WN)%nat -> length (pad k) = WN.
Proof. clear HW. intros H. unfold pad. rewrite app_length, repeat_length. lia. Qed.
Lemma pad_pre k : pre k (pad k).
Proof. apply pre_app_r. Qed.

Lemma den_nonempty k t : swf k t -> t <> Nil -> exists x, length x = WN /\ den t x.
Proof. clear HW.
  revert k. induction t as [|p d s h a l IHl r IHr]; intros k Hw Hn; [congruence|].
  destruct a.
  - exists (pad (key p)). pose proof (wf_key_len W p (swf_prefix _ _ _ _ _ _ _ _ Hw)). split; [apply pad_length; auto|].
    apply (den_active _ _ _ _ _ _ _ _ Hw). apply pad_pre.
  - destruct (swf_inactive _ _ _ _ _ _ _ Hw) as (_ & Nl & _). destruct (IHl _ (swf_l _ _ _ _ _ _ _ _ Hw) Nl) as (x & L & D).
    exists x. split; auto. cbn. auto.
Qed.

(* strings with pre k split by the next bit *)
Lemma pre_split k x : (length k < length x)%nat -> pre k x -> pre (k ++ [false]) x \/ pre (k ++ [true]) x.
Proof. clear HW.
  intros L [u ->]. destruct u as [|c u]; [rewrite app_nil_r in L; lia|].
  destruct c; [right|left]; apply pre_snoc_cons.
Qed.
Lemma pre_full_inj k k' : (length k <= WN)%nat -> (length k' <= WN)%nat ->
  (forall x, length x = WN -> pre k x -> pre k' x) -> pre k' k.
Proof. clear HW.
  intros L L' H. destruct (Nat.le_gt_cases (length k') (length k)) as [G|G].
  - eapply pre_comparable; [apply (H (pad k)); [apply pad_length; auto|apply pad_pre]|apply pad_pre|exact G].
  - exfalso.
    assert (X : forall c, pre k' (pad (k ++ [c]))).
    { intros c. apply H; [apply pad_length; rewrite app_length; cbn; lia|]. eapply pre_app. apply pad_pre. }
    assert (Y : forall c, pre (k ++ [c]) k').
    { intros c. eapply pre_comparable; [apply pad_pre|apply X|rewrite app_length; cbn; lia]. }
    pose proof (pre_snoc_inj _ _ _ _ (Y true) (Y false)). discriminate.
Qed.

(* ---- newHead ---- *)
Lemma key_len_child k c t : swf (k ++ [c]) t -> t <> Nil -> (length k < WN)%nat.
Proof. clear HW.
  intros H N. destruct t as [|p d s h a l r]; [congruence|]. pose proof (wf_key_len W p (swf_prefix _ _ _ _ _ _ _ _ H)) as L.
  pose proof (pre_length _ _ (swf_pre _ _ _ _ _ _ _ _ H)) as P. rewrite app_length in P. cbn in P. lia.
Qed.
Lemma child_key k c p d s h a l r : swf (k ++ [c]) (Node p d s h a l r) -> nlen (key p) = nlen k + 1 -> key p = k ++ [c].
Proof. clear HW.
  intros H L. symmetry. apply pre_eq_length; [exact (swf_pre _ _ _ _ _ _ _ _ H)|]. rewrite app_length. unfold nlen in L. cbn. lia.
Qed.
Lemma newHead_ok k p l r : wf_prefix W p -> normal p -> pre k (key p) ->
  swf (key p ++ [false]) l -> swf (key p ++ [true]) r -> l <> Nil -> r <> Nil ->
  exists t, newHead p l r = Ok t /\ swf k t /\ t <> Nil /\ (forall x, length x = WN -> den t x <-> den l x \/ den r x).
Proof.
  intros Hp Np Hk Hl Hr Nl Nr. pose proof (key_len_child _ _ _ Hl Nl) as KL.
  unfold newHead, mk_opt, flatten.
  destruct l as [|pl dl sl hl al ll lr]; [congruence|]. destruct r as [|pr dr sr hr ar rl rr]; [congruence|].
  cbn [bind].
  assert (G : mergeable p (Node pl dl sl hl al ll lr) (Node pr dr sr hr ar rl rr) = false ->
    exists t, Ok (mk p None false (Node pl dl sl hl al ll lr) (Node pr dr sr hr ar rl rr)) = Ok t /\ swf k t /\ t <> Nil /\
      (forall x, length x = WN -> den t x <-> den (Node pl dl sl hl al ll lr) x \/ den (Node pr dr sr hr ar rl rr) x)).
  { intros M. eexists. split; [reflexivity|]. split; [|split; [discriminate|]].
    - split; [apply wf_mk; [exact Hp|exact Hk|intros _; split; discriminate|apply Hl|apply Hr]|].
      cbn [mk sok]. split; [reflexivity|]. split; [split; [exact Np|exact M]|]. split; [apply Hl|apply Hr].
    - intros x _. rewrite den_mk. split; [intros [[E _]|E]; [discriminate|exact E]|auto]. }
  unfold mergeable in G. cbn [active prefix_of] in G.
  destruct (N.eqb_spec (plen pl) (plen pr)) as [E1|E1]; cbn [negb bind].
  2:{ apply G. destruct (N.eqb_spec (plen pl) (plen p + 1)), (N.eqb_spec (plen pr) (plen p + 1)); try (exfalso; lia); rewrite ?andb_false_r; reflexivity. }
  destruct (N.eqb_spec (plen pl) (plen p + 1)) as [E2|E2]; cbn [negb bind].
  2:{ apply G. rewrite andb_false_r. reflexivity. }
  destruct al; cbn [negb orb bind]; [|apply G; reflexivity].
  destruct ar; cbn [negb orb bind]; [|apply G; reflexivity].
  exists (setNodeFromPrefix p). split; [reflexivity|]. split; [apply swf_leaf; auto|]. split; [discriminate|].
  intros x Lx. rewrite den_leaf, (den_active _ _ _ _ _ _ _ _ Hl), (den_active _ _ _ _ _ _ _ _ Hr).
  rewrite (child_key _ _ _ _ _ _ _ _ _ Hl), (child_key _ _ _ _ _ _ _ _ _ Hr) by (rewrite !nlen_key; lia).
  split.
  - apply pre_split. lia.
  - intros [H|H]; eapply pre_app; exact H.
Qed.

(* ---- Union ---- *)
Variable peq : snode -> snode -> bool.
Hypothesis peq_sound : forall a b, peq a b = true -> a = b.

(* a bound on the recursion: what is left of the key *)
Definition room t : nat := match t with Nil => 0 | Node p _ _ _ _ _ _ => S (WN - N.to_nat (plen p)) end.
Lemma room_child k c t : swf (k ++ [c]) t -> (room t <= WN - length k)%nat.
Proof.
  intros H. destruct t as [|p d s h a l r]; cbn; [lia|]. pose proof (wf_key_len W p (swf_prefix _ _ _ _ _ _ _ _ H)) as L.
  pose proof (pre_length _ _ (swf_pre _ _ _ _ _ _ _ _ H)) as P. rewrite app_length in P. rewrite key_length in *. cbn in P. lia.
Qed.
Lemma room_max t : (room t <= S WN)%nat.
Proof. destruct t; cbn; lia. Qed.
Lemma room_kid k p d s h a l r c : swf k (Node p d s h a l r) -> (room (kid c l r) < room (Node p d s h a l r))%nat.
Proof.
  intros H. pose proof (room_child _ _ _ (swf_kid _ _ _ _ _ _ _ _ c H)) as R. rewrite key_length in R. cbn [room]. lia.
Qed.
Lemma kid_nonnil k p d s h l r c : swf k (Node p d s h false l r) -> kid c l r <> Nil.
Proof. intros H. destruct (swf_inactive _ _ _ _ _ _ _ H) as (_ & A & B & _). destruct c; assumption. Qed.

Definition union_post k me other (R : res snode) : Prop :=
  exists t, R = Ok t /\ swf k t /\ (me <> Nil \/ other <> Nil -> t <> Nil) /\
    (forall x, length x = WN -> den t x <-> den me x \/ den other x).

Lemma join_normal a n : wf_prefix W a -> n <= plen a -> normal (join_prefix W a n).
Proof.
  intros Ha Hn. destruct (join_prefix_spec W HW a n Ha Hn) as (Hw & Hlen & _ & HB).
  unfold normal, net. rewrite Hlen. set (q := join_prefix W a n) in *.
  rewrite <- N.shiftr_div_pow2, <- N.shiftl_mul_pow2. apply N.bits_inj. intros i.
  destruct (N.lt_ge_cases i (W - n)) as [L|L].
  - rewrite HB by auto. rewrite N.shiftl_spec_low by auto. reflexivity.
  - rewrite N.shiftl_spec_high' by auto. rewrite N.shiftr_spec'. f_equal. lia.
Qed.

Lemma union_ok fuel : forall k me other, (room me + room other < fuel)%nat -> swf k me -> swf k other ->
  union_post k me other (union W peq fuel me other).
Proof.
  induction fuel as [|fuel IH]; intros k me other F Hm Ho; [lia|]. cbn [union].
  destruct (peq me other) eqn:PE.
  { apply peq_sound in PE. subst other. exists me. split; [reflexivity|]. split; [exact Hm|]. split; [tauto|]. intros; tauto. }
  destruct me as [|mp md ms mh ma ml mr].
  { exists other. destruct other; (split; [reflexivity|]); (split; [exact Ho|]); (split; [intros [A|A]; congruence|]); intros; cbn; tauto. }
  destruct other as [|op od os oh oa ol or].
  { exists (Node mp md ms mh ma ml mr). split; [reflexivity|]. split; [exact Hm|]. split; [intros _; discriminate|]. intros; cbn; tauto. }
  set (me := Node mp md ms mh ma ml mr) in *. set (other := Node op od os oh oa ol or) in *.
  pose proof (swf_prefix _ _ _ _ _ _ _ _ Hm) as Pm. pose proof (swf_prefix _ _ _ _ _ _ _ _ Ho) as Po.
  pose proof (compare_spec W HW mp op Pm Po) as C.
  destruct C as [E|c x E|c x E|q c ra rb rev E1 E2 Er]; cbn beta iota zeta.
  - (* same *)
    destruct ma.
    { exists me. split; [reflexivity|]. split; [exact Hm|]. split; [intros _; discriminate|].
      intros x Lx. split; [auto|]. intros [A|A]; [exact A|]. apply (den_active _ _ _ _ _ _ _ _ Hm). rewrite E. exact (den_pre_node _ _ _ _ _ _ _ _ _ Ho A). }
    destruct oa.
    { exists other. split; [reflexivity|]. split; [exact Ho|]. split; [intros _; discriminate|].
      intros x Lx. split; [auto|]. intros [A|A]; [|exact A]. apply (den_active _ _ _ _ _ _ _ _ Ho). rewrite <- E. exact (den_pre_node _ _ _ _ _ _ _ _ _ Hm A). }
    destruct (swf_inactive _ _ _ _ _ _ _ Hm) as (_ & Nml & Nmr & Nmp & _). 
    pose proof (swf_l _ _ _ _ _ _ _ _ Hm) as Hml. pose proof (swf_r _ _ _ _ _ _ _ _ Hm) as Hmr.
    pose proof (swf_l _ _ _ _ _ _ _ _ Ho) as Hol. pose proof (swf_r _ _ _ _ _ _ _ _ Ho) as Hor. rewrite <- E in Hol, Hor.
    pose proof (room_kid _ _ _ _ _ _ _ _ false Hm) as R1. pose proof (room_kid _ _ _ _ _ _ _ _ true Hm) as R2.
    pose proof (room_kid _ _ _ _ _ _ _ _ false Ho) as R3. pose proof (room_kid _ _ _ _ _ _ _ _ true Ho) as R4. cbn [kid] in R1, R2, R3, R4.
    fold me in R1, R2. fold other in R3, R4.
    destruct (IH _ ml ol ltac:(lia) Hml Hol) as (lft & -> & Sl & Nl & Dl).
    destruct (IH _ mr or ltac:(lia) Hmr Hor) as (rgt & -> & Sr & Nr & Dr). cbn [bind].
    assert (DD : forall x, length x = WN -> den me x \/ den other x <-> den lft x \/ den rgt x).
    { intros x Lx. unfold me, other. rewrite (den_inactive _ _ _ _ _ _ _ _ Hm), (den_inactive _ _ _ _ _ _ _ _ Ho), (Dl x Lx), (Dr x Lx). tauto. }
    destruct (peq lft ml && peq rgt mr) eqn:PQ.
    { apply andb_true_iff in PQ. destruct PQ as [P1 P2]. apply peq_sound in P1, P2. subst lft rgt.
      exists me. split; [reflexivity|]. split; [exact Hm|]. split; [intros _; discriminate|].
      intros x Lx. rewrite (DD x Lx). apply (den_inactive _ _ _ _ _ _ _ _ Hm). }
    destruct (newHead_ok k (mkPrefix (paddr mp) (plen mp)) lft rgt) as (t & -> & St & Nt & Dt); try (destruct mp; assumption); auto.
    { destruct mp. exact (swf_pre _ _ _ _ _ _ _ _ Hm). }
    exists t. split; [reflexivity|]. split; [exact St|]. split; [auto|]. intros x Lx. rewrite (Dt x Lx), (DD x Lx). reflexivity.
  - (* me contains other *)
    cbn [active child0 child1 prefix_of me other]. destruct ma.
    { exists me. split; [reflexivity|]. split; [exact Hm|]. split; [intros _; discriminate|].
      intros y Ly. split; [auto|]. intros [A|A]; [exact A|]. apply (den_active _ _ _ _ _ _ _ _ Hm).
      eapply pre_app. pose proof (den_pre_node _ _ _ _ _ _ _ _ _ Ho A) as B. rewrite E in B. exact B. }
    destruct (swf_inactive _ _ _ _ _ _ _ Hm) as (_ & Nml & Nmr & Nmp & _).
    pose proof (swf_l _ _ _ _ _ _ _ _ Hm) as Hml. pose proof (swf_r _ _ _ _ _ _ _ _ Hm) as Hmr.
    assert (Ho' : swf (key mp ++ [c]) other) by (eapply swf_rebase; [exact Ho|rewrite E; apply pre_snoc_cons]).
    pose proof (room_kid _ _ _ _ _ _ _ _ c Hm) as RK. fold me in RK.
    destruct (IH _ (kid c ml mr) other ltac:(lia) (swf_kid _ _ _ _ _ _ _ _ c Hm) Ho') as (y & Ey & Sy & Ny & Dy).
    assert (NY : y <> Nil) by (apply Ny; right; discriminate).
    destruct c; cbn [kid] in *; rewrite Ey; cbn [bind];
    (edestruct (newHead_ok k (mkPrefix (paddr mp) (plen mp))) as (t & -> & St & Nt & Dt);
     [destruct mp; exact Pm|destruct mp; exact Nmp|destruct mp; exact (swf_pre _ _ _ _ _ _ _ _ Hm)|
      destruct mp; first [exact Hml|exact Sy]|destruct mp; first [exact Hmr|exact Sy]|assumption|assumption|]);
    exists t; (split; [reflexivity|]); (split; [exact St|]); (split; [auto|]); intros z Lz; rewrite (Dt z Lz), (Dy z Lz);
    unfold me; rewrite (den_inactive _ _ _ _ _ _ _ _ Hm); tauto.
  - (* me is contained in other *)
    cbn [active child0 child1 prefix_of me other]. destruct oa.
    { exists other. split; [reflexivity|]. split; [exact Ho|]. split; [intros _; discriminate|].
      intros y Ly. split; [auto|]. intros [A|A]; [|exact A]. apply (den_active _ _ _ _ _ _ _ _ Ho).
      eapply pre_app. pose proof (den_pre_node _ _ _ _ _ _ _ _ _ Hm A) as B. rewrite E in B. exact B. }
    destruct (swf_inactive _ _ _ _ _ _ _ Ho) as (_ & Nol & Nor & Nop & _).
    pose proof (swf_l _ _ _ _ _ _ _ _ Ho) as Hol. pose proof (swf_r _ _ _ _ _ _ _ _ Ho) as Hor.
    assert (Hm' : swf (key op ++ [c]) me) by (eapply swf_rebase; [exact Hm|rewrite E; apply pre_snoc_cons]).
    pose proof (room_kid _ _ _ _ _ _ _ _ c Ho) as RK. fold other in RK.
    destruct (IH _ (kid c ol or) me ltac:(lia) (swf_kid _ _ _ _ _ _ _ _ c Ho) Hm') as (y & Ey & Sy & Ny & Dy).
    assert (NY : y <> Nil) by (apply Ny; right; discriminate).
    destruct c; cbn [kid] in *; rewrite Ey; cbn [bind];
    (edestruct (newHead_ok k (mkPrefix (paddr op) (plen op))) as (t & -> & St & Nt & Dt);
     [destruct op; exact Po|destruct op; exact Nop|destruct op; exact (swf_pre _ _ _ _ _ _ _ _ Ho)|
      destruct op; first [exact Hol|exact Sy]|destruct op; first [exact Hor|exact Sy]|assumption|assumption|]);
    exists t; (split; [reflexivity|]); (split; [exact St|]); (split; [auto|]); intros z Lz; rewrite (Dt z Lz), (Dy z Lz);
    unfold other; rewrite (den_inactive _ _ _ _ _ _ _ _ Ho); tauto.
  - (* disjoint *)
    assert (Lq : nlen q <= plen mp) by (rewrite <- (nlen_key W mp), E1, nlen_app; lia).
    destruct (join_prefix_spec W HW mp (nlen q) Pm Lq) as (Wj & Lj & Kj & _).
    assert (Kq : key (join_prefix W mp (nlen q)) = q).
    { rewrite Kj, E1. unfold nlen. rewrite Nat2N.id, firstn_app, Nat.sub_diag, firstn_all. cbn. apply app_nil_r. }
    assert (Kk : pre k q).
    { eapply pre_fork; [rewrite <- E1; exact (swf_pre _ _ _ _ _ _ _ _ Hm)|rewrite <- E2; exact (swf_pre _ _ _ _ _ _ _ _ Ho)]. }
    assert (Hm' : swf (q ++ [c]) me) by (eapply swf_rebase; [exact Hm|rewrite E1; apply pre_snoc_cons]).
    assert (Ho' : swf (q ++ [negb c]) other) by (eapply swf_rebase; [exact Ho|rewrite E2; apply pre_snoc_cons]).
    replace (xorb (if rev then c else negb c) rev) with (negb c) by (destruct rev, c; reflexivity).
    destruct c; cbn [negb] in *;
    (edestruct (newHead_ok k (join_prefix W mp (nlen q))) as (t & -> & St & Nt & Dt);
     [exact Wj|apply join_normal; auto|rewrite Kq; exact Kk|rewrite Kq; first [exact Hm'|exact Ho']|rewrite Kq; first [exact Hm'|exact Ho']|discriminate|discriminate|]);
    exists t; (split; [reflexivity|]); (split; [exact St|]); (split; [auto|]); intros z Lz; rewrite (Dt z Lz); tauto.
Qed.

Lemma Union_ok k me other : swf k me -> swf k other -> union_post k me other (Union W peq me other).
Proof.
  intros Hm Ho. apply union_ok; auto. pose proof (room_max me). pose proof (room_max other). unfold fuelW. lia.
Qed.

(* ---- Difference ---- *)
Lemma halves_eq p : wf_prefix W p -> plen p < W ->
  halves W p = (setNodeFromPrefix (half W false p), setNodeFromPrefix (half W true p)).
Proof. intros Hp Hl. unfold halves. rewrite Halves_eq by auto. reflexivity. Qed.
Lemma swf_half c p : wf_prefix W p -> plen p < W -> swf (key p ++ [c]) (setNodeFromPrefix (half W c p)).
Proof. intros Hp Hl. apply swf_leaf; [apply half_wf; auto|]. rewrite key_half by auto. apply pre_refl. Qed.
Lemma room_half c p : wf_prefix W p -> plen p < W -> (room (setNodeFromPrefix (half W c p)) < S (WN - N.to_nat (plen p)))%nat.
Proof. intros Hp Hl. cbn. lia. Qed.
Lemma den_half c p x : wf_prefix W p -> plen p < W -> den (setNodeFromPrefix (half W c p)) x <-> pre (key p ++ [c]) x.
Proof. clear HW. intros Hp Hl. rewrite den_leaf, key_half by auto. reflexivity. Qed.

Definition diff_post k me other (R : res snode) : Prop :=
  exists t, R = Ok t /\ swf k t /\ (forall x, length x = WN -> den t x <-> den me x /\ ~ den other x).

Lemma den_other_side k c t x : swf (k ++ [negb c]) t -> pre (k ++ [c]) x -> ~ den t x.
Proof.
  intros H P D. pose proof (den_pre _ _ _ (proj1 H) D) as Q. pose proof (pre_snoc_inj _ _ _ _ P Q). destruct c; discriminate.
Qed.
Lemma union_sides k q lft rgt : pre k q -> swf (q ++ [false]) lft -> swf (q ++ [true]) rgt ->
  exists t, Union W peq lft rgt = Ok t /\ swf k t /\ (forall x, length x = WN -> den t x <-> den lft x \/ den rgt x).
Proof.
  intros K Hl Hr. assert (P : forall c, pre k (q ++ [c])) by (intros c; eapply pre_trans; [exact K|apply pre_app_r]).
  destruct (Union_ok k lft rgt) as (t & E & S' & _ & D); [eapply swf_weaken; [apply P|exact Hl]|eapply swf_weaken; [apply P|exact Hr]|].
  exists t. auto.
Qed.

Lemma difference_ok fuel : forall k me other, (room me + room other < fuel)%nat -> swf k me -> swf [] other ->
  diff_post k me other (difference W peq fuel me other).
Proof.
  induction fuel as [|fuel IH]; intros k me other F Hm Ho; [lia|]. cbn [difference].
  destruct me as [|mp md ms mh ma ml mr].
  { exists Nil. split; [reflexivity|]. split; [apply swf_nil|]. intros; cbn; tauto. }
  destruct other as [|op od os oh oa ol or].
  { exists (Node mp md ms mh ma ml mr). split; [reflexivity|]. split; [exact Hm|]. intros; cbn; tauto. }
  set (me := Node mp md ms mh ma ml mr) in *. set (other := Node op od os oh oa ol or) in *.
  pose proof (swf_prefix _ _ _ _ _ _ _ _ Hm) as Pm. pose proof (swf_prefix _ _ _ _ _ _ _ _ Ho) as Po.
  pose proof (swf_pre _ _ _ _ _ _ _ _ Hm) as Km.
  pose proof (compare_spec W HW mp op Pm Po) as C.
  (* the common treatment of an inactive me *)
  assert (INACT : ma = false ->
    diff_post k me other
      (bind (difference W peq fuel ml other) (fun lft => bind (difference W peq fuel mr other) (fun rgt =>
         if peq lft ml && peq rgt mr then Ok me else Union W peq lft rgt)))).
  { intros ->. pose proof (swf_l _ _ _ _ _ _ _ _ Hm) as Hml. pose proof (swf_r _ _ _ _ _ _ _ _ Hm) as Hmr.
    pose proof (room_kid _ _ _ _ _ _ _ _ false Hm) as R1. pose proof (room_kid _ _ _ _ _ _ _ _ true Hm) as R2.
    cbn [kid] in R1, R2. fold me in R1, R2.
    destruct (IH _ ml other ltac:(lia) Hml Ho) as (lft & -> & Sl & Dl).
    destruct (IH _ mr other ltac:(lia) Hmr Ho) as (rgt & -> & Sr & Dr). cbn [bind].
    destruct (peq lft ml && peq rgt mr) eqn:PQ.
    - apply andb_true_iff in PQ. destruct PQ as [P1 P2]. apply peq_sound in P1, P2. subst lft rgt.
      exists me. split; [reflexivity|]. split; [exact Hm|]. intros x Lx. split; [|tauto]. intros D. split; [exact D|].
      apply (den_inactive _ _ _ _ _ _ _ _ Hm) in D. destruct D as [D|D]; [apply (Dl x Lx) in D|apply (Dr x Lx) in D]; tauto.
    - destruct (union_sides k _ lft rgt Km Sl Sr) as (t & -> & St & Dt). exists t. split; [reflexivity|]. split; [exact St|].
      intros x Lx. rewrite (Dt x Lx), (Dl x Lx), (Dr x Lx). unfold me. rewrite (den_inactive _ _ _ _ _ _ _ _ Hm). tauto. }
  destruct C as [E|c x E|c x E|q c ra rb rev E1 E2 Er]; cbn beta iota zeta.
  - (* same *)
    destruct ma; cbn [negb]; [|apply INACT; reflexivity].
    destruct oa.
    { exists Nil. split; [reflexivity|]. split; [apply swf_nil|]. intros y Ly. split; [intros []|]. intros [A B]. apply B.
      apply (den_active _ _ _ _ _ _ _ _ Ho). rewrite <- E. exact (den_pre_node _ _ _ _ _ _ _ _ _ Hm A). }
    destruct (swf_inactive _ _ _ _ _ _ _ Ho) as (_ & _ & _ & _ & _ & Lo).
    assert (EL : plen mp = plen op) by (rewrite <- !(nlen_key W), E; reflexivity).
    assert (Lm : plen mp < W) by lia. rewrite (halves_eq mp Pm Lm).
    pose proof (swf_half false mp Pm Lm) as H0. pose proof (swf_half true mp Pm Lm) as H1.
    pose proof (room_half false mp Pm Lm). pose proof (room_half true mp Pm Lm).
    pose proof (room_kid _ _ _ _ _ _ _ _ false Ho) as R3. pose proof (room_kid _ _ _ _ _ _ _ _ true Ho) as R4. cbn [kid] in R3, R4.
    pose proof (swf_l _ _ _ _ _ _ _ _ Ho) as Hol. pose proof (swf_r _ _ _ _ _ _ _ _ Ho) as Hor.
    destruct (IH _ (setNodeFromPrefix (half W false mp)) ol ltac:(unfold me, other in F; cbn [room] in *; lia) H0 (swf_weaken _ _ _ (pre_nil _) Hol)) as (a & -> & Sa & Da).
    destruct (IH _ (setNodeFromPrefix (half W true mp)) or ltac:(unfold me, other in F; cbn [room] in *; lia) H1 (swf_weaken _ _ _ (pre_nil _) Hor)) as (b & -> & Sb & Db).
    cbn [bind]. destruct (union_sides k _ a b Km Sa Sb) as (t & -> & St & Dt). exists t. split; [reflexivity|]. split; [exact St|].
    intros x Lx. rewrite (Dt x Lx), (Da x Lx), (Db x Lx). rewrite !den_half by auto.
    unfold me, other. rewrite (den_active _ _ _ _ _ _ _ _ Hm), (den_inactive _ _ _ _ _ _ _ _ Ho).
    rewrite E in *. split.
    + intros [[A B]|[A B]]; (split; [eapply pre_app; exact A|]); intros [D|D].
      * tauto.
      * exact (den_other_side (key op) false or x Hor A D).
      * exact (den_other_side (key op) true ol x Hol A D).
      * tauto.
    + intros [A B]. destruct (pre_split (key op) x) as [P|P]; [rewrite Lx, key_length; lia|exact A|tauto|tauto].
  - (* me contains other *)
    destruct ma; cbn [negb]; [|apply INACT; reflexivity].
    assert (Lm : plen mp < W). { destruct Po as [_ Po]. rewrite <- (nlen_key W op), E, nlen_app, nlen_cons, nlen_key in Po. lia. }
    rewrite (halves_eq mp Pm Lm).
    pose proof (swf_half c mp Pm Lm) as Hc. pose proof (room_half c mp Pm Lm).
    assert (X : exists partial, difference W peq fuel (if c then setNodeFromPrefix (half W true mp) else setNodeFromPrefix (half W false mp)) other = Ok partial /\
       swf (key mp ++ [c]) partial /\ forall x, length x = WN -> den partial x <-> pre (key mp ++ [c]) x /\ ~ den other x).
    { destruct (IH _ (setNodeFromPrefix (half W c mp)) other ltac:(unfold me in F; cbn [room] in *; lia) Hc Ho) as (pa & Ep & Sp & Dp).
      exists pa. split; [destruct c; exact Ep|]. split; [exact Sp|]. intros z Lz. rewrite (Dp z Lz), den_half by auto. reflexivity. }
    destruct X as (partial & -> & Sp & Dp). cbn [bind].
    pose proof (swf_half (negb c) mp Pm Lm) as Hn.
    assert (WH : (if c then setNodeFromPrefix (half W false mp) else setNodeFromPrefix (half W true mp)) = setNodeFromPrefix (half W (negb c) mp)) by (destruct c; reflexivity).
    rewrite WH.
    assert (KK : forall c, pre k (key mp ++ [c])) by (intros c'; eapply pre_trans; [exact Km|apply pre_app_r]).
    destruct (Union_ok k (setNodeFromPrefix (half W (negb c) mp)) partial) as (t & -> & St & _ & Dt);
      [eapply swf_weaken; [apply KK|exact Hn]|eapply swf_weaken; [apply KK|exact Sp]|].
    exists t. split; [reflexivity|]. split; [exact St|]. intros z Lz. rewrite (Dt z Lz), (Dp z Lz), den_half by auto.
    unfold me at 1. rewrite (den_active _ _ _ _ _ _ _ _ Hm). split.
    + intros [A|[A B]]; (split; [eapply pre_app; exact A|]); auto.
      intros D. pose proof (den_pre_node _ _ _ _ _ _ _ _ _ Ho D) as B. rewrite E, snoc_cons in B. apply pre_app in B.
      pose proof (pre_snoc_inj _ _ _ _ A B). destruct c; discriminate.
    + intros [A B]. destruct (pre_split (key mp) z) as [P|P]; auto; [rewrite Lz, key_length; lia| |]; destruct c; auto.
  - (* me is contained in other *)
    destruct oa.
    { exists Nil. split; [reflexivity|]. split; [apply swf_nil|]. intros y Ly. split; [intros []|]. intros [A B]. apply B.
      apply (den_active _ _ _ _ _ _ _ _ Ho). pose proof (den_pre_node _ _ _ _ _ _ _ _ _ Hm A) as P. rewrite E in P. eapply pre_app; exact P. }
    pose proof (room_kid _ _ _ _ _ _ _ _ c Ho) as RK. fold other in RK.
    destruct (IH k me (kid c ol or) ltac:(lia) Hm (swf_weaken _ _ _ (pre_nil _) (swf_kid _ _ _ _ _ _ _ _ c Ho))) as (t & -> & St & Dt).
    exists t. split; [reflexivity|]. split; [exact St|]. intros y Ly. rewrite (Dt y Ly). unfold other. rewrite (den_inactive _ _ _ _ _ _ _ _ Ho).
    split; [|destruct c; cbn [kid]; tauto]. intros [A B]. split; [exact A|].
    assert (PM : pre (key op ++ [c]) y).
    { pose proof (den_pre_node _ _ _ _ _ _ _ _ _ Hm A) as P. rewrite E, snoc_cons in P. eapply pre_app; exact P. }
    pose proof (swf_kid _ _ _ _ _ _ _ _ (negb c) Ho) as Hn. pose proof (den_other_side _ _ _ _ Hn PM) as ND.
    destruct c; cbn [kid negb] in *; tauto.
  - (* disjoint *)
    exists me. split; [reflexivity|]. split; [exact Hm|]. intros y Ly. split; [|tauto]. intros A. split; [exact A|]. intros D.
    pose proof (den_pre_node _ _ _ _ _ _ _ _ _ Hm A) as P1. pose proof (den_pre_node _ _ _ _ _ _ _ _ _ Ho D) as P2.
    rewrite E1, snoc_cons in P1. rewrite E2, snoc_cons in P2. apply pre_app in P1. apply pre_app in P2.
    pose proof (pre_snoc_inj _ _ _ _ P1 P2). destruct c; discriminate.
Qed.
Lemma Difference_ok k me other : swf k me -> swf [] other -> diff_post k me other (Difference W peq me other).
Proof.
  intros Hm Ho. apply difference_ok; auto. pose proof (room_max me). pose proof (room_max other). unfold fuelW. lia.
Qed.

(* ---- Intersect ---- *)
Definition inter_post me other (R : res snode) : Prop :=
  exists t, R = Ok t /\ (forall k, swf k me -> swf k t) /\ (forall k, swf k other -> swf k t) /\
    (forall x, length x = WN -> den t x <-> den me x /\ den other x).

(* one operand is split in two, the other is kept *)
Lemma inter_split k p d s h l r o x y :
  swf k (Node p d s h false l r) -> swf [] o ->
  inter_post o l (Ok x) -> inter_post o r (Ok y) ->
  inter_post (Node p d s h false l r) o (Union W peq x y).
Proof.
  intros Hm Ho (x' & Ex & X1 & X2 & X3) (y' & Ey & Y1 & Y2 & Y3). injection Ex as <-. injection Ey as <-.
  pose proof (swf_l _ _ _ _ _ _ _ _ Hm) as Hl. pose proof (swf_r _ _ _ _ _ _ _ _ Hm) as Hr.
  destruct (union_sides (key p) (key p) x y (pre_refl _) (X2 _ Hl) (Y2 _ Hr)) as (t & E & S' & D).
  exists t. split; [exact E|]. split; [|split].
  - intros k' Hk'. eapply swf_weaken; [exact (swf_pre _ _ _ _ _ _ _ _ Hk')|exact S'].
  - intros k' Hk'. destruct (Union_ok k' x y (X1 _ Hk') (Y1 _ Hk')) as (t' & E' & S'' & _).
    rewrite E in E'. injection E' as <-. exact S''.
  - intros z Lz. rewrite (D z Lz), (X3 z Lz), (Y3 z Lz), (den_inactive _ _ _ _ _ _ _ _ Hm). tauto.
Qed.
Lemma inter_sym a b R : inter_post a b R -> inter_post b a R.
Proof.
  intros (t & E & A & B & D). exists t. split; [exact E|]. split; [exact B|]. split; [exact A|].
  intros x L. rewrite (D x L). tauto.
Qed.

Lemma intersect_ok fuel : forall me other, (room me + room other < fuel)%nat -> swf [] me -> swf [] other ->
  inter_post me other (intersect W peq fuel me other).
Proof.
  induction fuel as [|fuel IH]; intros me other F Hm Ho; [lia|]. cbn [intersect].
  destruct me as [|mp md ms mh ma ml mr].
  { exists Nil. split; [reflexivity|]. repeat split; try apply swf_nil; cbn in *; tauto. }
  destruct other as [|op od os oh oa ol or].
  { exists Nil. split; [reflexivity|]. repeat split; try apply swf_nil; cbn in *; tauto. }
  set (me := Node mp md ms mh ma ml mr) in *. set (other := Node op od os oh oa ol or) in *.
  pose proof (swf_prefix _ _ _ _ _ _ _ _ Hm) as Pm. pose proof (swf_prefix _ _ _ _ _ _ _ _ Ho) as Po.
  pose proof (compare_spec W HW mp op Pm Po) as C.
  assert (G : forall reversed : bool,
    (ma = true -> oa = true -> if reversed then pre (key op) (key mp) else pre (key mp) (key op)) ->
    inter_post me other
      (if negb ma then bind (intersect W peq fuel other ml) (fun x => bind (intersect W peq fuel other mr) (fun y => Union W peq x y))
       else if negb oa then bind (intersect W peq fuel me ol) (fun x => bind (intersect W peq fuel me or) (fun y => Union W peq x y))
       else if reversed then Ok me else Ok other)).
  { intros reversed HR. destruct ma; cbn [negb].
    - destruct oa; cbn [negb].
      + specialize (HR eq_refl eq_refl). destruct reversed.
        * exists me. split; [reflexivity|]. split; [auto|]. split.
          -- intros k Hk. eapply swf_rebase; [exact Hm|]. eapply pre_trans; [exact (swf_pre _ _ _ _ _ _ _ _ Hk)|exact HR].
          -- intros x Lx. split; [|tauto]. intros A. split; [exact A|]. apply (den_active _ _ _ _ _ _ _ _ Ho).
             eapply pre_trans; [exact HR|]. apply (den_active _ _ _ _ _ _ _ _ Hm). exact A.
        * exists other. split; [reflexivity|]. split; [|split; [auto|]].
          -- intros k Hk. eapply swf_rebase; [exact Ho|]. eapply pre_trans; [exact (swf_pre _ _ _ _ _ _ _ _ Hk)|exact HR].
          -- intros x Lx. split; [|tauto]. intros A. split; [|exact A]. apply (den_active _ _ _ _ _ _ _ _ Hm).
             eapply pre_trans; [exact HR|]. apply (den_active _ _ _ _ _ _ _ _ Ho). exact A.
      + pose proof (room_kid _ _ _ _ _ _ _ _ false Ho) as R3. pose proof (room_kid _ _ _ _ _ _ _ _ true Ho) as R4. cbn [kid] in R3, R4.
        fold other in R3, R4.
        pose proof (IH me ol ltac:(lia) Hm (swf_weaken _ _ _ (pre_nil _) (swf_l _ _ _ _ _ _ _ _ Ho))) as X.
        pose proof (IH me or ltac:(lia) Hm (swf_weaken _ _ _ (pre_nil _) (swf_r _ _ _ _ _ _ _ _ Ho))) as Y.
        destruct X as (x & EX & X). destruct Y as (y & EY & Y). rewrite EX, EY. cbn [bind].
        apply inter_sym. eapply inter_split; [exact Ho|exact Hm|exists x; auto|exists y; auto].
    - pose proof (room_kid _ _ _ _ _ _ _ _ false Hm) as R3. pose proof (room_kid _ _ _ _ _ _ _ _ true Hm) as R4. cbn [kid] in R3, R4.
      fold me in R3, R4.
      pose proof (IH other ml ltac:(lia) Ho (swf_weaken _ _ _ (pre_nil _) (swf_l _ _ _ _ _ _ _ _ Hm))) as X.
      pose proof (IH other mr ltac:(lia) Ho (swf_weaken _ _ _ (pre_nil _) (swf_r _ _ _ _ _ _ _ _ Hm))) as Y.
      destruct X as (x & EX & X). destruct Y as (y & EY & Y). rewrite EX, EY. cbn [bind].
      eapply inter_split; [exact Hm|exact Ho|exists x; auto|exists y; auto]. }
  destruct C as [E|c x E|c x E|q c ra rb rev E1 E2 Er]; cbn beta iota zeta.
  - apply (G false). intros _ _. rewrite E. apply pre_refl.
  - apply (G false). intros _ _. rewrite E. apply pre_app_r.
  - apply (G true). intros _ _. rewrite E. apply pre_app_r.
  - exists Nil. split; [reflexivity|]. split; [intros; apply swf_nil|]. split; [intros; apply swf_nil|].
    intros y Ly. split; [intros []|]. intros [A D].
    pose proof (den_pre_node _ _ _ _ _ _ _ _ _ Hm A) as P1. pose proof (den_pre_node _ _ _ _ _ _ _ _ _ Ho D) as P2.
    rewrite E1, snoc_cons in P1. rewrite E2, snoc_cons in P2. apply pre_app in P1. apply pre_app in P2.
    pose proof (pre_snoc_inj _ _ _ _ P1 P2). destruct c; discriminate.
Qed.
Lemma Intersect_ok me other : swf [] me -> swf [] other -> inter_post me other (Intersect W peq me other).
Proof.
  intros Hm Ho. apply intersect_ok; auto. pose proof (room_max me). pose proof (room_max other). unfold fuelW. lia.
Qed.
End SetProof.
