(* FindProof.v - FindAvailablePrefix picks from the maximal free prefixes; proofs. *)
From Verif Require Export SetMore.
From Coq Require Import Arith Sorted ZifyBool ZifyNat ZifyN.

(* the first of the longest prefixes that are not longer than n *)
Definition better (x y : option prefix) : option prefix :=
  match x, y with
  | Some p, Some q => if plen p <? plen q then Some q else Some p
  | Some p, None => Some p
  | None, _ => y
  end.
Fixpoint pick (n : N) (L : list prefix) : option prefix :=
  match L with
  | [] => None
  | p :: L' => if plen p <=? n then better (Some p) (pick n L') else pick n L'
  end.

Lemma better_assoc x y z : better x (better y z) = better (better x y) z.
Proof.
  destruct x as [p|], y as [q|], z as [r|]; cbn; auto;
  repeat match goal with |- context [?a <? ?b] => destruct (N.ltb_spec a b); cbn end; auto; lia.
Qed.
Lemma pick_app n L M : pick n (L ++ M) = better (pick n L) (pick n M).
Proof.
  induction L as [|p L IH]; cbn [pick app]; [reflexivity|]. rewrite IH. destruct (plen p <=? n); auto. apply better_assoc.
Qed.
Lemma pick_le n L p : pick n L = Some p -> In p L /\ plen p <= n.
Proof.
  induction L as [|q L IH]; cbn [pick]; [discriminate|]. destruct (N.leb_spec (plen q) n) as [G|G].
  - unfold better. destruct (pick n L) as [r|].
    + destruct (plen q <? plen r); intros [= <-]; [destruct (IH eq_refl); cbn; auto|cbn; auto].
    + intros [= <-]. cbn; auto.
  - intros E. destruct (IH E). cbn; auto.
Qed.
Lemma pick_none n L : pick n L = None <-> forall p, In p L -> n < plen p.
Proof.
  induction L as [|q L IH]; cbn [pick].
  - split; [intros _ p []|reflexivity].
  - destruct (N.leb_spec (plen q) n) as [G|G].
    + split.
      * unfold better. destruct (pick n L) as [r|]; [destruct (_ <? _)|]; discriminate.
      * intros H. specialize (H q (or_introl eq_refl)). lia.
    + rewrite IH. split; [intros H p [<-|I]; auto|intros H p I; apply H; right; auto].
Qed.
Lemma pick_best n L p : pick n L = Some p -> forall q, In q L -> plen q <= n -> plen q <= plen p.
Proof.
  revert p. induction L as [|r L IH]; cbn [pick]; intros p E q I Q; [contradiction|].
  destruct (N.leb_spec (plen r) n) as [G|G].
  - unfold better in E. destruct (pick n L) as [s|] eqn:EP.
    + destruct (N.ltb_spec (plen r) (plen s)); injection E as <-; destruct I as [<-|I]; try lia.
      * exact (IH s eq_refl q I Q).
      * specialize (IH s eq_refl q I Q). lia.
    + injection E as <-. destruct I as [<-|I]; [lia|]. apply (proj1 (pick_none n L)) with (p := q) in EP; auto. lia.
  - destruct I as [<-|I]; [lia|]. eauto.
Qed.
(* ... and among equally long ones the first *)
Lemma pick_first n L p : pick n L = Some p -> exists L1 L2, L = L1 ++ p :: L2 /\ forall q, In q L1 -> plen q <= n -> plen q < plen p.
Proof.
  revert p. induction L as [|r L IH]; cbn [pick]; intros p E; [discriminate|].
  destruct (N.leb_spec (plen r) n) as [G|G].
  - unfold better in E. destruct (pick n L) as [s|] eqn:EP.
    + destruct (N.ltb_spec (plen r) (plen s)); injection E as <-.
      * destruct (IH s eq_refl) as (L1 & L2 & -> & F). exists (r :: L1), L2. split; [reflexivity|]. intros q [<-|I] Q; auto.
      * exists [], L. split; [reflexivity|intros q []].
    + injection E as <-. exists [], L. split; [reflexivity|intros q []].
  - destruct (IH p E) as (L1 & L2 & -> & F). exists (r :: L1), L2. split; [reflexivity|]. intros q [<-|I] Q; [lia|auto].
Qed.
Lemma pick_swap n w L : (forall p, In p L -> plen w < plen p) -> pick n (w :: L) = pick n (L ++ [w]).
Proof.
  intros H. rewrite pick_app. cbn [pick]. destruct (plen w <=? n); [|destruct (pick n L); reflexivity].
  destruct (pick n L) as [p|] eqn:E; cbn [better]; [|reflexivity]. apply pick_le in E. destruct E as [I _]. specialize (H p I).
  destruct (N.ltb_spec (plen w) (plen p)); [|lia]. destruct (N.ltb_spec (plen p) (plen w)); [lia|reflexivity].
Qed.
Lemma best_pick n L M : best (Ok (pick n L)) (fun _ => Ok (pick n M)) n = Ok (pick n (L ++ M)).
Proof.
  unfold best. cbn [bind]. rewrite pick_app. destruct (pick n L) as [p|] eqn:E.
  - apply pick_le in E. destruct E as [_ E]. destruct (N.eqb_spec (plen p) n) as [G|G].
    + destruct (pick n M) as [q|] eqn:EM; cbn [better]; [|reflexivity]. apply pick_le in EM. destruct EM as [_ EM].
      destruct (N.ltb_spec (plen p) (plen q)); [lia|reflexivity].
    + cbn [bind]. destruct (pick n M) as [q|]; cbn [better]; [|reflexivity]. destruct (plen p <? plen q); reflexivity.
  - cbn [bind better]. destruct (pick n M); reflexivity.
Qed.

Section FindProof.
Variable W : N.
Hypothesis HW : 0 < W /\ W < 2 ^ 15.
Notation key := (key W).
Notation swf := (swf W).
Notation den := (den W).
Notation WN := (N.to_nat W).
Implicit Types t l r me other reserved : snode.

Lemma stored_plen k t p : wf W k t -> In p (stored t) -> nlen k <= plen p.
Proof.
  intros H I. destruct (stored_wf W k t p H I) as [_ P]. apply pre_length in P. rewrite key_length in P. unfold nlen. lia.
Qed.

Lemma findSmallest_ok n k me : swf k me -> findSmallest me n = Ok (pick n (stored me)).
Proof.
  revert k. induction me as [|p d s h a l IHl r IHr]; intros k H; [reflexivity|]. cbn [findSmallest].
  destruct (N.ltb_spec n (plen p)) as [G|G].
  - assert (pick n (stored (Node p d s h a l r)) = None) as ->; [|reflexivity]. apply pick_none. intros q I.
    pose proof (swf_rebase _ _ _ _ _ _ _ _ _ _ H (pre_refl _)) as [Hw _].
    pose proof (stored_plen _ _ _ Hw I) as P. rewrite nlen_key in P. lia.
  - destruct a.
    + destruct H as [_ (_ & (-> & ->) & _)]. cbn [stored app findSmallest]. cbn [pick].
      destruct (N.leb_spec (plen p) n); [|lia]. destruct (N.eqb_spec n (plen p)); cbn [andb]; [reflexivity|].
      reflexivity.
    + rewrite andb_false_r. rewrite (IHl _ (swf_l _ _ _ _ _ _ _ _ _ H)).
      assert (forall x, best x (fun _ : unit => findSmallest r n) n = best x (fun _ => Ok (pick n (stored r))) n) as ->.
      { intros x. rewrite (IHr _ (swf_r _ _ _ _ _ _ _ _ _ H)). reflexivity. }
      rewrite best_pick. cbn [bind stored app negb]. destruct (pick n (stored l ++ stored r)); reflexivity.
Qed.

Lemma key_clean p : wf_prefix W p -> key (clean W p) = key p.
Proof.
  intros H. pose proof (net_bound W p H) as NB. pose proof (pow2_pos (W - plen p)).
  assert (wf_prefix W (clean W p)) as H' by (destruct H; split; cbn; lia).
  apply key_eq_iff; auto. unfold pkey. f_equal. unfold net at 1. cbn [clean paddr plen]. unfold net. rewrite N.div_mul by lia. reflexivity.
Qed.
Lemma clean_wf p : wf_prefix W p -> wf_prefix W (clean W p).
Proof. intros H. pose proof (net_bound W p H) as NB. pose proof (pow2_pos (W - plen p)). destruct H; split; cbn; lia. Qed.
Lemma clean_normal p : normal W (clean W p).
Proof.
  pose proof (pow2_pos (W - plen p)). unfold normal, net. cbn [clean paddr plen]. unfold net. rewrite N.div_mul by lia. reflexivity.
Qed.

(* join the free parts of the two sides of p, when p itself is not all free *)
Lemma join_sides p dl dr : wf_prefix W p -> swf (key p ++ [false]) dl -> swf (key p ++ [true]) dr ->
  (exists x, length x = WN /\ pre (key p) x /\ ~ den dl x /\ ~ den dr x) ->
  exists d, swf (key p) d /\ stored d = stored dl ++ stored dr /\ (forall x, den d x <-> den dl x \/ den dr x).
Proof.
  intros Hp Hl Hr (x & Lx & Px & Nl & Nr).
  destruct dl as [|pl dl sl hl al ll lr].
  { exists dr. split; [eapply swf_snoc; exact Hr|]. split; [reflexivity|]. intros y. cbn. tauto. }
  destruct dr as [|pr dr sr hr ar rl rr].
  { exists (Node pl dl sl hl al ll lr). split; [eapply swf_snoc; exact Hl|]. split; [cbn [stored]; rewrite app_nil_r; reflexivity|]. intros y. cbn. tauto. }
  set (L := Node pl dl sl hl al ll lr) in *. set (R := Node pr dr sr hr ar rl rr) in *.
  assert (M : mergeable (clean W p) L R = false).
  { unfold mergeable. cbn [active prefix_of L R]. destruct al; [|reflexivity]. destruct ar; [|reflexivity]. cbn [andb].
    destruct (N.eqb_spec (plen pl) (plen (clean W p) + 1)) as [E1|E1]; [|reflexivity].
    destruct (N.eqb_spec (plen pr) (plen (clean W p) + 1)) as [E2|E2]; [|reflexivity]. exfalso. cbn [clean plen] in E1, E2.
    pose proof (child_key W _ _ _ _ _ _ _ _ _ Hl ltac:(rewrite !nlen_key; exact E1)) as K1.
    pose proof (child_key W _ _ _ _ _ _ _ _ _ Hr ltac:(rewrite !nlen_key; exact E2)) as K2.
    destruct (pre_split (key p) x) as [P|P]; auto.
    - rewrite Lx. pose proof (swf_prefix _ _ _ _ _ _ _ _ _ Hl) as [_ B]. rewrite key_length. lia.
    - apply Nl. apply (den_active _ _ _ _ _ _ _ _ _ Hl). rewrite K1. exact P.
    - apply Nr. apply (den_active _ _ _ _ _ _ _ _ _ Hr). rewrite K2. exact P. }
  exists (mk (clean W p) None false L R). split; [|split; [reflexivity|]].
  - split.
    + apply wf_mk; rewrite ?key_clean by auto; [apply clean_wf; auto|apply pre_refl|intros _; split; discriminate|apply Hl|apply Hr].
    + cbn [mk sok]. split; [reflexivity|]. split; [split; [apply clean_normal|exact M]|]. split; [apply Hl|apply Hr].
  - intros y. rewrite den_mk. split; [intros [[E _]|E]; [discriminate|exact E]|auto].
Qed.

Definition find_post k me reserved n (R : res (option prefix)) : Prop :=
  exists d, R = Ok (pick n (stored d)) /\ swf k d /\ (forall x, length x = WN -> den d x <-> den me x /\ ~ den reserved x).

Lemma peq_none : forall a b : snode, (fun _ _ : snode => false) a b = true -> a = b.
Proof. discriminate. Qed.

Lemma room_kid' k p d s h a l r c : swf k (Node p d s h a l r) -> (room W (kid c l r) < room W (Node p d s h a l r))%nat.
Proof. exact (room_kid W HW (fun _ _ => false) peq_none k p d s h a l r c). Qed.

Lemma findSmallestR_ok n fuel : forall k me reserved, (room W me + room W reserved < fuel)%nat -> swf k me -> swf [] reserved ->
  find_post k me reserved n (findSmallestR W fuel me reserved n).
Proof.
  induction fuel as [|fuel IH]; intros k me reserved F Hm Ho; [lia|]. cbn [findSmallestR].
  destruct me as [|mp md ms mh ma ml mr].
  { exists Nil. split; [reflexivity|]. split; [apply swf_nil|]. intros; cbn; tauto. }
  set (me := Node mp md ms mh ma ml mr) in *.
  pose proof (swf_prefix _ _ _ _ _ _ _ _ _ Hm) as Pm. pose proof (swf_pre _ _ _ _ _ _ _ _ _ Hm) as Km.
  destruct (N.ltb_spec n (plen mp)) as [G|G].
  { pose proof (swf_rebase _ _ _ _ _ _ _ _ _ _ Hm (pre_refl _)) as Hm'. fold me in Hm'.
    destruct (Difference_ok W HW _ peq_none (key mp) me reserved Hm' Ho) as (d & _ & Sd & Dd).
    exists d. split; [|split; [eapply swf_weaken; [exact Km|exact Sd]|exact Dd]].
    assert (pick n (stored d) = None) as ->; [|reflexivity]. apply pick_none. intros q I.
    pose proof (stored_plen _ _ _ (proj1 Sd) I) as P. rewrite nlen_key in P. lia. }
  destruct reserved as [|op od os oh oa ol or].
  { exists me. split; [exact (findSmallest_ok n k me Hm)|]. split; [exact Hm|]. intros; cbn; tauto. }
  set (reserved := Node op od os oh oa ol or) in *.
  pose proof (swf_prefix _ _ _ _ _ _ _ _ _ Ho) as Po.
  pose proof (Key.compare_spec W HW mp op Pm Po) as C.
  assert (RNE : exists y, length y = WN /\ den reserved y) by (apply (den_nonempty W _ _ Ho); discriminate).
  assert (RM : forall c', plen mp < W -> (room W (setNodeFromPrefix (half W c' mp)) < room W me)%nat) by (intros c' L; cbn; lia).
  assert (INACT : ma = false ->
    find_post k me reserved n (best (findSmallestR W fuel ml reserved n) (fun _ => findSmallestR W fuel mr reserved n) n)).
  { intros ->. pose proof (swf_l _ _ _ _ _ _ _ _ _ Hm) as Hml. pose proof (swf_r _ _ _ _ _ _ _ _ _ Hm) as Hmr.
    pose proof (room_kid' _ _ _ _ _ _ _ _ false Hm) as R1. pose proof (room_kid' _ _ _ _ _ _ _ _ true Hm) as R2.
    cbn [kid] in R1, R2. fold me in R1, R2.
    destruct (IH _ ml reserved ltac:(lia) Hml Ho) as (d1 & -> & S1 & D1).
    destruct (IH _ mr reserved ltac:(lia) Hmr Ho) as (d2 & -> & S2 & D2). rewrite best_pick.
    destruct (join_sides mp d1 d2 Pm S1 S2) as (d & Sd & Ed & Dd).
    { (* an inactive node is not all covered *)
      destruct (swf_inactive _ _ _ _ _ _ _ _ Hm) as (_ & _ & _ & _ & _ & PL).
      assert (X : ~ forall x, length x = WN -> pre (key mp) x -> den me x).
      { intros A. destruct (full_leaf W HW me k (key mp) Hm (wf_key_len W mp Pm) A) as (q & Iq & Pq).
        unfold me in Iq. cbn [stored app] in Iq. apply in_app_or in Iq. destruct Iq as [Iq|Iq].
        - pose proof (stored_wf _ _ _ _ (proj1 Hml) Iq) as [_ B]. eapply pre_snoc_not. eapply pre_trans; [exact B|exact Pq].
        - pose proof (stored_wf _ _ _ _ (proj1 Hmr) Iq) as [_ B]. eapply pre_snoc_not. eapply pre_trans; [exact B|exact Pq]. }
      (* find such an address constructively: den is decidable *)
      assert (DEC : forall t x, {den t x} + {~ den t x}).
      { clear. induction t as [|p d s h a l IHl r IHr]; intros x; cbn; [right; tauto|].
        destruct (IHl x); [left; auto|]. destruct (IHr x); [left; auto|]. destruct a; [|right; intros [[E _]|[E|E]]; auto; discriminate].
        destruct (pre_dec (key p) x); [left; auto|right; intros [[_ E]|[E|E]]; auto]. }
      assert (FIN : forall m u, length u = (WN - m)%nat -> (m <= WN)%nat ->
         {x | length x = WN /\ pre u x /\ ~ den me x} + {forall x, length x = WN -> pre u x -> den me x}).
      { clear - DEC. induction m as [|m IHm]; intros u Lu Lm.
        - destruct (DEC me u) as [A|A]; [right|left].
          + intros x Lx Px. apply pre_eq_length in Px; [subst; exact A|lia].
          + exists u. split; [lia|]. split; [apply pre_refl|exact A].
        - destruct (IHm (u ++ [false])) as [(x & A & B & C)|A]; [rewrite app_length; cbn; lia|lia| |].
          { left. exists x. split; [exact A|]. split; [eapply pre_app; exact B|exact C]. }
          destruct (IHm (u ++ [true])) as [(x & A' & B & C)|A']; [rewrite app_length; cbn; lia|lia| |].
          { left. exists x. split; [exact A'|]. split; [eapply pre_app; exact B|exact C]. }
          right. intros x Lx Px. destruct (pre_split u x) as [P|P]; auto. lia. }
      destruct (FIN (WN - length (key mp))%nat (key mp)) as [(x & A & B & C')|A]; [rewrite key_length; lia|lia| |contradiction].
      exists x. split; [exact A|]. split; [exact B|]. unfold me in C'. rewrite (den_inactive _ _ _ _ _ _ _ _ _ Hm) in C'.
      rewrite (D1 x A), (D2 x A). tauto. }
    exists d. rewrite Ed. split; [reflexivity|]. split; [eapply swf_weaken; [exact Km|exact Sd]|].
    intros x Lx. rewrite (Dd x), (D1 x Lx), (D2 x Lx). unfold me. rewrite (den_inactive _ _ _ _ _ _ _ _ _ Hm). tauto. }
  destruct C as [E|c x E|c x E|q c ra rb rev E1 E2 Er]; cbn beta iota zeta.
  - (* same *)
    destruct ma; cbn [negb]; [|apply INACT; reflexivity].
    destruct oa.
    { exists Nil. split; [reflexivity|]. split; [apply swf_nil|]. intros y Ly. split; [intros []|]. intros [A B]. apply B.
      apply (den_active _ _ _ _ _ _ _ _ _ Ho). rewrite <- E. exact (den_pre_node _ _ _ _ _ _ _ _ _ _ Hm A). }
    destruct (swf_inactive _ _ _ _ _ _ _ _ Ho) as (_ & _ & _ & _ & _ & Lo).
    assert (EL : plen mp = plen op) by (rewrite <- !(nlen_key W), E; reflexivity).
    assert (Lm : plen mp < W) by lia. rewrite (halves_eq W mp Pm Lm).
    pose proof (swf_half W false mp Pm Lm) as H0. pose proof (swf_half W true mp Pm Lm) as H1.
    pose proof (RM false Lm). pose proof (RM true Lm).
    pose proof (room_kid' _ _ _ _ _ _ _ _ false Ho) as R3. pose proof (room_kid' _ _ _ _ _ _ _ _ true Ho) as R4. cbn [kid] in R3, R4. fold reserved in R3, R4.
    pose proof (swf_l _ _ _ _ _ _ _ _ _ Ho) as Hol. pose proof (swf_r _ _ _ _ _ _ _ _ _ Ho) as Hor.
    destruct (IH _ (setNodeFromPrefix (half W false mp)) ol ltac:(lia) H0 (swf_weaken _ _ _ _ (pre_nil _) Hol)) as (d1 & -> & S1 & D1).
    destruct (IH _ (setNodeFromPrefix (half W true mp)) or ltac:(lia) H1 (swf_weaken _ _ _ _ (pre_nil _) Hor)) as (d2 & -> & S2 & D2).
    rewrite best_pick.
    destruct (join_sides mp d1 d2 Pm S1 S2) as (d & Sd & Ed & Dd).
    { destruct RNE as (y & Ly & Dy). exists y. split; [exact Ly|]. split; [rewrite E; exact (den_pre_node _ _ _ _ _ _ _ _ _ _ Ho Dy)|].
      rewrite (D1 y Ly), (D2 y Ly), !den_half by auto. unfold reserved in Dy. rewrite (den_inactive _ _ _ _ _ _ _ _ _ Ho) in Dy. rewrite E.
      split; intros [A B]; destruct Dy as [Dy|Dy]; auto.
      - exact (den_other_side W (key op) false or y Hor A Dy).
      - exact (den_other_side W (key op) true ol y Hol A Dy). }
    exists d. rewrite Ed. split; [reflexivity|]. split; [eapply swf_weaken; [exact Km|exact Sd]|].
    intros x Lx. rewrite (Dd x), (D1 x Lx), (D2 x Lx), !den_half by auto.
    unfold me, reserved. rewrite (den_active _ _ _ _ _ _ _ _ _ Hm), (den_inactive _ _ _ _ _ _ _ _ _ Ho).
    rewrite E in *. split.
    + intros [[A B]|[A B]]; (split; [eapply pre_app; exact A|]); intros [D|D].
      * tauto.
      * exact (den_other_side W (key op) false or x Hor A D).
      * exact (den_other_side W (key op) true ol x Hol A D).
      * tauto.
    + intros [A B]. destruct (pre_split (key op) x) as [P|P]; [rewrite Lx, key_length; lia|exact A|tauto|tauto].
  - (* me contains reserved *)
    destruct ma; cbn [negb]; [|apply INACT; reflexivity].
    assert (Lm : plen mp < W). { destruct Po as [_ Po]. rewrite <- (nlen_key W op), E, nlen_app, nlen_cons, nlen_key in Po. lia. }
    rewrite (halves_eq W mp Pm Lm). pose proof (RM c Lm) as RC.
    pose proof (swf_half W c mp Pm Lm) as Hc. pose proof (swf_half W (negb c) mp Pm Lm) as Hn.
    assert (WH : (if c then setNodeFromPrefix (half W false mp) else setNodeFromPrefix (half W true mp)) = setNodeFromPrefix (half W (negb c) mp)) by (destruct c; reflexivity).
    assert (PA : (if c then setNodeFromPrefix (half W true mp) else setNodeFromPrefix (half W false mp)) = setNodeFromPrefix (half W c mp)) by (destruct c; reflexivity).
    rewrite WH, PA. rewrite (findSmallest_ok n _ _ Hn).
    destruct (IH _ (setNodeFromPrefix (half W c mp)) reserved ltac:(lia) Hc Ho) as (d1 & -> & S1 & D1).
    rewrite best_pick.
    assert (RY : exists y, length y = WN /\ den reserved y /\ pre (key mp ++ [c]) y).
    { destruct RNE as (y & Ly & Dy). exists y. split; [exact Ly|]. split; [exact Dy|].
      pose proof (den_pre_node _ _ _ _ _ _ _ _ _ _ Ho Dy) as B. rewrite E, snoc_cons in B. eapply pre_app; exact B. }
    destruct RY as (y & Ly & Dy & Py).
    assert (LONG : forall p, In p (stored d1) -> plen (half W (negb c) mp) < plen p).
    { intros p I. pose proof (stored_plen _ _ _ (proj1 S1) I) as P. rewrite nlen_app, nlen_key in P. change (nlen [c]) with 1 in P. cbn [half plen].
      destruct (N.eq_dec (plen p) (plen mp + 1)) as [EP|EP]; [exfalso|lia].
      pose proof (stored_wf _ _ _ _ (proj1 S1) I) as [Wp Pp].
      assert (EK : key mp ++ [c] = key p) by (apply pre_eq_length; [exact Pp|rewrite app_length, !key_length; cbn; lia]).
      assert (D : den d1 y) by (apply den_stored; exists p; split; [exact I|rewrite <- EK; exact Py]).
      apply (D1 y Ly) in D. tauto. }
    assert (J : exists d, swf (key mp) d /\ pick n (stored d) = pick n (stored (setNodeFromPrefix (half W (negb c) mp)) ++ stored d1) /\
       forall x, den d x <-> den (setNodeFromPrefix (half W (negb c) mp)) x \/ den d1 x).
    { assert (ND : ~ den d1 y) by (rewrite (D1 y Ly); tauto).
      assert (NH : ~ den (setNodeFromPrefix (half W (negb c) mp)) y).
      { rewrite den_half by auto. intros P. pose proof (pre_snoc_inj _ _ _ _ Py P). destruct c; discriminate. }
      assert (Pm' : pre (key mp) y) by (eapply pre_app; exact Py).
      destruct c; cbn [negb] in *.
      - destruct (join_sides mp (setNodeFromPrefix (half W false mp)) d1 Pm Hn S1) as (d & Sd & Ed & Dd); [exists y; auto|].
        exists d. split; [exact Sd|]. split; [rewrite Ed; reflexivity|exact Dd].
      - destruct (join_sides mp d1 (setNodeFromPrefix (half W true mp)) Pm S1 Hn) as (d & Sd & Ed & Dd); [exists y; auto|].
        exists d. split; [exact Sd|]. split; [|intros z; rewrite (Dd z); tauto].
        rewrite Ed. symmetry. apply (pick_swap n (half W true mp)). exact LONG. }
    destruct J as (d & Sd & Ed & Dd). exists d. rewrite Ed. split; [reflexivity|]. split; [eapply swf_weaken; [exact Km|exact Sd]|].
    intros z Lz. rewrite (Dd z), (D1 z Lz), !den_half by auto. unfold me at 1. rewrite (den_active _ _ _ _ _ _ _ _ _ Hm). split.
    + intros [A|[A B]]; (split; [eapply pre_app; exact A|]); auto.
      intros D. pose proof (den_pre_node _ _ _ _ _ _ _ _ _ _ Ho D) as B. rewrite E, snoc_cons in B. apply pre_app in B.
      pose proof (pre_snoc_inj _ _ _ _ A B). destruct c; discriminate.
    + intros [A B]. destruct (pre_split (key mp) z) as [P|P]; auto; [rewrite Lz, key_length; lia| |]; destruct c; auto.
  - (* me is contained in reserved *)
    destruct oa.
    { exists Nil. split; [reflexivity|]. split; [apply swf_nil|]. intros y Ly. split; [intros []|]. intros [A B]. apply B.
      apply (den_active _ _ _ _ _ _ _ _ _ Ho). pose proof (den_pre_node _ _ _ _ _ _ _ _ _ _ Hm A) as P. rewrite E in P. eapply pre_app; exact P. }
    pose proof (room_kid' _ _ _ _ _ _ _ _ c Ho) as RK. fold reserved in RK.
    destruct (IH k me (kid c ol or) ltac:(lia) Hm (swf_weaken _ _ _ _ (pre_nil _) (swf_kid _ _ _ _ _ _ _ _ _ c Ho))) as (t & -> & St & Dt).
    exists t. split; [reflexivity|]. split; [exact St|]. intros y Ly. rewrite (Dt y Ly). unfold reserved. rewrite (den_inactive _ _ _ _ _ _ _ _ _ Ho).
    split; [|destruct c; cbn [kid]; tauto]. intros [A B]. split; [exact A|].
    assert (PM : pre (key op ++ [c]) y).
    { pose proof (den_pre_node _ _ _ _ _ _ _ _ _ _ Hm A) as P. rewrite E, snoc_cons in P. eapply pre_app; exact P. }
    pose proof (swf_kid _ _ _ _ _ _ _ _ _ (negb c) Ho) as Hn. pose proof (den_other_side _ _ _ _ _ Hn PM) as ND.
    destruct c; cbn [kid negb] in *; tauto.
  - (* disjoint *)
    exists me. split; [exact (findSmallest_ok n k me Hm)|]. split; [exact Hm|]. intros y Ly. split; [|tauto]. intros A. split; [exact A|]. intros D.
    pose proof (den_pre_node _ _ _ _ _ _ _ _ _ _ Hm A) as P1. pose proof (den_pre_node _ _ _ _ _ _ _ _ _ _ Ho D) as P2.
    rewrite E1, snoc_cons in P1. rewrite E2, snoc_cons in P2. apply pre_app in P1. apply pre_app in P2.
    pose proof (pre_snoc_inj _ _ _ _ P1 P2). destruct c; discriminate.
Qed.
Lemma Find_ok n me reserved : swf [] me -> swf [] reserved -> find_post [] me reserved n (FindSmallestContainingPrefix W me reserved n).
Proof.
  intros Hm Ho. apply findSmallestR_ok; auto. pose proof (room_max W HW _ peq_none me). pose proof (room_max W HW _ peq_none reserved). unfold fuelW. lia.
Qed.
End FindProof.
