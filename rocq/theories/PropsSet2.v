(* PropsSet2.v - C52: inserting and removing a single prefix directly on the set
   trie (setNode.Insert, setNode.Remove; the package's own tests are their only
   callers).  Throughout: W is 32 or 128, peq any way pointer comparisons may come
   out (pointer_eq), s any set a program can obtain (set_value). *)
From Verif Require Export PropsSet SetDel PropsV6 PropsV6b SimDel6.
From Coq Require Import Arith Lia ZifyBool ZifyNat ZifyN.

Section Props.
Variable W : N.
Hypothesis IPW : ip_width W.
Let HW : 0 < W /\ W < 2 ^ 15 := ip_HW W IPW.

(* Remove(p) gives exactly the set Difference(p) gives: the addresses of s outside p *)
Theorem C52_remove : forall peq s p, pointer_eq peq -> set_value W s -> wf_prefix W p ->
  exists u, snode_remove W peq s p = Ok u /\ set_Difference W peq s (Some (PrefixSet p)) = Ok u /\ set_value W u /\
    forall a, mem W u a <-> mem W s a /\ ~ in_prefix W p a.
Proof.
  intros peq s p P Hs Hp.
  destruct (C23_difference W IPW peq s (Some (PrefixSet p)) P Hs (va_prefix W p Hp)) as (t & u & _ & EU & SU & _ & M).
  exists u. split; [|split; [exact EU|split; [exact SU|intros a; rewrite (M I a); reflexivity]]].
  rewrite (snode_remove_diff W HW peq P s p [] Hp (vswf W IPW s Hs)). unfold set_Difference in EU. exact EU.
Qed.

(* the case Insert gets wrong: s has addresses in both halves of p, but not all of p *)
Definition half_filled (s : snode) (p : prefix) : Prop :=
  plen p < W /\ (exists a, in_prefix W (half W false p) a /\ mem W s a) /\ (exists a, in_prefix W (half W true p) a /\ mem W s a) /\
  ~ prefix_in W (mem W s) p.

Lemma half_filled_joins s p : swf W [] s -> wf_prefix W p -> (half_filled s p <-> joins W (key W p) s).
Proof.
  intros H Hp. assert (LK : (length (key W p) <= N.to_nat W)%nat) by (rewrite key_length; destruct Hp; lia).
  rewrite (joins_den W HW (key W p) s [] H LK).
  assert (HALF : plen p < W -> forall c, (exists a, in_prefix W (half W c p) a /\ mem W s a) <-> exists x, length x = N.to_nat W /\ pre (key W p ++ [c]) x /\ den W s x).
  { intros L c. pose proof (half_wf W c p Hp L) as Hh. split.
    - intros (a & I & M). pose proof (in_lt W HW _ _ Hh I) as La. exists (full W a). split; [apply full_length|].
      split; [rewrite <- (key_half W c p Hp L); apply (in_prefix_pre W); auto|apply (mem_den W [] s a); [apply H|exact La|exact M]].
    - intros (x & Lx & Px & Dx). destruct (full_of W HW x Lx) as (a & La & <-). exists a.
      split; [apply (in_prefix_pre W); auto; rewrite (key_half W c p Hp L); exact Px|apply (mem_den W [] s a); [apply H|exact La|exact Dx]]. }
  assert (ALL : prefix_in W (mem W s) p <-> (forall z, length z = N.to_nat W -> pre (key W p) z -> den W s z)).
  { split.
    - intros A z Lz Pz. destruct (full_of W HW z Lz) as (a & La & <-). apply (mem_den W [] s a); [apply H|exact La|]. apply A. apply (in_prefix_pre W); auto.
    - intros A a I. pose proof (in_lt W HW _ _ Hp I) as La. apply (mem_den W [] s a); [apply H|exact La|]. apply A; [apply full_length|]. apply (in_prefix_pre W); auto. }
  unfold half_filled. split.
  - intros (L & A & B & C). rewrite (HALF L) in A, B. rewrite ALL in C. auto.
  - intros (A & B & C). assert (L : plen p < W).
    { destruct A as (x & Lx & Px & _). apply pre_length in Px. rewrite app_length, key_length, Lx in Px. cbn in Px. lia. }
    split; [exact L|]. rewrite !(HALF L), ALL. auto.
Qed.

(* Insert(p) gives exactly the set Union(p) gives, unless ... *)
Theorem C52_insert_partial : forall peq s p, pointer_eq peq -> set_value W s -> wf_prefix W p -> ~ half_filled s p ->
  exists u, snode_insert W s p = Ok u /\ set_Union W peq s (Some (PrefixSet p)) = Ok u /\ set_value W u /\
    forall a, mem W u a <-> mem W s a \/ in_prefix W p a.
Proof.
  intros peq s p P Hs Hp NH. rewrite (half_filled_joins s p (vswf W IPW s Hs) Hp) in NH.
  destruct (C23_union W IPW peq s (Some (PrefixSet p)) P Hs (va_prefix W p Hp)) as (t & u & _ & EU & SU & _ & M).
  exists u. split; [|split; [exact EU|split; [exact SU|intros a; rewrite (M I a); reflexivity]]].
  rewrite (snode_insert_union W HW peq P s p [] Hp (vswf W IPW s Hs) NH). exact EU.
Qed.
(* ... s has addresses in both halves of p but not all of them: then Insert(p)
   returns s itself, and the addresses of p missing from s stay missing *)
Theorem C52_insert_dropped : forall s p, set_value W s -> wf_prefix W p -> half_filled s p ->
  snode_insert W s p = Ok s /\ exists a, in_prefix W p a /\ ~ mem W s a.
Proof.
  intros s p Hs Hp HF. split.
  - apply (half_filled_joins s p (vswf W IPW s Hs) Hp) in HF. exact (snode_insert_join W HW (fun _ _ => false) ltac:(discriminate) s p [] Hp (vswf W IPW s Hs) HF).
  - destruct HF as (_ & _ & _ & NF).
    assert (IND : forall q a, {in_prefix W q a} + {~ in_prefix W q a}) by (intros q a; unfold in_prefix; solve [apply N.eq_dec|apply list_eq_dec, bool_dec]).
    assert (MD : forall a, a < 2 ^ W -> mem W s a \/ ~ mem W s a).
    { intros a La. destruct (Exists_dec (fun q => in_prefix W q a) (stored s) (fun q => IND q a)) as [E|E]; rewrite Exists_exists in E; [left; split; auto|right; intros [_ M]; auto]. }
    assert (SEARCH : forall n, n <= 2 ^ W -> (forall a, a < n -> in_prefix W p a -> mem W s a) \/ exists a, in_prefix W p a /\ ~ mem W s a).
    { induction n as [|n IH] using N.peano_ind; intros Ln; [left; intros a La; lia|]. destruct IH as [IH|IH]; [lia| |right; exact IH].
      destruct (IND p n) as [Y|NY].
      - destruct (MD n) as [M|M]; [lia| |right; eauto]. left. intros a La Ia. destruct (N.eq_dec a n) as [->|NE]; [exact M|apply IH; auto; lia].
      - left. intros a La Ia. destruct (N.eq_dec a n) as [->|NE]; [contradiction|apply IH; auto; lia]. }
    destruct (SEARCH (2 ^ W) (N.le_refl _)) as [A|A]; [|exact A]. exfalso. apply NF. intros a Ia. apply A; [exact (in_lt W HW p a Hp Ia)|exact Ia].
Qed.
End Props.

(* the same for the ipv6 package over uint128 structs *)
Section Props6.
Let IPW : ip_width 128 := or_intror eq_refl.

Theorem C52_remove6 : forall peq s p, pointer_eq6 peq -> set_value6 s -> wf6 p ->
  exists u, snode_remove6 peq s p = Ok u /\ set_Difference6 peq s (Some (PrefixSet6 p)) = Ok u /\ set_value6 u /\
    forall a, wfu a -> (mem6 u a <-> mem6 s a /\ ~ in_prefix6 p a).
Proof.
  intros peq s p P Hs Hp. destruct (C48_difference peq s (Some (PrefixSet6 p)) P Hs (va6_prefix p Hp) I) as (u & EU & SU & M).
  exists u. split; [|split; [exact EU|split; [exact SU|exact M]]].
  destruct (sv_sim s Hs) as [Ss SV].
  assert (PS : psim p (pnum p)) by (split; [exact (proj1 Hp)|reflexivity]).
  destruct (C52_remove 128 IPW (peqof peq) (tnum s) (pnum p) (pe_of peq P) SV (wf6_num p Hp)) as (v & ER & ED & _).
  destruct (rsim_ok_r _ _ _ _ (snode_remove_sim peq (peqof peq) (peqof_sim peq) _ _ _ _ Ss PS) ER) as (x6 & E6 & Sx).
  destruct (rsim_ok_r _ _ _ _ (set_Difference_sim peq (peqof peq) (peqof_sim peq) s (tnum s) (Some (PrefixSet6 p)) (Some (PrefixSet (pnum p))) Ss ltac:(constructor; exact PS)) ED) as (y6 & F6 & Sy).
  rewrite F6 in EU. injection EU as <-. rewrite E6. f_equal. exact (tsim_inj _ _ _ Sx Sy).
Qed.
Theorem C52_insert6_partial : forall peq s p, pointer_eq6 peq -> set_value6 s -> wf6 p ->
  (~ (plen6 p < 128 /\ (exists a, wfu a /\ in_prefix 128 (half 128 false (pnum p)) (num a) /\ mem6 s a) /\
      (exists a, wfu a /\ in_prefix 128 (half 128 true (pnum p)) (num a) /\ mem6 s a) /\ ~ prefix_in6 (mem6 s) p)) ->
  exists u, snode_insert6 s p = Ok u /\ set_Union6 peq s (Some (PrefixSet6 p)) = Ok u /\ set_value6 u /\
    forall a, wfu a -> (mem6 u a <-> mem6 s a \/ in_prefix6 p a).
Proof.
  intros peq s p P Hs Hp NH. destruct (C48_union peq s (Some (PrefixSet6 p)) P Hs (va6_prefix p Hp) I) as (u & EU & SU & M).
  exists u. split; [|split; [exact EU|split; [exact SU|exact M]]].
  destruct (sv_sim s Hs) as [Ss SV].
  assert (PS : psim p (pnum p)) by (split; [exact (proj1 Hp)|reflexivity]).
  assert (NH' : ~ half_filled 128 (tnum s) (pnum p)).
  { intros (L & A & B & C). apply NH. split; [exact L|].
    assert (HA : forall c, (exists a, in_prefix 128 (half 128 c (pnum p)) a /\ mem 128 (tnum s) a) -> exists a, wfu a /\ in_prefix 128 (half 128 c (pnum p)) (num a) /\ mem6 s a).
    { intros c (a & I & Ma). exists (of_num a). pose proof (proj1 Ma) as La. assert (WF : wfu (of_num a)) by (apply wfu_of_num; exact La).
      assert (NE : num (of_num a) = a) by (apply num_of_num). split; [exact WF|]. rewrite NE. split; [exact I|]. apply (mem_sim s (tnum s) _ Ss WF). rewrite NE. exact Ma. }
    split; [exact (HA false A)|]. split; [exact (HA true B)|]. intros F. apply C.
    apply (prefix_in_num (mem 128 (tnum s)) (mem6 s) p); [intros a Wa; apply mem_sim; auto|exact Hp|exact F]. }
  destruct (C52_insert_partial 128 IPW (peqof peq) (tnum s) (pnum p) (pe_of peq P) SV (wf6_num p Hp) NH') as (v & ER & ED & _).
  destruct (rsim_ok_r _ _ _ _ (snode_insert_sim _ _ _ _ Ss PS) ER) as (x6 & E6 & Sx).
  destruct (rsim_ok_r _ _ _ _ (set_Union_sim peq (peqof peq) (peqof_sim peq) s (tnum s) (Some (PrefixSet6 p)) (Some (PrefixSet (pnum p))) Ss ltac:(constructor; exact PS)) ED) as (y6 & F6 & Sy).
  rewrite F6 in EU. injection EU as <-. rewrite E6. f_equal. exact (tsim_inj _ _ _ Sx Sy).
Qed.
Theorem C52_insert6_dropped : forall s p, set_value6 s -> wf6 p ->
  plen6 p < 128 -> (exists a, wfu a /\ in_prefix 128 (half 128 false (pnum p)) (num a) /\ mem6 s a) ->
  (exists a, wfu a /\ in_prefix 128 (half 128 true (pnum p)) (num a) /\ mem6 s a) -> ~ prefix_in6 (mem6 s) p ->
  snode_insert6 s p = Ok s.
Proof.
  intros s p Hs Hp L A B C. destruct (sv_sim s Hs) as [Ss SV]. assert (PS : psim p (pnum p)) by (split; [exact (proj1 Hp)|reflexivity]).
  assert (HF : half_filled 128 (tnum s) (pnum p)).
  { split; [exact L|].
    assert (HA : forall c, (exists a, wfu a /\ in_prefix 128 (half 128 c (pnum p)) (num a) /\ mem6 s a) -> exists a, in_prefix 128 (half 128 c (pnum p)) a /\ mem 128 (tnum s) a).
    { intros c (a & Wa & I & Ma). exists (num a). split; [exact I|]. apply (mem_sim s (tnum s) a Ss Wa). exact Ma. }
    split; [exact (HA false A)|]. split; [exact (HA true B)|]. intros F. apply C.
    apply (prefix_in_num (mem 128 (tnum s)) (mem6 s) p); [intros a Wa; apply mem_sim; auto|exact Hp|exact F]. }
  destruct (C52_insert_dropped 128 IPW (tnum s) (pnum p) SV (wf6_num p Hp) HF) as (ER & _).
  destruct (rsim_ok_r _ _ _ _ (snode_insert_sim _ _ _ _ Ss PS) ER) as (x6 & E6 & Sx).
  rewrite E6. f_equal. exact (tsim_inj _ _ _ Sx Ss).
Qed.
End Props6.
