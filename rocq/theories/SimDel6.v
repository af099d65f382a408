(* SimDel6.v - simulation of setNode.Insert and setNode.Remove of ipv6/setnode.go
   over uint128 structs (SetNode6.v) by the width-128 instance of SetNode.v. *)
From Verif Require Export SimSet6.
From Coq Require Import Arith Lia ZifyBool ZifyNat ZifyN.

Lemma tsim_inj {T} (a b : trie6 T) t : tsim a t -> tsim b t -> a = b.
Proof.
  intros A. revert b. induction A as [|p6 p d s h ac l6 l r6 r P L IHL R IHR]; intros b B;
    inversion B as [|q6 q d' s' h' ac' l6' l' r6' r' Q L' R']; subst; [reflexivity|].
  assert (PE : p6 = q6).
  { destruct P as [W1 E1], Q as [W2 E2]. rewrite E1 in E2. destruct p6 as [x n], q6 as [y m].
    unfold pnum in E2. cbn [paddr6 plen6] in E2. injection E2 as E2 ->. f_equal. apply num_inj; [apply W1|apply W2|exact E2]. }
  subst q6. f_equal; auto.
Qed.

Section SimDel.
Variable peq6 : snode6 -> snode6 -> bool.
Variable peq : snode -> snode -> bool.
Hypothesis Hpeq : forall a6 a b6 b, tsim a6 a -> tsim b6 b -> peq6 a6 b6 = peq a b.
Local Notation tsim := (@tsim unit).
Local Notation tesim := (@tesim unit).

Lemma snode_insert_sim t6 t p6 p : tsim t6 t -> psim p6 p -> rsim tsim (snode_insert6 t6 p6) (snode_insert 128 t p).
Proof.
  intros H P. unfold snode_insert6, snode_insert. apply (rsim_bind tesim); [apply insert_sim; assumption|].
  intros [x6 e6] [x e] [X _]. exact X.
Qed.
Lemma range_minus_sim a6 a b6 b : rgsim a6 a -> rgsim b6 b -> Forall2 rgsim (range_minus6 a6 b6) (range_minus 128 a b).
Proof. intros [A ->] [B ->]. destruct (range_minus6_num a6 b6 A B) as [F E]. apply rglist; assumption. Qed.
Lemma sdel_sim t6 t : tsim t6 t -> forall p6 p, psim p6 p -> rsim tesim (sdel6 peq6 t6 p6) (sdel 128 peq t p).
Proof.
  induction 1 as [|q6 q dd s h a l6 l r6 r Q L IHL R IHR]; intros p6 p P; cbn [sdel6 sdel].
  - split; [constructor|reflexivity].
  - assert (ME : tsim (Node6 q6 dd s h a l6 r6) (Node q dd s h a l r)) by (constructor; assumption).
    rewrite (psim_compare q6 q p6 p Q P). destruct (compare 128 q p) as [[[result reversed] common] child]. destruct result.
    + split; [constructor|reflexivity].
    + destruct a.
      * pose proof (range_minus_sim _ _ _ _ (prefix_range_sim _ _ Q) (prefix_range_sim _ _ P)) as F. cbn zeta.
        destruct F as [|x6 x xs6 xs X F]; [exact I|]. destruct F as [|y6 y ys6 ys Y F].
        { apply (rsim_bind tsim); [apply (setNodeFromRange_sim _ _ Hpeq); exact X|]. intros u6 u U. split; [exact U|reflexivity]. }
        apply (rsim_bind tsim); [apply (setNodeFromRange_sim _ _ Hpeq); exact X|]. intros u6 u U.
        apply (rsim_bind tsim); [apply (setNodeFromRange_sim _ _ Hpeq); exact Y|]. intros v6 v V.
        apply (rsim_bind tsim); [apply (Union_sim _ _ Hpeq); assumption|]. intros z6 z ZZ. split; [exact ZZ|reflexivity].
      * apply (rsim_bind tesim); [destruct child; [apply IHR|apply IHL]; exact P|]. intros [n6 e6] [n e] [X E]. cbn [fst snd] in *. subst e6.
        destruct e as [e|]; [split; [exact ME|reflexivity]|]. rewrite (tsim_isnil _ _ X).
        destruct (is_nil n && negb false); split; cbn [fst snd]; auto; [apply tsim_kid; assumption|].
        apply tsim_mk; [exact Q|apply tsim_setl|apply tsim_setr]; assumption.
    + split; [constructor|reflexivity].
    + split; [exact ME|reflexivity].
Qed.
Lemma snode_remove_sim t6 t p6 p : tsim t6 t -> psim p6 p -> rsim tsim (snode_remove6 peq6 t6 p6) (snode_remove 128 peq t p).
Proof.
  intros H P. unfold snode_remove6, snode_remove. apply (rsim_bind tesim); [apply sdel_sim; assumption|].
  intros [x6 e6] [x e] [X _]. exact X.
Qed.
End SimDel.
